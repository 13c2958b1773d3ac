(** * Facts about the constructed systems *)
Set Warnings "-notation-overridden,-ambiguous-paths".
From Coq Require Import Reals List Lra Lia Arith.
From Verif Require Import Base Systems SpecSys SystemsFacts SystemInit.
Import ListNotations.
Local Open Scope R_scope.

(** ** diagonal matrices *)
(** the weighted sum of squares *)
Fixpoint wsq (d v : list R) : R :=
  match d, v with a :: d, x :: v => a * x ^ 2 + wsq d v | _, _ => 0 end.
Lemma dot_cons a u b v : dot (a :: u) (b :: v) = a * b + dot u v.
Proof. reflexivity. Qed.
Lemma dot_pick i c : forall v k, dot (map (fun j => if Nat.eqb i j then c else 0) (seq k (length v))) v =
  if Nat.leb k i then c * nth (i - k) v 0 else 0.
Proof.
induction v as [|x v IH]; intros k; cbn [length seq map].
- cbn. destruct (Nat.leb k i); [|reflexivity]. destruct (i - k)%nat; ring.
- rewrite dot_cons, IH. destruct (Nat.eqb_spec i k) as [->|ne].
  + rewrite Nat.leb_refl, Nat.sub_diag. replace (Nat.leb (S k) k) with false by (symmetry; apply Nat.leb_gt; lia). cbn. ring.
  + destruct (Nat.leb_spec k i) as [h|h].
    * replace (Nat.leb (S k) i) with true by (symmetry; apply Nat.leb_le; lia).
      replace (i - k)%nat with (S (i - S k)) by lia. cbn [nth]. ring.
    * replace (Nat.leb (S k) i) with false by (symmetry; apply Nat.leb_gt; lia). ring.
Qed.
Lemma diag_matvec d v : length v = length d -> matvec (diag d) v = map (fun i => nth i d 0 * nth i v 0) (seq 0 (length d)).
Proof.
intros e. unfold matvec, diag. rewrite map_map. apply map_ext. intros i. rewrite <- e, dot_pick. cbn. now rewrite Nat.sub_0_r.
Qed.
Lemma dot_wsq : forall v d, length v = length d -> dot v (map (fun i => nth i d 0 * nth i v 0) (seq 0 (length d))) = wsq d v.
Proof.
induction v as [|x v IH]; intros [|a d] e; try discriminate; [reflexivity|]. injection e as e.
cbn [length seq map wsq]. rewrite <- seq_shift, map_map, dot_cons. cbn [nth]. rewrite IH by assumption. ring.
Qed.
Lemma quad_diag d v : length v = length d -> quad (diag d) v = wsq d v.
Proof. intros e. unfold quad. rewrite diag_matvec by assumption. now apply dot_wsq. Qed.
Lemma nth_mk (f : nat -> R) n i : (i < n)%nat -> nth i (map f (seq 0 n)) 0 = f i.
Proof.
intros h. rewrite (nth_indep _ 0 (f n)) by (rewrite map_length, seq_length; lia).
rewrite (map_nth f), seq_nth by lia. reflexivity.
Qed.
Lemma diag_sym d : diag d = transpose (length d) (diag d).
Proof.
unfold transpose. unfold diag at 1. apply map_ext_in. intros i hi. unfold diag. rewrite map_map. apply map_ext_in. intros j hj.
apply in_seq in hi. apply in_seq in hj. rewrite nth_mk by lia.
destruct (Nat.eqb_spec i j) as [->|ne]; [now rewrite Nat.eqb_refl|]. destruct (Nat.eqb_spec j i); [congruence|reflexivity].
Qed.
Lemma wsq_pos : forall d v, Forall (fun a => 0 < a) d -> length v = length d -> 0 <= wsq d v /\ (v <> repeat 0 (length d) -> 0 < wsq d v).
Proof.
induction d as [|a d IH]; intros [|x v] hd e; try discriminate; [split; [cbn; lra|now intros h]|].
injection e as e. inversion hd as [|? ? ha hd']; subst. destruct (IH v hd' e) as [h0 h1]. cbn [wsq repeat length].
assert (0 <= a * x ^ 2) by (apply Rmult_le_pos; [lra|apply pow2_ge_0]). split; [lra|]. intros nz.
destruct (Req_dec x 0) as [->|nx].
- assert (0 < wsq d v) by (apply h1; congruence). lra.
- assert (0 < x ^ 2) by (rewrite <- Rsqr_pow2; now apply Rsqr_pos_lt). assert (0 < a * x ^ 2) by now apply Rmult_lt_0_compat. lra.
Qed.
Lemma wsq_zero : forall d v, Forall (fun x => x = 0) v -> wsq d v = 0.
Proof. induction d as [|a d IH]; intros [|x v] h; try reflexivity. inversion h; subst. cbn [wsq]. rewrite IH by assumption. ring. Qed.
(** a unit vector *)
Definition unit (n i : nat) : list R := map (fun j => if Nat.eqb i j then 1 else 0) (seq 0 n).
Lemma unit_len n i : length (unit n i) = n.
Proof. unfold unit. now rewrite map_length, seq_length. Qed.
Lemma wsq_unit : forall d k i, (i < length d)%nat -> wsq d (map (fun j => if Nat.eqb (i + k) j then 1 else 0) (seq k (length d))) = nth i d 0.
Proof.
induction d as [|a d IH]; intros k i hi; [inversion hi|]. cbn [length seq map wsq]. destruct i as [|i].
- cbn [nth]. rewrite Nat.add_0_l, Nat.eqb_refl. rewrite wsq_zero; [ring|].
  apply Forall_forall. intros x hx. apply in_map_iff in hx as [j [<- hj]]. apply in_seq in hj. destruct (Nat.eqb_spec k j); [lia|reflexivity].
- cbn [nth]. replace (Nat.eqb (S i + k) k) with false by (symmetry; apply Nat.eqb_neq; lia).
  replace (S i + k)%nat with (i + S k)%nat by lia. rewrite IH by (cbn in hi; lia). ring.
Qed.
Lemma diag_pd d : pos_def (length d) (diag d) <-> Forall (fun a => 0 < a) d.
Proof.
split.
- intros [_ h]. apply Forall_forall. intros a ha. destruct (In_nth d a 0 ha) as [i [hi <-]].
  specialize (h (unit (length d) i) (unit_len _ _)). rewrite quad_diag in h by apply unit_len.
  pose proof (wsq_unit d 0 i hi) as w. rewrite Nat.add_0_r in w. fold (unit (length d) i) in w. rewrite w in h. apply h.
  intros e. assert (hn : nth i (unit (length d) i) 0 = 0) by (rewrite e; apply nth_repeat).
  unfold unit in hn. rewrite nth_mk, Nat.eqb_refl in hn by lia. lra.
- intros h. split; [apply diag_sym|]. intros v hv nz. rewrite quad_diag by assumption. now apply wsq_pos.
Qed.

(** ** measurement noise *)
Lemma eye_ok n v : (exists m, eye_times n v = Ok m) <-> length v = n \/ length v = 1%nat \/ n = 1%nat.
Proof.
unfold eye_times. destruct (Nat.eqb_spec (length v) n); [split; eauto|].
destruct (Nat.eqb_spec (length v) 1); [split; eauto|]. destruct (Nat.eqb_spec n 1); [split; eauto|].
split; [intros [? [=]]|tauto].
Qed.
Lemma wsq_map_sq : forall rs v, wsq (map (fun r => r ^ 2) rs) v = wsq (repeat 1 (length rs)) (map (fun p => fst p * snd p) (combine rs v)).
Proof.
induction rs as [|r rs IH]; intros [|x v]; try reflexivity. cbn [map wsq combine length repeat fst snd]. rewrite IH. ring.
Qed.
Lemma wsq_repeat r : forall n v, length v = n -> wsq (repeat r n) v = r * dot v v.
Proof.
induction n as [|n IH]; intros [|x v] e; try discriminate; [cbn; ring|]. injection e as e. cbn [repeat wsq].
rewrite dot_cons, IH by assumption. ring.
Qed.
Lemma map_repeat' (A B : Type) (f : A -> B) a n : map f (repeat a n) = repeat (f a) n.
Proof. induction n; cbn; congruence. Qed.

(** ** slow turns *)
Lemma sin_quot eps : 0 < eps -> exists delta, 0 < delta /\ forall h, h <> 0 -> Rabs h < delta -> Rabs (sin h / h - 1) < eps.
Proof.
intros he. destruct (derivable_pt_lim_sin 0 eps he) as [[d hd] hl]. exists d. split; [exact hd|]. intros h h0 hh.
specialize (hl h h0 hh). rewrite Rplus_0_l, sin_0, Rminus_0_r, cos_0 in hl. exact hl.
Qed.
Lemma cos_quot eps : 0 < eps -> exists delta, 0 < delta /\ forall h, h <> 0 -> Rabs h < delta -> Rabs ((1 - cos h) / h) < eps.
Proof.
intros he. destruct (derivable_pt_lim_cos 0 eps he) as [[d hd] hl]. exists d. split; [exact hd|]. intros h h0 hh.
specialize (hl h h0 hh). rewrite Rplus_0_l, cos_0, sin_0 in hl. rewrite <- Rabs_Ropp.
replace (- ((1 - cos h) / h)) with ((cos h - 1) / h - - 0) by (field; assumption). exact hl.
Qed.

Lemma abs_lin (p q x y e : R) : Rabs p <= e -> Rabs q <= e -> Rabs (p * x + q * y) <= e * (Rabs x + Rabs y).
Proof.
intros hp hq. apply Rle_trans with (1 := Rabs_triang _ _). rewrite !Rabs_mult.
pose proof (Rabs_pos x); pose proof (Rabs_pos y). rewrite Rmult_plus_distr_l.
apply Rplus_le_compat; apply Rmult_le_compat_r; assumption.
Qed.
Lemma slow_turn dt a b c d eps : 0 < eps -> exists delta, 0 < delta /\ forall w, w <> 0 -> Rabs w < delta ->
  exists a' b' c' d', matvec (bott_F dt w) [a; b; c; d; w] = [a'; b'; c'; d'; w] /\
  Rabs (a' - (a + dt * b)) < eps /\ Rabs (b' - b) < eps /\ Rabs (c' - (c + dt * d)) < eps /\ Rabs (d' - d) < eps.
Proof.
intros he. destruct (Req_dec dt 0) as [->|nd].
- exists 1. split; [lra|]. intros w hw _. rewrite bott_row by assumption. rewrite Rmult_0_r, sin_0, cos_0.
  do 4 eexists. split; [reflexivity|].
  replace (a + (0 * b - (1 - 1) * d) / w - (a + 0 * b)) with 0 by (field; assumption).
  replace (1 * b - 0 * d - b) with 0 by ring.
  replace (c + ((1 - 1) * b + 0 * d) / w - (c + 0 * d)) with 0 by (field; assumption).
  replace (0 * b + 1 * d - d) with 0 by ring. rewrite Rabs_R0. tauto.
- set (T := Rabs b + Rabs d). set (M := (Rabs dt + 2) * (1 + T)).
  pose proof (Rabs_pos b); pose proof (Rabs_pos d); pose proof (Rabs_pos_lt dt nd) as pdt.
  assert (T0 : 0 <= T) by (unfold T; lra). assert (M0 : 0 < M) by (unfold M; apply Rmult_lt_0_compat; lra).
  set (e := Rmin 1 (eps / M)). assert (e0 : 0 < e). { unfold e. apply Rmin_pos; [lra|]. now apply Rdiv_lt_0_compat. }
  assert (e1 : e <= 1) by apply Rmin_l. assert (eM : e * M <= eps).
  { apply Rle_trans with (eps / M * M); [apply Rmult_le_compat_r; [lra|apply Rmin_r]|]. right. field. lra. }
  assert (bnd : forall k, 0 <= k -> k <= Rabs dt + 2 -> k * (e * T) < eps).
  { intros k k0 kM. apply Rlt_le_trans with (2 := eM). unfold M.
    replace (e * ((Rabs dt + 2) * (1 + T))) with ((Rabs dt + 2) * e + (Rabs dt + 2) * (e * T)) by ring.
    assert (k * (e * T) <= (Rabs dt + 2) * (e * T)) by (apply Rmult_le_compat_r; [apply Rmult_le_pos; lra|assumption]).
    assert (0 < (Rabs dt + 2) * e) by (apply Rmult_lt_0_compat; lra). lra. }
  destruct (sin_quot e e0) as [d1 [d1p hs]]. destruct (cos_quot e e0) as [d2 [d2p hc]].
  set (D := Rmin (Rmin d1 d2) e). assert (Dp : 0 < D) by (apply Rmin_pos; [apply Rmin_pos|]; assumption).
  exists (D / Rabs dt). split; [now apply Rdiv_lt_0_compat|]. intros w hw hwd.
  assert (hh : Rabs (w * dt) < D).
  { rewrite Rabs_mult. apply Rlt_le_trans with (D / Rabs dt * Rabs dt); [now apply Rmult_lt_compat_r|]. right. field. lra. }
  assert (h0 : w * dt <> 0) by (now apply Rmult_integral_contrapositive_currified).
  assert (l1 : D <= d1) by (unfold D; apply Rle_trans with (1 := Rmin_l _ _); apply Rmin_l).
  assert (l2 : D <= d2) by (unfold D; apply Rle_trans with (1 := Rmin_l _ _); apply Rmin_r).
  assert (l3 : D <= e) by apply Rmin_r.
  specialize (hs (w * dt) h0 ltac:(lra)). specialize (hc (w * dt) h0 ltac:(lra)).
  rewrite bott_row by assumption. do 4 eexists. split; [reflexivity|].
  set (s := sin (w * dt) / (w * dt)) in *. set (k := (1 - cos (w * dt)) / (w * dt)) in *.
  assert (es : sin (w * dt) = w * dt * s) by (unfold s; field; tauto).
  assert (ec : cos (w * dt) = 1 - w * dt * k) by (unfold k; field; tauto). rewrite es, ec.
  assert (hm : Rabs (- k) <= e) by (rewrite Rabs_Ropp; lra).
  assert (s1 : Rabs s <= 2). { replace s with ((s - 1) + 1) by ring. apply Rle_trans with (1 := Rabs_triang _ _). rewrite Rabs_R1. lra. }
  repeat split.
  + replace (a + (w * dt * s * b - (1 - (1 - w * dt * k)) * d) / w - (a + dt * b)) with (dt * ((s - 1) * b + (- k) * d)) by (field; assumption).
    rewrite Rabs_mult. apply Rle_lt_trans with (Rabs dt * (e * T)); [|apply bnd; lra].
    apply Rmult_le_compat_l; [lra|]. apply abs_lin; lra.
  + replace ((1 - w * dt * k) * b - w * dt * s * d - b) with (w * dt * ((- k) * b + (- s) * d)) by ring.
    rewrite Rabs_mult. apply Rle_lt_trans with (2 * (e * T)); [|apply bnd; lra].
    replace (2 * (e * T)) with (e * (2 * T)) by ring. apply Rmult_le_compat; [apply Rabs_pos|apply Rabs_pos|lra|].
    apply abs_lin; [lra|]. rewrite Rabs_Ropp. exact s1.
  + replace (c + ((1 - (1 - w * dt * k)) * b + w * dt * s * d) / w - (c + dt * d)) with (dt * (k * b + (s - 1) * d)) by (field; assumption).
    rewrite Rabs_mult. apply Rle_lt_trans with (Rabs dt * (e * T)); [|apply bnd; lra].
    apply Rmult_le_compat_l; [lra|]. apply abs_lin; lra.
  + replace (w * dt * s * b + (1 - w * dt * k) * d - d) with (w * dt * (s * b + (- k) * d)) by ring.
    rewrite Rabs_mult. apply Rle_lt_trans with (2 * (e * T)); [|apply bnd; lra].
    replace (2 * (e * T)) with (e * (2 * T)) by ring. apply Rmult_le_compat; [apply Rabs_pos|apply Rabs_pos|lra|].
    apply abs_lin; [exact s1|]. lra.
Qed.

(** ** the test system *)
Lemma test_step t x : t / 10 <= test_f1 t x < t / 10 + 10.
Proof.
unfold test_f1. pose proof (base_fp (x / 10)) as [h1 h2]. unfold frac_part in h1, h2.
lra.
Qed.
Lemma Int_part_plus1 y : Int_part (y + 1) = (Int_part y + 1)%Z.
Proof.
unfold Int_part. enough (up (y + 1) = (up y + 1)%Z) by lia. symmetry. apply tech_up; rewrite plus_IZR; destruct (archimed y); lra.
Qed.
Lemma test_period t x : test_f1 t (x + 10) = test_f1 t x.
Proof.
unfold test_f1. replace ((x + 10) / 10) with (x / 10 + 1) by field. rewrite Int_part_plus1, plus_IZR. ring.
Qed.

(** ** shapes *)
Lemma amap_width f n x : Forall (fun r => length r = n) (atleast_2d x) ->
  Forall (fun r => length r = n) (atleast_2d (amap f x)) /\ length (atleast_2d (amap f x)) = length (atleast_2d x).
Proof.
intros h. destruct x as [v|rs]; cbn [amap atleast_2d] in *.
- split; [|reflexivity]. constructor; [|constructor]. inversion h; subst. now rewrite map_length.
- split; [|apply map_length]. apply Forall_forall. intros r hr. apply in_map_iff in hr as [r0 [<- hr]].
  rewrite Forall_forall in h. rewrite map_length. now apply h.
Qed.
Lemma bearing_width ix iy n ss x : (ix < n)%nat -> (iy < n)%nat -> ss <> [] -> Forall (fun r => length r = n) (atleast_2d x) ->
  exists y, bearing_h ix iy (Some ss) x = Ok y /\ Forall (fun r => length r = length ss) (atleast_2d y) /\
  length (atleast_2d y) = length (atleast_2d x).
Proof.
intros hx hy ne h. unfold bearing_h. destruct ss as [|s ss]; [congruence|].
replace (forallb _ _) with true.
- eexists; split; [reflexivity|]. cbn [atleast_2d]. split; [|apply map_length]. apply Forall_forall. intros r hr.
  apply in_map_iff in hr as [r0 [<- _]]. unfold bearings. apply map_length.
- symmetry. apply forallb_forall. intros r hr. rewrite Forall_forall in h. rewrite (h r hr).
  apply andb_true_intro; split; apply Nat.ltb_lt; assumption.
Qed.
Lemma bott_width dt x : Forall (fun r => length r = 5%nat) (atleast_2d x) -> Forall (fun r => nth 4 r 0 <> 0) (atleast_2d x) ->
  exists y, bott_f dt x = Ok y /\ Forall (fun r => length r = 5%nat) (atleast_2d y) /\ length (atleast_2d y) = length (atleast_2d x).
Proof.
intros h5 hw. destruct (proj2 (bott_ok dt x)) as [y e].
- apply Forall_forall. intros r hr. rewrite Forall_forall in h5, hw. auto.
- destruct (bott_rows dt x y e) as [rows [-> h2]]. eexists; split; [exact e|]. cbn [atleast_2d]. split.
  + clear e h5 hw. induction h2 as [|r r' l l' [h _] _ IH]; constructor; auto.
  + clear e h5 hw. induction h2; cbn [length]; congruence.
Qed.
Lemma repeat_pos r n : (0 < n)%nat -> (Forall (fun a => 0 < a) (repeat r n) <-> 0 < r).
Proof.
intros hn; split.
- destruct n; [lia|]. intros h; now inversion h.
- intros h. apply Forall_forall. intros a ha. apply repeat_spec in ha. now subst.
Qed.
Lemma sq_pos r : 0 < r ^ 2 <-> r <> 0.
Proof.
split; [intros h e; subst; lra|]. intros h. rewrite <- Rsqr_pow2. now apply Rsqr_pos_lt.
Qed.
Lemma len_pos (A : Type) (l : list A) : l <> [] -> (0 < length l)%nat.
Proof. destruct l; [congruence|cbn; lia]. Qed.
Lemma diag_pd' n d : length d = n -> (pos_def n (diag d) <-> Forall (fun a => 0 < a) d).
Proof. intros <-. apply diag_pd. Qed.
Lemma bot_R_pd n r : (0 < n)%nat -> (pos_def n (bot_R n r) <-> 0 < r).
Proof. intros hn. unfold bot_R. rewrite diag_pd' by apply repeat_length. now apply repeat_pos. Qed.
Lemma bot_R_quad n r v : length v = n -> quad (bot_R n r) v = r * dot v v.
Proof. intros e. unfold bot_R. rewrite quad_diag by (rewrite repeat_length; assumption). now apply wsq_repeat. Qed.
(** the standard deviations, one per measurement *)
Definition spread (n : nat) (rs : list R) : list R := if Nat.eqb (length rs) n then rs else repeat (nth 0 rs 0) n.
Lemma spread_len n rs : length rs = n \/ length rs = 1%nat -> length (spread n rs) = n.
Proof. unfold spread. destruct (Nat.eqb_spec (length rs) n); [auto|]. intros _. apply repeat_length. Qed.
Lemma eye_spread n rs : length rs = n \/ length rs = 1%nat ->
  eye_times n (map (fun r => r ^ 2) rs) = Ok (diag (map (fun r => r ^ 2) (spread n rs))).
Proof.
intros h. unfold eye_times, spread. rewrite map_length. destruct (Nat.eqb_spec (length rs) n); [reflexivity|].
destruct h as [h|h]; [contradiction|]. rewrite h, Nat.eqb_refl. destruct rs as [|r [|? ?]]; try discriminate. cbn [map nth].
now rewrite map_repeat'.
Qed.
Lemma spread_quad n rs v : length rs = n \/ length rs = 1%nat -> length v = n ->
  quad (diag (map (fun r => r ^ 2) (spread n rs))) v = let u := map (fun p => fst p * snd p) (combine (spread n rs) v) in dot u u.
Proof.
intros h e. cbv zeta. rewrite quad_diag by (rewrite map_length, spread_len; assumption). rewrite wsq_map_sq, spread_len by assumption.
rewrite wsq_repeat; [ring|]. rewrite map_length, combine_length, spread_len, e by assumption. apply Nat.min_id.
Qed.
Lemma spread_pd n rs : length rs = n \/ length rs = 1%nat -> (0 < n)%nat ->
  (pos_def n (diag (map (fun r => r ^ 2) (spread n rs))) <-> Forall (fun r => r <> 0) rs).
Proof.
intros h hn. rewrite diag_pd' by (rewrite map_length; now apply spread_len).
rewrite Forall_map. unfold spread. destruct (Nat.eqb_spec (length rs) n) as [e|ne].
- split; apply Forall_impl; intros r; apply sq_pos.
- destruct h as [h|h]; [contradiction|]. destruct rs as [|r [|? ?]]; try discriminate. cbn [nth]. rewrite <- Forall_map, map_repeat', repeat_pos by assumption.
  rewrite sq_pos. split; [intros hr; repeat constructor; assumption|intros hr; now inversion hr].
Qed.
