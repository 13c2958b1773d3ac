(** * How far the root mean square error in double precision is from the exact one *)
Set Warnings "-notation-overridden,-ambiguous-paths".
From Coq Require Import ZArith Reals Lra Lia Psatz List Permutation.
From Flocq Require Import Core IEEE754.BinarySingleNaN Plus_error Relative Sterbenz.
From Verif Require Import Float FloatSpec FloatFacts FloatMetrics FloatMetricsSpec FloatMetricsFacts.
Import ListNotations.
Local Open Scope R_scope.

(** [r] is [s] up to [k] roundings *)
Notation between := within.
Lemma pows k : 0 < (1 - u) ^ k <= 1 /\ 1 <= (1 + u) ^ k.
Proof.
pose proof u_small. split; [split|].
- apply pow_lt. lra.
- apply Rle_trans with (1 ^ k); [|rewrite pow1; lra]. apply pow_incr. lra.
- apply pow_R1_Rle. lra.
Qed.
Lemma btw_weaken k l r s : (k <= l)%nat -> 0 <= s -> between k r s -> between l r s.
Proof.
intros h p [a b]. replace l with (k + (l - k))%nat by lia. split; rewrite pow_add.
- destruct (pows (l - k)) as [[_ q] _]. destruct (pows k) as [[q' _] _]. assert (0 <= (1 - u) ^ k * s) by nra. unfold u in *; nra.
- destruct (pows (l - k)) as [_ q]. destruct (pows k) as [_ q']. assert (0 <= (1 + u) ^ k * s) by nra. unfold u in *; nra.
Qed.
Lemma btw_refl r : between 0 r r.
Proof. split; cbn; lra. Qed.
Lemma btw_add k a s b t : between k a s -> between k b t -> between k (a + b) (s + t).
Proof. intros [p q] [p' q']. split; lra. Qed.
Lemma btw_trans k l a b c : between k a b -> between l b c -> between (k + l) a c.
Proof.
intros [p q] [p' q']. destruct (pows k) as [[h1 _] h2]. split; rewrite pow_add; unfold u in *.
- apply Rle_trans with (2 := p). rewrite Rmult_assoc. apply Rmult_le_compat_l; [lra|exact p'].
- apply Rle_trans with (1 := q). rewrite Rmult_assoc. apply Rmult_le_compat_l; [lra|exact q'].
Qed.
Lemma btw_rel s e : 0 <= s -> Rabs e <= u -> between 1 (s * (1 + e)) s.
Proof. intros p h. apply Rabs_le_inv in h. split; rewrite pow_1; unfold u in *; nra. Qed.
Lemma btw_sq k a s : 0 <= a -> 0 <= s -> between k a s -> between (2 * k) (a * a) (s * s).
Proof.
intros pa ps [p q]. destruct (pows k) as [[h1 _] h2]. split; replace (2 * k)%nat with (k + k)%nat by lia; rewrite pow_add; unfold u in *.
- replace ((1 - bpow radix2 (-53)) ^ k * (1 - bpow radix2 (-53)) ^ k * (s * s)) with (((1 - bpow radix2 (-53)) ^ k * s) * ((1 - bpow radix2 (-53)) ^ k * s)) by ring.
  apply Rmult_le_compat; try assumption; apply Rmult_le_pos; lra.
- replace ((1 + bpow radix2 (-53)) ^ k * (1 + bpow radix2 (-53)) ^ k * (s * s)) with (((1 + bpow radix2 (-53)) ^ k * s) * ((1 + bpow radix2 (-53)) ^ k * s)) by ring.
  apply Rmult_le_compat; assumption.
Qed.
Lemma btw_scale k a s c : 0 <= c -> between k a s -> between k (a * c) (s * c).
Proof. intros h [p q]. split; rewrite <- Rmult_assoc; apply Rmult_le_compat_r; assumption. Qed.
Lemma btw_pos k a s : 0 <= s -> between k a s -> 0 <= a.
Proof. intros h [p _]. destruct (pows k) as [[h1 _] _]. unfold u in *. nra. Qed.

(** nothing underflows *)
Lemma rel_normal x : bpow radix2 (-1022) <= Rabs x -> exists e, Rabs e <= u /\ rnd x = x * (1 + e).
Proof.
intros h. destruct (relative_error_N_FLT_ex radix2 (-1074) 53 eq_refl (fun n => negb (Z.even n)) x) as (e & h1 & h2).
- exact h.
- exists e. split; [|exact h2]. eapply Rle_trans; [exact h1|]. unfold u.
  change (-53)%Z with (-1 + -52)%Z. rewrite (bpow_plus radix2 (-1) (-52)). apply Rle_refl.
Qed.
Lemma btw_rnd x : 0 <= x -> x = 0 \/ bpow radix2 (-1022) <= x -> between 1 (rnd x) x.
Proof.
intros p [->|h].
- rewrite round_0 by apply valid_rnd_N. split; rewrite Rmult_0_r; apply Rle_refl.
- destruct (rel_normal x) as (e & h1 & h2); [rewrite Rabs_pos_eq; assumption|]. rewrite h2. apply btw_rel; assumption.
Qed.
Definition gap (t : Z) (x : R) := x = 0 \/ bpow radix2 t <= x.
Lemma gap_rnd t x : (-1074 <= t)%Z -> gap t x -> gap t (rnd x).
Proof.
intros ht [->|h]; [left; apply round_0, valid_rnd_N|right]. rewrite <- (rnd_id (bpow radix2 t)) by (apply repr_pow, ht). apply rnd_le, h.
Qed.
Lemma gap_add t x y : 0 <= x -> 0 <= y -> gap t x -> gap t y -> gap t (x + y).
Proof. intros px py [->|h] [->|h']; [left; lra|right; lra|right; lra|right; lra]. Qed.
Lemma gap_normal t x : (-1022 <= t)%Z -> gap t x -> x = 0 \/ bpow radix2 (-1022) <= x.
Proof. intros ht [->|h]; [left; reflexivity|right]. eapply Rle_trans; [|exact h]. apply bpow_le, ht. Qed.
Lemma gap_sq t x : gap t (Rabs x) -> gap (t + t) (x * x).
Proof.
intros [h|h].
- left. destruct (Req_dec x 0) as [->|q]; [ring|]. apply Rabs_no_R0 in q. contradiction.
- right. rewrite bpow_plus. replace (x * x) with (Rabs x * Rabs x) by (rewrite <- Rabs_mult; apply Rabs_pos_eq; nra).
  pose proof (bpow_ge_0 radix2 t). apply Rmult_le_compat; assumption.
Qed.
Lemma gap_sqrt t x : gap (t + t) x -> gap t (sqrt x).
Proof.
intros [->|h]; [left; apply sqrt_0|right]. rewrite <- (sqrt_square (bpow radix2 t)) by apply bpow_ge_0.
apply sqrt_le_1_alt. rewrite <- bpow_plus. exact h.
Qed.

Fixpoint sumf (f : nat -> R) (l : list nat) : R := match l with [] => 0 | i :: l' => f i + sumf f l' end.
Lemma sumf_app f l m : sumf f (l ++ m) = sumf f l + sumf f m.
Proof. induction l as [|i l ih]; cbn; [ring|]. rewrite ih. ring. Qed.
Lemma sumf_perm f l m : Permutation l m -> sumf f l = sumf f m.
Proof. induction 1; cbn; [reflexivity|congruence|ring|congruence]. Qed.
Lemma sumf_pos f l : (forall i, 0 <= f i) -> 0 <= sumf f l.
Proof. intros h. induction l as [|i l ih]; cbn; [lra|]. pose proof (h i). lra. Qed.
Lemma sumf_ext f g l : (forall i, In i l -> f i = g i) -> sumf f l = sumf g l.
Proof. induction l as [|i l ih]; cbn; intros h; [reflexivity|]. rewrite (h i), ih by auto. reflexivity. Qed.
Lemma btw_sumf k f g l : (forall i, In i l -> between k (f i) (g i)) -> between k (sumf f l) (sumf g l).
Proof.
induction l as [|i l ih]; cbn; intros h; [split; rewrite Rmult_0_r; apply Rle_refl|].
apply btw_add; [apply h; left; reflexivity|apply ih; intros j hj; apply h; right; exact hj].
Qed.
Lemma sumf_seq_S f a n : sumf f (seq (S a) n) = sumf (fun i => f (S i)) (seq a n).
Proof. revert a. induction n as [|n ih]; intros a; cbn; [reflexivity|]. rewrite ih. reflexivity. Qed.

Lemma fin_val x r : rounds x r -> fin x = true -> val x = rnd r.
Proof. unfold rounds. destruct (Rlt_bool _ _); [intros (_ & _ & h) _; exact h|intros -> h; discriminate h]. Qed.
Lemma nonneg_sign x : nonneg x -> fin x = true -> Bsign x = false.
Proof. intros [->|[_ h]]; [discriminate|auto]. Qed.
Lemma nonneg_val x : nonneg x -> 0 <= val x.
Proof. intros [->|[h s]]; [cbn; lra|apply fin_nonneg; assumption]. Qed.

(** ** the norm *)
Lemma fma_fin x z : number x -> nonneg z -> fin (ffma x x z) = true -> fin x = true /\ fin z = true.
Proof.
intros [h|[s ->]] nz q; [|rewrite fma_inf in q by exact nz; discriminate q]. split; [exact h|].
destruct nz as [->|[f _]]; [|exact f]. rewrite fma_inf_acc in q by exact h. discriminate q.
Qed.
Lemma sq_fin x : fin (fmul x x) = true -> fin x = true.
Proof. intros h. apply fmul_fin in h. tauto. Qed.
Lemma dot_err p d : (forall i, number (d i)) -> (forall i, gap (-480) (Rabs (val (d i)))) -> fin (dot p d) = true ->
  between (dot_depth p) (val (dot p d)) (sumf (fun i => val (d i) * val (d i)) (dot_uses p)) /\ gap (-960) (val (dot p d)) /\
  forall i, In i (dot_uses p) -> fin (d i) = true.
Proof.
intros nd g. assert (sp : forall l, 0 <= sumf (fun i => val (d i) * val (d i)) l) by (intros l; apply sumf_pos; intros i; nra).
induction p as [|i|l hl r hr|i acc ha]; cbn [dot dot_depth dot_uses sumf]; intros f.
- split; [apply btw_refl|]. split; [left; reflexivity|intros i []].
- pose proof (sq_fin _ f) as fi. rewrite (fin_val _ _ (rounds_sq _ fi) f). rewrite Rplus_0_r.
  pose proof (gap_sq _ _ (g i)) as q. split; [|split].
  + apply btw_rnd; [nra|]. apply (gap_normal (-960)); [lia|exact q].
  + apply gap_rnd; [lia|exact q].
  + intros j [<-|[]]. exact fi.
- destruct (fadd_fin _ _ f) as (fl & fr & e). destruct (hl fl) as (b1 & g1 & i1). destruct (hr fr) as (b2 & g2 & i2).
  pose proof (dot_nonneg l d nd) as n1. pose proof (dot_nonneg r d nd) as n2. rewrite e, sumf_app.
  assert (gs : gap (-960) (val (dot l d) + val (dot r d))) by (apply gap_add; try assumption; apply nonneg_val; assumption).
  split; [|split].
  + change (S (Nat.max (dot_depth l) (dot_depth r))) with (1 + Nat.max (dot_depth l) (dot_depth r))%nat.
    apply (btw_trans 1 _ _ (val (dot l d) + val (dot r d))).
    * apply btw_rnd; [|apply (gap_normal (-960)); [lia|exact gs]]. pose proof (nonneg_val _ n1). pose proof (nonneg_val _ n2). lra.
    * apply btw_add; eapply btw_weaken; try eassumption; try apply sp; lia.
  + apply gap_rnd; [lia|exact gs].
  + intros j hj. apply in_app_or in hj. destruct hj; auto.
- pose proof (dot_nonneg acc d nd) as na. destruct (fma_fin _ _ (nd i) na f) as [fi fa]. destruct (ha fa) as (b1 & g1 & i1).
  rewrite (fin_val _ _ (rounds_fma _ _ fi fa (nonneg_sign _ na fa)) f).
  assert (gs : gap (-960) (val (d i) * val (d i) + val (dot acc d))).
  { apply gap_add; [nra|apply nonneg_val, na| |exact g1]. apply (gap_sq (-480)), g. }
  split; [|split].
  + change (S (dot_depth acc)) with (1 + dot_depth acc)%nat. apply (btw_trans 1 _ _ (val (d i) * val (d i) + val (dot acc d))).
    * apply btw_rnd; [|apply (gap_normal (-960)); [lia|exact gs]]. pose proof (nonneg_val _ na). nra.
    * apply btw_add; [|exact b1]. apply (btw_weaken 0); [lia|nra|apply btw_refl].
  + apply gap_rnd; [lia|exact gs].
  + intros j [<-|hj]; auto.
Qed.
Lemma sqrt_fin x : nonneg x -> fin (fsqrt x) = true -> fin x = true.
Proof. intros [->|[h _]]; [discriminate|auto]. Qed.
Lemma sqrt_err x t : nonneg x -> fin x = true -> (-1022 <= t)%Z -> gap (t + t) (val x) -> between 2 (val (fsqrt x) * val (fsqrt x)) (val x) /\ gap t (val (fsqrt x)).
Proof.
intros nx f ht g. pose proof (rounds_sqrt x f (nonneg_sign _ nx f)) as q. pose proof (nonneg_val _ nx) as px.
assert (ff : fin (fsqrt x) = true).
{ unfold rounds in q. destruct (Rlt_bool _ _); [tauto|]. exfalso. pose proof (proj1 (proj2 (Bsqrt_correct 53 1024 prec_ok emax_ok mode_NE x))) as b.
  fold (fsqrt x) in b. rewrite q in b. destruct nx as [->|[_ s]]; [discriminate f|]. destruct x as [z|z| |z m e h]; cbn in *; try discriminate; subst; discriminate. }
rewrite (fin_val _ _ q ff). pose proof (gap_sqrt _ _ g) as gg. split; [|apply gap_rnd; [lia|exact gg]].
rewrite <- (sqrt_sqrt (val x) px) at 3. apply (btw_sq 1); [apply rnd_nonneg, sqrt_pos|apply sqrt_pos|].
apply btw_rnd; [apply sqrt_pos|]. apply (gap_normal t); [lia|exact gg].
Qed.

(** ** one step *)
Lemma sub_err x y : fin x = true -> fin y = true -> fin (fsub x y) = true ->
  between 2 (val (fsub x y) * val (fsub x y)) ((val x - val y) * (val x - val y)).
Proof.
intros hx hy h. apply fsub_fin in h. destruct h as (_ & _ & e). destruct (minus_rel (val x) (val y) (repr_val x) (repr_val y)) as (z & hz & q).
rewrite e, q. set (a := val x - val y). replace (a * (1 + z) * (a * (1 + z))) with (Rabs a * (1 + z) * (Rabs a * (1 + z))).
2: { transitivity ((Rabs a * Rabs a) * ((1 + z) * (1 + z))); [ring|]. rewrite <- Rabs_mult, (Rabs_pos_eq (a * a)) by nra. ring. }
replace (a * a) with (Rabs a * Rabs a) by (rewrite <- Rabs_mult; apply Rabs_pos_eq; nra).
pose proof (Rabs_pos a). pose proof u_small as us. pose proof hz as hz'. apply Rabs_le_inv in hz'. apply (btw_sq 1); [nra|lra|]. apply btw_rel; assumption.
Qed.
Lemma sub_gap x y : fin x = true -> fin y = true -> gap (-480) (Rabs (val x - val y)) -> gap (-480) (Rabs (val (fsub x y))).
Proof.
intros hx hy g. pose proof (sub_fin_spec x y hx hy) as h. destruct (Rlt_bool _ _).
- destruct h as [_ ->]. rewrite rnd_abs. apply gap_rnd; [lia|exact g].
- destruct h as [s ->]. left. cbn. apply Rabs_R0.
Qed.
Lemma distance2_sum m x : length m = length x ->
  distance2 m x = sumf (fun i => (val (get m i) - val (get x i)) * (val (get m i) - val (get x i))) (seq 0 (length m)).
Proof.
revert x. induction m as [|a m ih]; intros [|b x]; cbn [distance2 length]; try discriminate; [reflexivity|].
intros h. cbn [seq sumf]. rewrite sumf_seq_S. rewrite ih by lia. unfold get, real. cbn [nth]. ring.
Qed.
Lemma sqe_err p m x : ordinary_vec m -> ordinary_vec x -> length m = length x -> all_once (dot_uses p) (length m) ->
  (forall i, gap (-480) (Rabs (val (get m i) - val (get x i)))) -> fin (fsquared_error p m x) = true ->
  between (dot_depth p + 5) (val (fsquared_error p m x)) (distance2 m x) /\ gap (-960) (val (fsquared_error p m x)).
Proof.
intros hm hx hl hu hg f. set (d := fun i => fsub (get m i) (get x i)).
assert (nd : forall i, number (d i)) by (intros i; apply sub_number; apply get_fin; assumption).
assert (gd : forall i, gap (-480) (Rabs (val (d i)))) by (intros i; apply sub_gap; try (apply get_fin; assumption); apply hg).
unfold fsquared_error in *. cbv zeta in *. fold d in f |- *.
pose proof (dot_nonneg p d nd) as n1. pose proof (nonneg_sqrt _ n1) as n2. pose proof (sq_fin _ f) as f2.
pose proof (sqrt_fin _ n1 f2) as f1. destruct (dot_err p d nd gd f1) as (b1 & g1 & i1).
destruct (sqrt_err _ (-480) n1 f1 ltac:(lia) g1) as (b2 & g2).
rewrite (fin_val _ _ (rounds_sq _ f2) f).
pose proof (gap_sq (-480) (val (fsqrt (dot p d)))) as g3. rewrite Rabs_pos_eq in g3 by (apply nonneg_val, n2). specialize (g3 g2).
split; [|apply gap_rnd; [lia|exact g3]].
assert (b3 : between 1 (rnd (val (fsqrt (dot p d)) * val (fsqrt (dot p d)))) (val (fsqrt (dot p d)) * val (fsqrt (dot p d)))).
{ apply btw_rnd; [nra|]. apply (gap_normal (-960)); [lia|exact g3]. }
assert (b4 : between 2 (sumf (fun i => val (d i) * val (d i)) (dot_uses p)) (distance2 m x)).
{ rewrite (distance2_sum m x hl). rewrite <- (sumf_perm _ _ _ hu). apply btw_sumf. intros i hi.
  apply sub_err; try (apply get_fin; assumption). apply i1, hi. }
replace (dot_depth p + 5)%nat with (1 + (2 + (dot_depth p + 2)))%nat by lia.
exact (btw_trans _ _ _ _ _ b3 (btw_trans _ _ _ _ _ b2 (btw_trans _ _ _ _ _ b1 b4))).
Qed.

(** ** the mean *)
Lemma fsum_err p a : (forall i, nonneg (a i)) -> fin (fsum p a) = true -> (forall i, fin (a i) = true -> gap (-960) (val (a i))) ->
  between (sum_depth p) (val (fsum p a)) (sumf (fun i => val (a i)) (sum_uses p)) /\ gap (-960) (val (fsum p a)) /\
  forall i, In i (sum_uses p) -> fin (a i) = true.
Proof.
intros na f g. revert f. assert (sp : forall l, 0 <= sumf (fun i => val (a i)) l) by (intros l; apply sumf_pos; intros i; apply nonneg_val, na).
induction p as [|i|l hl r hr]; cbn [fsum sum_depth sum_uses sumf]; intros f.
- split; [apply btw_refl|]. split; [left; reflexivity|intros i []].
- rewrite Rplus_0_r. split; [apply btw_refl|]. split; [apply g, f|]. intros j [<-|[]]. exact f.
- destruct (fadd_fin _ _ f) as (fl & fr & e). destruct (hl fl) as (b1 & g1 & i1). destruct (hr fr) as (b2 & g2 & i2).
  pose proof (fsum_nonneg l a na) as n1. pose proof (fsum_nonneg r a na) as n2. rewrite e, sumf_app.
  assert (gs : gap (-960) (val (fsum l a) + val (fsum r a))) by (apply gap_add; try assumption; apply nonneg_val; assumption).
  split; [|split].
  + change (S (Nat.max (sum_depth l) (sum_depth r))) with (1 + Nat.max (sum_depth l) (sum_depth r))%nat.
    apply (btw_trans 1 _ _ (val (fsum l a) + val (fsum r a))).
    * apply btw_rnd; [|apply (gap_normal (-960)); [lia|exact gs]]. pose proof (nonneg_val _ n1). pose proof (nonneg_val _ n2). lra.
    * apply btw_add; eapply btw_weaken; try eassumption; try apply sp; lia.
  + apply gap_rnd; [lia|exact gs].
  + intros j hj. apply in_app_or in hj. destruct hj; auto.
Qed.
Lemma total_sum ms xs : length ms = length xs -> total ms xs = sumf (fun k => distance2 (nth k ms []) (nth k xs [])) (seq 0 (length ms)).
Proof.
revert xs. induction ms as [|m ms ih]; intros [|x xs]; cbn [total length]; try discriminate; [reflexivity|].
intros h. cbn [seq sumf]. rewrite sumf_seq_S. rewrite ih by lia. reflexivity.
Qed.
Lemma distance2_pos m x : 0 <= distance2 m x.
Proof. revert x. induction m as [|a m ih]; intros [|b x]; cbn [distance2]; try lra. pose proof (ih x). pose proof (pow2_ge_0 (real a - real b)). lra. Qed.
Lemma div_fin x n : nonneg x -> 0 < val n -> Bsign n = false -> fin (fdiv x n) = true -> fin x = true.
Proof. intros [->|[h _]] p s; [rewrite div_inf by assumption; discriminate|auto]. Qed.

Lemma rmse_err dp sp ms xs h : sound dp sp ms xs -> (forall k, (k < length ms)%nat -> (dot_depth (dp k) <= h)%nat) ->
  (forall k i, entry ms k i = entry xs k i \/ bpow radix2 (-480) <= Rabs (entry ms k i - entry xs k i)) ->
  fin (frmse dp sp ms xs) = true ->
  between (h + sum_depth sp + 8) (val (frmse dp sp ms xs) * val (frmse dp sp ms xs)) (mean_square ms xs).
Proof.
intros s hh hg f. pose proof s as (hl & hp & hn & _ & _ & hr & hd & hs).
set (es := fsq_errors dp 0 ms xs). assert (le : length es = length ms) by (apply sqes_length, hl).
destruct (count_ok (length ms) hp hn) as (nv & np & ns).
pose proof (mean_nonneg dp sp ms xs s) as n1. unfold frmse in *. fold es in n1, f |- *.
pose proof (sqrt_fin _ n1 f) as f1. unfold fmean in n1, f, f1 |- *. rewrite le in n1, f, f1 |- *.
assert (na : forall k, nonneg (get es k)) by (intros k; apply (err_nonneg dp sp), s).
pose proof (fsum_nonneg sp _ na) as n2. pose proof (div_fin _ _ n2 np ns f1) as f2.
assert (eg : forall k, fin (get es k) = true -> gap (-960) (val (get es k)) /\ ((k < length ms)%nat -> between (h + 5) (val (get es k)) (distance2 (nth k ms []) (nth k xs [])))).
{ intros k fk. destruct (Nat.lt_ge_cases k (length ms)) as [q|q].
  - unfold es in *. rewrite sqes_nth in * by assumption. destruct (row_ord dp sp ms xs s k) as [o1 o2].
    destruct (sqe_err (dp k) (nth k ms []) (nth k xs [])) as [b g]; try assumption; [apply hr|apply hd, q| |].
    + intros i. destruct (hg k i) as [e|e]; [left|right; exact e]. unfold entry, real in e. rewrite e, Rminus_eq_0. apply Rabs_R0.
    + split; [exact g|]. intros _. eapply btw_weaken; [|apply distance2_pos|exact b]. specialize (hh k q). cbn [Nat.add] in *. lia.
  - rewrite get_over by (rewrite le; exact q). split; [left; reflexivity|lia]. }
destruct (fsum_err sp _ na f2 (fun k fk => proj1 (eg k fk))) as (b2 & g2 & i2).
assert (b3 : between (h + 5) (sumf (fun k => val (get es k)) (sum_uses sp)) (total ms xs)).
{ rewrite total_sum by exact hl. rewrite <- (sumf_perm _ _ _ hs). apply btw_sumf. intros k hk. apply eg; [apply i2, hk|].
  apply (Permutation_in _ hs), in_seq in hk. lia. }
set (S0 := val (fsum sp (get es))) in *. assert (pS : 0 <= S0) by apply nonneg_val, n2.
assert (g4 : gap (-1014) (S0 / INR (length ms))).
{ destruct g2 as [e|e]; [left; rewrite e; unfold Rdiv; ring|right]. apply Rle_trans with (bpow radix2 (-960) / INR (length ms)).
  - apply Rmult_le_reg_r with (INR (length ms)); [apply lt_0_INR, hp|]. unfold Rdiv. rewrite Rmult_assoc, Rinv_l, Rmult_1_r.
    2: { apply Rgt_not_eq, lt_0_INR, hp. }
    apply Rle_trans with (bpow radix2 (-1014) * bpow radix2 53).
    + apply Rmult_le_compat_l; [apply bpow_ge_0|]. rewrite INR_IZR_INZ. change (bpow radix2 53) with (IZR (2 ^ 53)). apply IZR_le. lia.
    + rewrite <- bpow_plus. apply bpow_le. lia.
  - apply Rmult_le_compat_r; [left; apply Rinv_0_lt_compat, lt_0_INR, hp|exact e]. }
pose proof (fin_val _ _ (rounds_div _ _ f2 (nonneg_sign _ n2 f2) np ns) f1) as e4. rewrite nv in e4. fold S0 in e4.
assert (pD : 0 <= S0 / INR (length ms)) by (apply Rmult_le_pos; [exact pS|left; apply Rinv_0_lt_compat, lt_0_INR, hp]).
destruct (sqrt_err _ (-507) n1 f1 ltac:(lia)) as (b5 & _); [rewrite e4; apply (gap_rnd (-1014)); [lia|exact g4]|].
rewrite e4 in b5.
assert (b6 : between 1 (rnd (S0 / INR (length ms))) (S0 / INR (length ms))) by (apply btw_rnd; [exact pD|apply (gap_normal (-1014)); [lia|exact g4]]).
assert (b7 : between (sum_depth sp + (h + 5)) (S0 / INR (length ms)) (mean_square ms xs)).
{ apply btw_scale; [left; apply Rinv_0_lt_compat, lt_0_INR, hp|]. exact (btw_trans _ _ _ _ _ b2 b3). }
replace (h + sum_depth sp + 8)%nat with (2 + (1 + (sum_depth sp + (h + 5))))%nat by lia.
exact (btw_trans _ _ _ _ _ b5 (btw_trans _ _ _ _ _ b6 b7)).
Qed.

(** ** nothing overflows *)
Definition below (x : f64) (t : Z) := fin x = true /\ val x <= bpow radix2 t.
Lemma rounds_below x r t : (-1074 <= t < 1024)%Z -> r <= bpow radix2 t -> rounds x r -> below x t.
Proof.
intros ht h. pose proof (rnd_le _ _ h) as q. rewrite (rnd_id (bpow radix2 t)) in q by (apply repr_pow; lia).
unfold rounds. rewrite Rlt_bool_true; [|eapply Rle_lt_trans; [exact q|apply bpow_lt; lia]]. intros (a & _ & b). split; [exact a|]. rewrite b. exact q.
Qed.
Lemma below_weaken x s t : (s <= t)%Z -> below x s -> below x t.
Proof. intros h [a b]. split; [exact a|]. eapply Rle_trans; [exact b|]. apply bpow_le, h. Qed.
Lemma add_below x y t : nonneg x -> nonneg y -> (-1074 <= t < 1023)%Z -> below x t -> below y t -> below (fadd x y) (t + 1).
Proof.
intros nx ny ht [fx bx] [fy b_y]. apply (rounds_below _ (val x + val y)); [lia| |apply rounds_add; try assumption; apply nonneg_sign; assumption].
rewrite bpow_plus. change (bpow radix2 1) with 2. lra.
Qed.
Lemma dot_below p d k : (forall i, number (d i)) -> (0 <= k)%Z -> (2 * k + Z.of_nat (dot_depth p) < 1024)%Z ->
  (forall i, In i (dot_uses p) -> fin (d i) = true /\ Rabs (val (d i)) <= bpow radix2 k) -> below (dot p d) (2 * k + Z.of_nat (dot_depth p)).
Proof.
intros nd hk. assert (sq : forall i, Rabs (val (d i)) <= bpow radix2 k -> val (d i) * val (d i) <= bpow radix2 (2 * k)).
{ intros i q. replace (2 * k)%Z with (k + k)%Z by lia. rewrite bpow_plus. rewrite <- (Rabs_pos_eq (bpow radix2 k)) in q by apply bpow_ge_0. apply sq_le, q. }
induction p as [|i|l hl r hr|i acc ha]; cbn [dot dot_depth dot_uses]; intros hb h.
- split; [reflexivity|]. apply bpow_ge_0.
- destruct (h i (or_introl eq_refl)) as [f q]. apply (rounds_below _ (val (d i) * val (d i))); [lia| |apply rounds_sq, f].
  eapply Rle_trans; [apply sq, q|]. apply bpow_le. lia.
- replace (2 * k + Z.of_nat (S (Nat.max (dot_depth l) (dot_depth r))))%Z with ((2 * k + Z.of_nat (Nat.max (dot_depth l) (dot_depth r))) + 1)%Z by lia.
  apply add_below; try (apply dot_nonneg; assumption); [lia| |].
  + eapply below_weaken; [|apply hl; [lia|intros i hi; apply h, in_or_app; auto]]. lia.
  + eapply below_weaken; [|apply hr; [lia|intros i hi; apply h, in_or_app; auto]]. lia.
- destruct (h i (or_introl eq_refl)) as [f q]. destruct (ha ltac:(lia) (fun j hj => h j (or_intror hj))) as [fa ba].
  apply (rounds_below _ (val (d i) * val (d i) + val (dot acc d))); [lia| |apply rounds_fma; try assumption; apply nonneg_sign; [apply dot_nonneg, nd|exact fa]].
  replace (2 * k + Z.of_nat (S (dot_depth acc)))%Z with ((2 * k + Z.of_nat (dot_depth acc)) + 1)%Z by lia. rewrite bpow_plus. change (bpow radix2 1) with 2.
  pose proof (sq i q) as q2. assert (bpow radix2 (2 * k) <= bpow radix2 (2 * k + Z.of_nat (dot_depth acc))) by (apply bpow_le; lia). lra.
Qed.
Lemma sqe_below p m x k : ordinary_vec m -> ordinary_vec x -> all_once (dot_uses p) (length m) -> (0 <= k)%Z ->
  (2 * k + Z.of_nat (dot_depth p) + 1 < 1024)%Z ->
  (forall i, Rabs (val (get m i) - val (get x i)) <= bpow radix2 k) -> below (fsquared_error p m x) (2 * k + Z.of_nat (dot_depth p) + 1).
Proof.
intros hm hx hu hk hb h. set (d := fun i => fsub (get m i) (get x i)).
assert (nd : forall i, number (d i)) by (intros i; apply sub_number; apply get_fin; assumption).
assert (dk : forall i, In i (dot_uses p) -> fin (d i) = true /\ Rabs (val (d i)) <= bpow radix2 k).
{ intros i _. pose proof (sub_fin_spec (get m i) (get x i) (get_fin _ i hm) (get_fin _ i hx)) as q.
  pose proof (rnd_le _ _ (h i)) as r. rewrite (rnd_id (bpow radix2 k)) in r by (apply repr_pow; lia).
  rewrite Rlt_bool_true in q by (eapply Rle_lt_trans; [exact r|apply bpow_lt; lia]). destruct q as [a b]. split; [exact a|].
  unfold d. rewrite b, rnd_abs. exact r. }
destruct (dot_below p d k nd hk ltac:(lia) dk) as [f b]. pose proof (dot_nonneg p d nd) as n1.
unfold fsquared_error. cbv zeta. fold d. set (t := (2 * k + Z.of_nat (dot_depth p))%Z) in *. set (i := ((t + 1) / 2)%Z).
assert (hi : (t <= i + i <= t + 1)%Z) by (unfold i; pose proof (Z.div_mod (t + 1) 2 ltac:(lia)); pose proof (Z.mod_pos_bound (t + 1) 2 ltac:(lia)); lia).
assert (s : below (fsqrt (dot p d)) i).
{ apply (rounds_below _ (sqrt (val (dot p d)))); [lia| |apply rounds_sqrt; [exact f|apply nonneg_sign; assumption]].
  rewrite <- (sqrt_square (bpow radix2 i)) by apply bpow_ge_0. apply sqrt_le_1_alt. rewrite <- bpow_plus.
  eapply Rle_trans; [exact b|]. apply bpow_le. lia. }
destruct s as [fs bs]. apply (rounds_below _ (val (fsqrt (dot p d)) * val (fsqrt (dot p d)))); [lia| |apply rounds_sq, fs].
apply Rle_trans with (bpow radix2 (i + i)); [|apply bpow_le; lia]. rewrite bpow_plus.
pose proof (nonneg_val _ (nonneg_sqrt _ n1)). apply Rmult_le_compat; assumption.
Qed.
Lemma fsum_below p a t : (forall i, nonneg (a i)) -> (0 <= t)%Z -> (t + Z.of_nat (sum_depth p) < 1024)%Z ->
  (forall i, below (a i) t) -> below (fsum p a) (t + Z.of_nat (sum_depth p)).
Proof.
intros na ht hb h. revert hb. induction p as [|i|l hl r hr]; cbn [fsum sum_depth]; intros hb.
- split; [reflexivity|]. apply bpow_ge_0.
- rewrite Z.add_0_r. apply h.
- replace (t + Z.of_nat (S (Nat.max (sum_depth l) (sum_depth r))))%Z with ((t + Z.of_nat (Nat.max (sum_depth l) (sum_depth r))) + 1)%Z by lia.
  apply add_below; try (apply fsum_nonneg; assumption); [lia| |]; (eapply below_weaken; [|(apply hl || apply hr); lia]; lia).
Qed.
Lemma rmse_fin dp sp ms xs h k : sound dp sp ms xs -> (forall k, (k < length ms)%nat -> (dot_depth (dp k) <= h)%nat) ->
  (0 <= k)%Z -> (2 * k + Z.of_nat h + Z.of_nat (sum_depth sp) < 1023)%Z ->
  (forall j i, Rabs (entry ms j i - entry xs j i) <= bpow radix2 k) -> fin (frmse dp sp ms xs) = true.
Proof.
intros s hh hk hb he. pose proof s as (hl & hp & hn & _ & _ & hr & hd & hs).
set (es := fsq_errors dp 0 ms xs). assert (le : length es = length ms) by (apply sqes_length, hl).
destruct (count_ok (length ms) hp hn) as (nv & np & ns).
assert (na : forall k, nonneg (get es k)) by (intros j; apply (err_nonneg dp sp), s).
assert (fe : forall j, below (get es j) (2 * k + Z.of_nat h + 1)).
{ intros j. destruct (Nat.lt_ge_cases j (length ms)) as [q|q].
  - unfold es. rewrite sqes_nth by assumption. destruct (row_ord dp sp ms xs s j) as [o1 o2]. specialize (hh j q). cbn [Nat.add] in *.
    eapply below_weaken; [|apply (sqe_below (dp j) _ _ k); try assumption; [apply hd, q|lia|intros i; apply (he j i)]]. lia.
  - rewrite get_over by (rewrite le; exact q). split; [reflexivity|]. apply bpow_ge_0. }
pose proof (fsum_nonneg sp _ na) as n2.
destruct (fsum_below sp (get es) (2 * k + Z.of_nat h + 1) na) as [f2 b2]; [lia|lia|exact fe|].
assert (f3 : below (fdiv (fsum sp (get es)) (fint (Z.of_nat (length ms)))) (2 * k + Z.of_nat h + 1 + Z.of_nat (sum_depth sp))).
{ apply (rounds_below _ (val (fsum sp (get es)) / val (fint (Z.of_nat (length ms))))); [lia| |apply rounds_div; try assumption; apply nonneg_sign; assumption].
  eapply Rle_trans; [|exact b2]. rewrite nv. pose proof (nonneg_val _ n2). assert (1 <= INR (length ms)) by (apply (le_INR 1); lia).
  apply Rmult_le_reg_r with (INR (length ms)); [lra|]. unfold Rdiv. rewrite Rmult_assoc, Rinv_l by lra. nra. }
pose proof (mean_nonneg dp sp ms xs s) as n1. unfold frmse. fold es in n1 |- *. unfold fmean in *. rewrite le in *.
pose proof (rounds_sqrt _ (proj1 f3) (nonneg_sign _ n1 (proj1 f3))) as q. unfold rounds in q. destruct (Rlt_bool _ _); [tauto|].
exfalso. pose proof (proj1 (proj2 (Bsqrt_correct 53 1024 prec_ok emax_ok mode_NE (fdiv (fsum sp (get es)) (fint (Z.of_nat (length ms))))))) as b.
change (Bsqrt mode_NE (fdiv (fsum sp (get es)) (fint (Z.of_nat (length ms))))) with (fsqrt (fdiv (fsum sp (get es)) (fint (Z.of_nat (length ms))))) in b. rewrite q in b.
pose proof (nonneg_sign _ n1 (proj1 f3)) as s1. pose proof (proj1 f3) as ff. destruct (fdiv (fsum sp (get es)) (fint (Z.of_nat (length ms)))) as [z|z| |z m e hz]; cbn in *; try discriminate; subst; discriminate.
Qed.
(** two ways of computing the error *)
Lemma rmse_builds dp sp dp' sp' ms xs h : sound dp sp ms xs -> sound dp' sp' ms xs ->
  (forall k, (k < length ms)%nat -> (dot_depth (dp k) + sum_depth sp <= h)%nat) ->
  (forall k, (k < length ms)%nat -> (dot_depth (dp' k) + sum_depth sp' <= h)%nat) ->
  (forall k i, entry ms k i = entry xs k i \/ bpow radix2 (-480) <= Rabs (entry ms k i - entry xs k i)) ->
  fin (frmse dp sp ms xs) = true -> fin (frmse dp' sp' ms xs) = true ->
  (1 - u) ^ (h + 8) * val (frmse dp sp ms xs) ^ 2 <= (1 + u) ^ (h + 8) * val (frmse dp' sp' ms xs) ^ 2.
Proof.
intros s s' d d' g f f'. assert (p0 : (0 < length ms)%nat) by apply s.
assert (pm : 0 <= mean_square ms xs).
{ apply Rmult_le_pos; [|left; apply Rinv_0_lt_compat, lt_0_INR, p0]. rewrite total_sum by apply s. apply sumf_pos. intros i. apply distance2_pos. }
assert (b : between (h + 8) (val (frmse dp sp ms xs) * val (frmse dp sp ms xs)) (mean_square ms xs)).
{ eapply btw_weaken; [|exact pm|apply (rmse_err dp sp ms xs (h - sum_depth sp)); try assumption]; [specialize (d 0%nat p0); lia|intros k q; specialize (d k q); lia]. }
assert (b' : between (h + 8) (val (frmse dp' sp' ms xs) * val (frmse dp' sp' ms xs)) (mean_square ms xs)).
{ eapply btw_weaken; [|exact pm|apply (rmse_err dp' sp' ms xs (h - sum_depth sp')); try assumption]; [specialize (d' 0%nat p0); lia|intros k q; specialize (d' k q); lia]. }
destruct b as [_ b]. destruct b' as [b' _]. destruct (pows (h + 8)) as [[p1 _] p2]. fold u in b, b'.
replace (val (frmse dp sp ms xs) ^ 2) with (val (frmse dp sp ms xs) * val (frmse dp sp ms xs)) by ring.
replace (val (frmse dp' sp' ms xs) ^ 2) with (val (frmse dp' sp' ms xs) * val (frmse dp' sp' ms xs)) by ring.
apply Rle_trans with ((1 - u) ^ (h + 8) * ((1 + u) ^ (h + 8) * mean_square ms xs)); [apply Rmult_le_compat_l; [lra|exact b]|].
apply Rle_trans with ((1 + u) ^ (h + 8) * ((1 - u) ^ (h + 8) * mean_square ms xs)); [right; ring|apply Rmult_le_compat_l; [lra|exact b']].
Qed.
