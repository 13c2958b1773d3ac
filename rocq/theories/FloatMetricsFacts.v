(** * Facts about FloatMetrics.v *)
Set Warnings "-notation-overridden,-ambiguous-paths".
From Coq Require Import ZArith Reals Lra Lia Psatz List Permutation.
From Flocq Require Import Core IEEE754.BinarySingleNaN Plus_error Relative Sterbenz.
From Verif Require Import Float FloatSpec FloatFacts FloatMetrics FloatMetricsSpec.
Import ListNotations.
Local Open Scope R_scope.

Notation pinf := (@B754_infinity 53 1024 false).
(** [x] is the number [r >= 0] rounded, or infinity if that is too large *)
Definition rounds (x : f64) (r : R) :=
  if Rlt_bool (rnd r) big then fin x = true /\ Bsign x = false /\ val x = rnd r else x = pinf.
Lemma rnd_nonneg r : 0 <= r -> 0 <= rnd r.
Proof. intros h. rewrite <- (round_0 radix2 fex ZnearestE). apply round_le; [apply vexp|apply valid_rnd_N|exact h]. Qed.
Lemma rnd_le r s : r <= s -> rnd r <= rnd s.
Proof. apply round_le; [apply vexp|apply valid_rnd_N]. Qed.
Lemma rnd_abs r : Rabs (rnd r) = rnd (Rabs r).
Proof.
destruct (Rle_or_lt 0 r) as [h|h].
- rewrite (Rabs_pos_eq r h). apply Rabs_pos_eq, rnd_nonneg, h.
- rewrite (Rabs_left r h). rewrite round_NE_opp. rewrite Rabs_left1; [reflexivity|].
  rewrite <- (round_0 radix2 fex ZnearestE). apply rnd_le. lra.
Qed.
Lemma rounds_nonneg x r : 0 <= r -> rounds x r -> nonneg x.
Proof. intros h. unfold rounds. destruct (Rlt_bool _ _); [intros (a & b & _); right; split; assumption|intros e; left; exact e]. Qed.
Lemma rounds_mono x r y s : 0 <= r <= s -> rounds x r -> rounds y s -> at_most x y.
Proof.
intros [h0 h]. unfold rounds. pose proof (rnd_le r s h) as q.
destruct (Rlt_bool_spec (rnd s) big) as [h2|h2]; [|intros _ e; left; exact e].
rewrite Rlt_bool_true by lra. intros (a & _ & b) (c & _ & d). right. unfold ordinary, real. rewrite b, d. auto.
Qed.
Lemma overflow_inf (x : f64) : B2SF x = binary_overflow 53 1024 mode_NE false -> x = pinf.
Proof. destruct x as [s|s| |s m e h]; cbn; intros q; try discriminate q. injection q as ->. reflexivity. Qed.
Lemma fin_nonneg x : fin x = true -> Bsign x = false -> 0 <= val x.
Proof. destruct x as [s|s| |s m e h]; cbn; intros _ q; try lra. subst s. apply F2R_ge_0. cbn. lia. Qed.
Lemma nonneg_nonnan x : nonneg x -> is_nan x = false.
Proof. intros [->|[h _]]; [reflexivity|]. destruct x; cbn in *; try reflexivity. discriminate h. Qed.

Lemma rounds_add x y : fin x = true -> fin y = true -> Bsign x = false -> Bsign y = false -> rounds (fadd x y) (val x + val y).
Proof.
intros hx hy sx sy. pose proof (fin_nonneg x hx sx) as px. pose proof (fin_nonneg y hy sy) as py.
generalize (Bplus_correct 53 1024 prec_ok emax_ok mode_NE x y hx hy).
change (round radix2 (SpecFloat.fexp 53 1024) (round_mode mode_NE) (val x + val y)) with (rnd (val x + val y)).
rewrite (Rabs_pos_eq (rnd _)) by (apply rnd_nonneg; lra). unfold rounds. destruct (Rlt_bool _ _).
- intros (a & b & c). split; [exact b|]. split; [|exact a]. unfold fadd. rewrite c.
  destruct (Rcompare_spec (val x + val y) 0); [lra| |reflexivity]. rewrite sx. reflexivity.
- intros (a & _). rewrite sx in a. apply overflow_inf, a.
Qed.
Lemma nonneg_add x y : nonneg x -> nonneg y -> nonneg (fadd x y).
Proof.
intros [->|[hx sx]] [->|[hy sy]].
- left. reflexivity.
- left. destruct y as [s|s| |s m e h]; cbn in *; try discriminate; reflexivity.
- left. destruct x as [s|s| |s m e h]; cbn in *; try discriminate; reflexivity.
- apply (rounds_nonneg _ (val x + val y)); [|apply rounds_add; assumption].
  pose proof (fin_nonneg x hx sx). pose proof (fin_nonneg y hy sy). lra.
Qed.
Lemma add_inf_l y : nonneg y -> fadd pinf y = pinf.
Proof. intros [->|[h _]]; [reflexivity|]. destruct y as [s|s| |s m e q]; cbn in *; try discriminate; reflexivity. Qed.
Lemma add_inf_r y : nonneg y -> fadd y pinf = pinf.
Proof. intros h. rewrite fadd_comm. apply add_inf_l, h. Qed.

Lemma rounds_sq x : fin x = true -> rounds (fmul x x) (val x * val x).
Proof.
intros hx. generalize (Bmult_correct 53 1024 prec_ok emax_ok mode_NE x x).
change (round radix2 (SpecFloat.fexp 53 1024) (round_mode mode_NE) (val x * val x)) with (rnd (val x * val x)).
rewrite (Rabs_pos_eq (rnd _)) by (apply rnd_nonneg; nra). unfold rounds. rewrite Bool.xorb_nilpotent.
destruct (Rlt_bool _ _); [|apply overflow_inf]. intros (a & b & c). rewrite hx in b. split; [exact b|]. split; [|exact a].
apply c. fold (fmul x x) in b |- *. destruct (fmul x x); cbn in *; try reflexivity; discriminate.
Qed.
Lemma sq_inf s : fmul (B754_infinity s) (B754_infinity s) = pinf.
Proof. destruct s; reflexivity. Qed.

Lemma rounds_fma x z : fin x = true -> fin z = true -> Bsign z = false -> rounds (ffma x x z) (val x * val x + val z).
Proof.
intros hx hz sz. pose proof (fin_nonneg z hz sz) as pz.
generalize (Bfma_correct 53 1024 prec_ok emax_ok mode_NE x x z hx hx hz). cbv zeta.
change (round radix2 (SpecFloat.fexp 53 1024) (round_mode mode_NE) (val x * val x + val z)) with (rnd (val x * val x + val z)).
assert (p : 0 <= val x * val x + val z) by nra.
rewrite (Rabs_pos_eq (rnd _)) by (apply rnd_nonneg, p). unfold rounds. destruct (Rlt_bool (rnd _) _).
- intros (a & b & c). split; [exact b|]. split; [|exact a]. unfold ffma. rewrite c.
  destruct (Rcompare_spec (val x * val x + val z) 0); [lra| |reflexivity].
  unfold Bfma_szero. rewrite sz, Bool.xorb_nilpotent. reflexivity.
- rewrite Rlt_bool_false by exact p. apply overflow_inf.
Qed.
Lemma fma_inf_acc x : fin x = true -> ffma x x pinf = pinf.
Proof. destruct x as [s|s| |s m e h]; cbn; intros q; try discriminate; reflexivity. Qed.
Lemma fma_inf s z : nonneg z -> ffma (B754_infinity s) (B754_infinity s) z = pinf.
Proof. intros [->|[h _]]; [destruct s; reflexivity|]. destruct z as [t|t| |t m e q], s; cbn in *; try discriminate; reflexivity. Qed.

Lemma rounds_sqrt x : fin x = true -> Bsign x = false -> rounds (fsqrt x) (sqrt (val x)).
Proof.
intros hx sx. generalize (Bsqrt_correct 53 1024 prec_ok emax_ok mode_NE x).
change (round radix2 (SpecFloat.fexp 53 1024) (round_mode mode_NE) (sqrt (val x))) with (rnd (sqrt (val x))).
intros (a & b & c). fold (fsqrt x) in a, b, c.
assert (f : fin (fsqrt x) = true) by (rewrite b; destruct x as [s|s| |s m e h]; cbn in *; try discriminate; subst; reflexivity).
unfold rounds. rewrite <- a. rewrite Rlt_bool_true.
- split; [exact f|]. split; [|reflexivity]. rewrite c; [exact sx|]. destruct (fsqrt x); cbn in *; try reflexivity; discriminate.
- eapply Rle_lt_trans; [apply Rle_abs|apply val_small].
Qed.
Lemma nonneg_sqrt x : nonneg x -> nonneg (fsqrt x).
Proof. intros [->|[h s]]; [left; reflexivity|]. apply (rounds_nonneg _ (sqrt (val x))); [apply sqrt_pos|apply rounds_sqrt; assumption]. Qed.

Lemma rounds_div x n : fin x = true -> Bsign x = false -> 0 < val n -> Bsign n = false -> rounds (fdiv x n) (val x / val n).
Proof.
intros hx sx pn sn. generalize (Bdiv_correct 53 1024 prec_ok emax_ok mode_NE x n (Rgt_not_eq _ _ pn)).
change (round radix2 (SpecFloat.fexp 53 1024) (round_mode mode_NE) (val x / val n)) with (rnd (val x / val n)).
assert (p : 0 <= val x / val n).
{ apply Rmult_le_pos; [apply fin_nonneg; assumption|]. left. apply Rinv_0_lt_compat, pn. }
rewrite (Rabs_pos_eq (rnd _)) by (apply rnd_nonneg, p). unfold rounds. rewrite sx, sn.
destruct (Rlt_bool _ _); [|apply overflow_inf]. intros (a & b & c). rewrite hx in b. split; [exact b|]. split; [|exact a].
apply c. fold (fdiv x n) in b |- *. destruct (fdiv x n); cbn in *; try reflexivity; discriminate.
Qed.
Lemma div_inf n : 0 < val n -> Bsign n = false -> fdiv pinf n = pinf.
Proof. destruct n as [s|s| |s m e h]; cbn; intros p q; try lra. subst. reflexivity. Qed.

(** ** monotonicity of the operations *)
Lemma nonneg_at_most_fin x y : at_most x y -> fin y = true -> fin x = true /\ val x <= val y.
Proof. intros [->|(a & b & c)] h; [discriminate h|]. split; assumption. Qed.
Lemma at_most_refl x : nonneg x -> at_most x x.
Proof. intros [->|[h _]]; [left; reflexivity|right]. split; [exact h|]. split; [exact h|apply Rle_refl]. Qed.
Lemma at_most_antisym x y : nonneg x -> nonneg y -> at_most x y -> at_most y x -> x = y.
Proof.
intros nx ny [->|(a & b & c)] [e|(a' & b' & c')]; try exact e; try (subst; discriminate).
destruct nx as [->|[_ sx]]; [discriminate a|]. destruct ny as [->|[_ sy]]; [discriminate b|].
apply B2R_Bsign_inj; try assumption; [apply Rle_antisym; assumption|congruence].
Qed.
Lemma add_mono x y x' y' : nonneg x -> nonneg y -> nonneg x' -> nonneg y' -> at_most x x' -> at_most y y' ->
  at_most (fadd x y) (fadd x' y').
Proof.
intros nx ny nx' ny' hx hy.
destruct nx' as [->|[fx' sx']]; [left; apply add_inf_l, ny'|].
destruct ny' as [->|[fy' sy']]; [left; apply add_inf_r; right; split; assumption|].
destruct (nonneg_at_most_fin _ _ hx fx') as [fx lx]. destruct (nonneg_at_most_fin _ _ hy fy') as [fy ly].
destruct nx as [->|[_ sx]]; [discriminate fx|]. destruct ny as [->|[_ sy]]; [discriminate fy|].
apply (rounds_mono _ (val x + val y) _ (val x' + val y')); try apply rounds_add; try assumption.
pose proof (fin_nonneg x fx sx). pose proof (fin_nonneg y fy sy). lra.
Qed.
(** the entries of the difference: numbers or infinities, compared by size *)
Definition number (x : f64) := fin x = true \/ exists s, x = B754_infinity s.
Definition smaller (x y : f64) := (exists s, y = B754_infinity s) \/ (fin x = true /\ fin y = true /\ Rabs (val x) <= Rabs (val y)).
Lemma sq_le a b : Rabs a <= Rabs b -> a * a <= b * b.
Proof. intros h. apply Rsqr_le_abs_1 in h. exact h. Qed.
Lemma nonneg_sq x : number x -> nonneg (fmul x x).
Proof. intros [h|[s ->]]; [|left; apply sq_inf]. apply (rounds_nonneg _ (val x * val x)); [nra|apply rounds_sq, h]. Qed.
Lemma sq_mono x y : number x -> smaller x y -> at_most (fmul x x) (fmul y y).
Proof.
intros nx [[s ->]|(a & b & c)]; [left; apply sq_inf|].
apply (rounds_mono _ (val x * val x) _ (val y * val y)); try apply rounds_sq; try assumption. split; [nra|apply sq_le, c].
Qed.
Lemma nonneg_fma x z : number x -> nonneg z -> nonneg (ffma x x z).
Proof.
intros [h|[s ->]] nz; [|left; apply fma_inf, nz]. destruct nz as [->|[fz sz]]; [left; apply fma_inf_acc, h|].
apply (rounds_nonneg _ (val x * val x + val z)); [|apply rounds_fma; assumption]. pose proof (fin_nonneg z fz sz). nra.
Qed.
Lemma fma_mono x z y w : number x -> smaller x y -> nonneg z -> nonneg w -> at_most z w -> at_most (ffma x x z) (ffma y y w).
Proof.
intros nx [[s ->]|(a & b & c)] nz nw h; [left; apply fma_inf, nw|].
destruct nw as [->|[fw sw]]; [left; apply fma_inf_acc, b|]. destruct (nonneg_at_most_fin _ _ h fw) as [fz lz].
destruct nz as [->|[_ sz]]; [discriminate fz|].
apply (rounds_mono _ (val x * val x + val z) _ (val y * val y + val w)); try apply rounds_fma; try assumption.
pose proof (fin_nonneg z fz sz). pose proof (sq_le _ _ c). split; [nra|lra].
Qed.
Lemma sqrt_mono x y : nonneg x -> nonneg y -> at_most x y -> at_most (fsqrt x) (fsqrt y).
Proof.
intros nx [->|[fy sy]] h; [left; reflexivity|]. destruct (nonneg_at_most_fin _ _ h fy) as [fx lx].
destruct nx as [->|[_ sx]]; [discriminate fx|].
apply (rounds_mono _ (sqrt (val x)) _ (sqrt (val y))); try apply rounds_sqrt; try assumption.
split; [apply sqrt_pos|]. apply sqrt_le_1_alt, lx.
Qed.
Lemma nonneg_number x : nonneg x -> number x.
Proof. intros [->|[h _]]; [right; eexists; reflexivity|left; exact h]. Qed.
Lemma nonneg_smaller x y : nonneg x -> nonneg y -> at_most x y -> smaller x y.
Proof.
intros nx ny [->|(a & b & c)]; [left; eexists; reflexivity|right]. split; [exact a|]. split; [exact b|].
destruct nx as [->|[_ sx]]; [discriminate a|]. destruct ny as [->|[_ sy]]; [discriminate b|].
rewrite !Rabs_pos_eq by (apply fin_nonneg; assumption). exact c.
Qed.
Lemma nonneg_div x n : nonneg x -> 0 < val n -> Bsign n = false -> nonneg (fdiv x n).
Proof.
intros [->|[f s]] p q; [left; apply div_inf; assumption|]. apply (rounds_nonneg _ (val x / val n)); [|apply rounds_div; assumption].
apply Rmult_le_pos; [apply fin_nonneg; assumption|]. left. apply Rinv_0_lt_compat, p.
Qed.
Lemma div_mono x y n : nonneg x -> nonneg y -> 0 < val n -> Bsign n = false -> at_most x y -> at_most (fdiv x n) (fdiv y n).
Proof.
intros nx [->|[fy sy]] p q h; [left; apply div_inf; assumption|]. destruct (nonneg_at_most_fin _ _ h fy) as [fx lx].
destruct nx as [->|[_ sx]]; [discriminate fx|].
apply (rounds_mono _ (val x / val n) _ (val y / val n)); try apply rounds_div; try assumption.
pose proof (fin_nonneg x fx sx). assert (0 < / val n) by (apply Rinv_0_lt_compat, p). unfold Rdiv. split; [nra|nra].
Qed.
Lemma sub_number x y : fin x = true -> fin y = true -> number (fsub x y).
Proof.
intros hx hy. generalize (Bminus_correct 53 1024 prec_ok emax_ok mode_NE x y hx hy). destruct (Rlt_bool _ _).
- intros (_ & h & _). left. exact h.
- intros (h & _). right. exists (Bsign x). fold (fsub x y) in h. destruct (fsub x y) as [s|s| |s m e q]; cbn in h; try discriminate h.
  injection h as ->. reflexivity.
Qed.
Lemma sub_fin_spec x y : fin x = true -> fin y = true ->
  if Rlt_bool (rnd (Rabs (val x - val y))) big then fin (fsub x y) = true /\ val (fsub x y) = rnd (val x - val y)
  else exists s, fsub x y = B754_infinity s.
Proof.
intros hx hy. rewrite <- rnd_abs. generalize (Bminus_correct 53 1024 prec_ok emax_ok mode_NE x y hx hy).
change (round radix2 (SpecFloat.fexp 53 1024) (round_mode mode_NE) (val x - val y)) with (rnd (val x - val y)).
destruct (Rlt_bool _ _).
- intros (a & h & _). split; assumption.
- intros (h & _). exists (Bsign x). fold (fsub x y) in h. destruct (fsub x y) as [s|s| |s m e q]; cbn in h; try discriminate h.
  injection h as ->. reflexivity.
Qed.
Lemma sub_smaller x y x' y' : fin x = true -> fin y = true -> fin x' = true -> fin y' = true ->
  Rabs (val x - val y) <= Rabs (val x' - val y') -> smaller (fsub x y) (fsub x' y').
Proof.
intros hx hy hx' hy' h. pose proof (sub_fin_spec x y hx hy) as p. pose proof (sub_fin_spec x' y' hx' hy') as q.
destruct (Rlt_bool_spec (rnd (Rabs (val x' - val y'))) big) as [l|l]; [|left; exact q].
pose proof (rnd_le _ _ h) as m. rewrite Rlt_bool_true in p by lra. right.
destruct p as [p1 p2]. destruct q as [q1 q2]. split; [exact p1|]. split; [exact q1|]. rewrite p2, q2, !rnd_abs. exact m.
Qed.

(** ** sums *)
Lemma nonneg_zero : nonneg fzero. Proof. right. split; reflexivity. Qed.
Lemma dot_nonneg p d : (forall i, number (d i)) -> nonneg (dot p d).
Proof.
intros h. induction p as [|i|l hl r hr|i acc ha]; cbn; [apply nonneg_zero|apply nonneg_sq, h|apply nonneg_add; assumption|].
apply nonneg_fma; [apply h|exact ha].
Qed.
Lemma dot_mono p d e : (forall i, number (d i)) -> (forall i, number (e i)) -> (forall i, smaller (d i) (e i)) -> at_most (dot p d) (dot p e).
Proof.
intros nd ne h. induction p as [|i|l hl r hr|i acc ha]; cbn.
- apply at_most_refl, nonneg_zero.
- apply sq_mono; auto.
- apply add_mono; try assumption; apply dot_nonneg; assumption.
- apply fma_mono; auto; apply dot_nonneg; assumption.
Qed.
Lemma fsum_nonneg p a : (forall i, nonneg (a i)) -> nonneg (fsum p a).
Proof. intros h. induction p as [|i|l hl r hr]; cbn; [apply nonneg_zero|apply h|apply nonneg_add; assumption]. Qed.
Lemma fsum_mono p a b : (forall i, nonneg (a i)) -> (forall i, nonneg (b i)) -> (forall i, at_most (a i) (b i)) -> at_most (fsum p a) (fsum p b).
Proof.
intros na nb h. induction p as [|i|l hl r hr]; cbn; [apply at_most_refl, nonneg_zero|apply h|].
apply add_mono; try assumption; apply fsum_nonneg; assumption.
Qed.
Lemma get_fin v i : ordinary_vec v -> fin (get v i) = true.
Proof.
intros h. unfold get. destruct (nth_in_or_default i v fzero) as [q|q]; [|rewrite q; reflexivity].
exact (proj1 (Forall_forall _ _) h _ q).
Qed.
Lemma sqe_nonneg p m x : ordinary_vec m -> ordinary_vec x -> nonneg (fsquared_error p m x).
Proof.
intros hm hx. apply nonneg_sq, nonneg_number, nonneg_sqrt, dot_nonneg. intros i. apply sub_number; apply get_fin; assumption.
Qed.
Lemma sqe_mono p m x m' x' : ordinary_vec m -> ordinary_vec x -> ordinary_vec m' -> ordinary_vec x' ->
  (forall i, Rabs (val (get m i) - val (get x i)) <= Rabs (val (get m' i) - val (get x' i))) ->
  at_most (fsquared_error p m x) (fsquared_error p m' x').
Proof.
intros hm hx hm' hx' h. unfold fsquared_error. cbv zeta.
assert (n1 : nonneg (dot p (fun i => fsub (get m i) (get x i)))) by (apply dot_nonneg; intros i; apply sub_number; apply get_fin; assumption).
assert (n2 : nonneg (dot p (fun i => fsub (get m' i) (get x' i)))) by (apply dot_nonneg; intros i; apply sub_number; apply get_fin; assumption).
assert (q : at_most (dot p (fun i => fsub (get m i) (get x i))) (dot p (fun i => fsub (get m' i) (get x' i)))).
{ apply dot_mono; try (intros i; apply sub_number; apply get_fin; assumption). intros i.
  apply sub_smaller; try (apply get_fin; assumption). apply h. }
apply sq_mono; [apply nonneg_number, nonneg_sqrt, n1|]. apply nonneg_smaller; try (apply nonneg_sqrt; assumption).
apply sqrt_mono; assumption.
Qed.
Lemma sqes_length dp k ms xs : length ms = length xs -> length (fsq_errors dp k ms xs) = length ms.
Proof. revert k xs. induction ms as [|m ms ih]; intros k [|x xs]; cbn; try discriminate; [reflexivity|]. intros h. f_equal. apply ih. lia. Qed.
Lemma sqes_nth dp j ms xs k : length ms = length xs -> (k < length ms)%nat ->
  get (fsq_errors dp j ms xs) k = fsquared_error (dp (j + k)%nat) (nth k ms []) (nth k xs []).
Proof.
revert j xs k. induction ms as [|m ms ih]; intros j [|x xs] k; cbn; try lia. intros h hk. destruct k as [|k].
- rewrite Nat.add_0_r. reflexivity.
- etransitivity; [exact (ih (S j) xs k ltac:(lia) ltac:(lia))|]. replace (S j + k)%nat with (j + S k)%nat by lia. reflexivity.
Qed.
Lemma get_over v k : (length v <= k)%nat -> get v k = fzero.
Proof. apply nth_overflow. Qed.
Lemma count_ok n : (0 < n)%nat -> (Z.of_nat n < 2 ^ 53)%Z -> val (fint (Z.of_nat n)) = INR n /\ 0 < val (fint (Z.of_nat n)) /\ Bsign (fint (Z.of_nat n)) = false.
Proof.
intros h1 h2. destruct (small_int (Z.of_nat n)) as [a b]; [rewrite Z.abs_eq by lia; exact h2|]. rewrite <- INR_IZR_INZ in a.
assert (p : 0 < INR n) by (apply lt_0_INR, h1). rewrite a. split; [reflexivity|]. split; [exact p|].
destruct (fint (Z.of_nat n)) as [s|s| |s m e q]; try discriminate b; cbn in a; [lra|]. destruct s; [|reflexivity].
exfalso. assert (F2R (Float radix2 (SpecFloat.cond_Zopp true (Zpos m)) e) <= 0) by (apply F2R_le_0; cbn; lia). unfold B2R in a. lra.
Qed.

Section Data.
Variables (dp : nat -> dot_plan) (sp : sum_plan) (ms xs : list vec).
Hypothesis S1 : sound dp sp ms xs.
Lemma row_ord (k : nat) : ordinary_vec (nth k ms []) /\ ordinary_vec (nth k xs []).
Proof.
destruct S1 as (_ & _ & _ & h1 & h2 & _). split.
- destruct (nth_in_or_default k ms []) as [q|q]; [exact (proj1 (Forall_forall _ _) h1 _ q)|rewrite q; constructor].
- destruct (nth_in_or_default k xs []) as [q|q]; [exact (proj1 (Forall_forall _ _) h2 _ q)|rewrite q; constructor].
Qed.
Lemma err_nonneg k : nonneg (get (fsq_errors dp 0 ms xs) k).
Proof.
destruct S1 as (hl & _). destruct (Nat.lt_ge_cases k (length ms)) as [h|h].
- rewrite sqes_nth by assumption. apply sqe_nonneg; apply row_ord.
- rewrite get_over by (rewrite sqes_length; assumption). apply nonneg_zero.
Qed.
Lemma mean_nonneg : nonneg (fmean sp (fsq_errors dp 0 ms xs)).
Proof.
unfold fmean. rewrite sqes_length by apply S1. destruct (count_ok (length ms)) as (_ & a & b); [apply S1|apply S1|].
apply nonneg_div; [|exact a|exact b]. apply fsum_nonneg, err_nonneg.
Qed.
Lemma rmse_nonneg : nonneg (frmse dp sp ms xs).
Proof. apply nonneg_sqrt, mean_nonneg. Qed.
End Data.

Lemma rmse_mono dp sp ms xs ms' xs' : sound dp sp ms xs -> sound dp sp ms' xs' -> length ms = length ms' ->
  (forall k i, Rabs (entry ms k i - entry xs k i) <= Rabs (entry ms' k i - entry xs' k i)) ->
  at_most (frmse dp sp ms xs) (frmse dp sp ms' xs').
Proof.
intros s s' hl h. apply sqrt_mono; try (apply mean_nonneg; assumption).
unfold fmean. rewrite !sqes_length by (apply s || apply s'). rewrite <- hl.
destruct (count_ok (length ms)) as (_ & a & b); [apply s|apply s|].
assert (n1 : nonneg (fsum sp (get (fsq_errors dp 0 ms xs)))) by (apply fsum_nonneg; intros k; apply (err_nonneg dp sp); assumption).
assert (n2 : nonneg (fsum sp (get (fsq_errors dp 0 ms' xs')))) by (apply fsum_nonneg; intros k; apply (err_nonneg dp sp); assumption).
apply div_mono; try assumption.
apply fsum_mono; try (intros k; apply (err_nonneg dp sp); assumption). intros k.
destruct (Nat.lt_ge_cases k (length ms)) as [q|q].
- rewrite !sqes_nth by (apply s || apply s' || lia).
  apply sqe_mono; try apply (row_ord _ _ _ _ s); try apply (row_ord _ _ _ _ s'). intros i. apply (h k i).
- rewrite !get_over by (rewrite sqes_length; (apply s || apply s' || lia)). apply at_most_refl, nonneg_zero.
Qed.
Lemma sound_swap dp sp ms xs : sound dp sp ms xs -> sound dp sp xs ms.
Proof.
intros (a & b & c & d & e & f & g & h). unfold sound. rewrite <- a. repeat (split; [try assumption; auto|]); auto.
intros k hk. rewrite <- f. apply g, hk.
Qed.
Lemma rmse_swap dp sp ms xs : sound dp sp ms xs -> frmse dp sp ms xs = frmse dp sp xs ms.
Proof.
intros s. pose proof (sound_swap _ _ _ _ s) as s'.
apply at_most_antisym; try (apply rmse_nonneg; assumption); apply rmse_mono; try assumption; try apply s.
- intros k i. rewrite Rabs_minus_sym. apply Rle_refl.
- symmetry. apply s.
- intros k i. rewrite Rabs_minus_sym. apply Rle_refl.
Qed.

(** ** no error *)
Lemma zero_of x : fin x = true -> Bsign x = false -> val x = 0 -> x = fzero.
Proof. intros a b c. apply B2R_Bsign_inj; [exact a|reflexivity|exact c|exact b]. Qed.
Lemma rounds_zero x : rounds x 0 -> x = fzero.
Proof.
unfold rounds. rewrite round_0 by apply valid_rnd_N. rewrite Rlt_bool_true by apply bpow_gt_0. intros (a & b & c). apply zero_of; assumption.
Qed.
Lemma dot_zero p d : (forall i, fin (d i) = true /\ val (d i) = 0) -> dot p d = fzero.
Proof.
intros h. induction p as [|i|l hl r hr|i acc ha]; cbn.
- reflexivity.
- apply rounds_zero. destruct (h i) as [a b]. pose proof (rounds_sq (d i) a) as q. rewrite b, Rmult_0_l in q. exact q.
- rewrite hl, hr. reflexivity.
- rewrite ha. apply rounds_zero. destruct (h i) as [a b]. pose proof (rounds_fma (d i) fzero a eq_refl eq_refl) as q.
  rewrite b, Rmult_0_l in q. cbn in q. rewrite Rplus_0_l in q. exact q.
Qed.
Lemma sqe_zero p m x : ordinary_vec m -> ordinary_vec x -> (forall i, val (get m i) = val (get x i)) -> fsquared_error p m x = fzero.
Proof.
intros hm hx h. unfold fsquared_error. cbv zeta. rewrite dot_zero; [reflexivity|]. intros i.
destruct (fsub_round (get m i) (get x i)) as [a b]; try (apply get_fin; assumption).
- rewrite h, Rminus_eq_0, round_0 by apply valid_rnd_N. rewrite Rabs_R0. apply bpow_gt_0.
- split; [exact b|]. rewrite a, h, Rminus_eq_0. apply round_0, valid_rnd_N.
Qed.
Lemma fsum_zero p a : (forall i, a i = fzero) -> fsum p a = fzero.
Proof. intros h. induction p as [|i|l hl r hr]; cbn; [reflexivity|apply h|]. rewrite hl, hr. reflexivity. Qed.
Lemma rmse_zero dp sp ms xs : sound dp sp ms xs -> (forall k i, entry ms k i = entry xs k i) -> frmse dp sp ms xs = fzero.
Proof.
intros s h. unfold frmse, fmean. rewrite fsum_zero.
- rewrite sqes_length by apply s. destruct (count_ok (length ms)) as (_ & a & b); [apply s|apply s|].
  pose proof (rounds_div fzero (fint (Z.of_nat (length ms))) eq_refl eq_refl a b) as q.
  unfold Rdiv in q. cbn [val B2R fzero] in q. change (val fzero) with 0 in q. rewrite Rmult_0_l in q. rewrite (rounds_zero _ q). reflexivity.
- intros k. destruct (Nat.lt_ge_cases k (length ms)) as [q|q].
  + rewrite sqes_nth by (apply s || lia). apply sqe_zero; try apply (row_ord _ _ _ _ s). intros i. apply (h k i).
  + rewrite get_over by (rewrite sqes_length; (apply s || lia)). reflexivity.
Qed.
Lemma rmse_empty dp xs : frmse dp SZero [] xs = B754_nan.
Proof. reflexivity. Qed.
