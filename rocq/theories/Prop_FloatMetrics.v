(** * Property C70: the root mean square error in double precision (Utils/Metrics.py:12-18, StateModel/Gaussian.py:240-246) *)
Set Warnings "-notation-overridden,-ambiguous-paths".
From Coq Require Import ZArith Reals Lra Lia List Permutation.
From Flocq Require Import Core IEEE754.BinarySingleNaN.
From Verif Require Import Float FloatSpec FloatFacts FloatMetrics FloatMetricsSpec FloatMetricsFacts FloatMetricsErr.
Import ListNotations.
Local Open Scope R_scope.

(** the error of ordinary numbers is never nan, never negative and never the negative zero, in whatever order the library adds *)
Theorem C70_nonneg dp sp ms xs : sound dp sp ms xs -> nonneg (frmse dp sp ms xs).
Proof. exact (rmse_nonneg dp sp ms xs). Qed.
(** a perfect estimate has error exactly zero *)
Theorem C70_zero dp sp ms xs : sound dp sp ms xs -> (forall k i, entry ms k i = entry xs k i) -> frmse dp sp ms xs = fzero.
Proof. exact (rmse_zero dp sp ms xs). Qed.
(** without any estimate the error is nan *)
Theorem C70_empty dp xs : frmse dp SZero [] xs = B754_nan.
Proof. exact (rmse_empty dp xs). Qed.
(** exchanging estimates and true values changes no bit *)
Theorem C70_symmetric dp sp ms xs : sound dp sp ms xs -> frmse dp sp ms xs = frmse dp sp xs ms.
Proof. exact (rmse_swap dp sp ms xs). Qed.
(** estimates that are at least as close in every entry never have a larger error *)
Theorem C70_monotone dp sp ms xs ms' xs' : sound dp sp ms xs -> sound dp sp ms' xs' -> length ms = length ms' ->
  (forall k i, Rabs (entry ms k i - entry xs k i) <= Rabs (entry ms' k i - entry xs' k i)) ->
  at_most (frmse dp sp ms xs) (frmse dp sp ms' xs').
Proof. exact (rmse_mono dp sp ms xs ms' xs'). Qed.
(** the square of a finite result is the exact mean square up to one rounding per level of the sums and eight more, if
    no difference is so small that its square underflows *)
Theorem C70_accurate dp sp ms xs h : sound dp sp ms xs -> (forall k, (k < length ms)%nat -> (dot_depth (dp k) <= h)%nat) ->
  (forall k i, entry ms k i = entry xs k i \/ bpow radix2 (-480) <= Rabs (entry ms k i - entry xs k i)) ->
  ordinary (frmse dp sp ms xs) ->
  within (h + sum_depth sp + 8) (real (frmse dp sp ms xs) * real (frmse dp sp ms xs)) (mean_square ms xs).
Proof. exact (rmse_err dp sp ms xs h). Qed.
(** the result is finite if the differences are not too large for the number of levels *)
Theorem C70_finite dp sp ms xs h k : sound dp sp ms xs -> (forall k, (k < length ms)%nat -> (dot_depth (dp k) <= h)%nat) ->
  (0 <= k)%Z -> (2 * k + Z.of_nat h + Z.of_nat (sum_depth sp) < 1023)%Z ->
  (forall j i, Rabs (entry ms j i - entry xs j i) <= bpow radix2 k) -> ordinary (frmse dp sp ms xs).
Proof. exact (rmse_fin dp sp ms xs h k). Qed.
(** two libraries that add in different orders differ only by so many roundings *)
Theorem C70_builds dp sp dp' sp' ms xs h : sound dp sp ms xs -> sound dp' sp' ms xs ->
  (forall k, (k < length ms)%nat -> (dot_depth (dp k) + sum_depth sp <= h)%nat) ->
  (forall k, (k < length ms)%nat -> (dot_depth (dp' k) + sum_depth sp' <= h)%nat) ->
  (forall k i, entry ms k i = entry xs k i \/ bpow radix2 (-480) <= Rabs (entry ms k i - entry xs k i)) ->
  ordinary (frmse dp sp ms xs) -> ordinary (frmse dp' sp' ms xs) ->
  (1 - bpow radix2 (-53)) ^ (h + 8) * real (frmse dp sp ms xs) ^ 2 <= (1 + bpow radix2 (-53)) ^ (h + 8) * real (frmse dp' sp' ms xs) ^ 2.
Proof. exact (rmse_builds dp sp dp' sp' ms xs h). Qed.

(** ** cases *)
Module Case.
Definition est := [[fint 4; fint 4]; [fint 7; fint 1]].
Definition tru := [[fint 1; fint 0]; [fint 2; fint 1]].
(** products fused with the sum in the first step, a pair of products in the second *)
Definition dp (k : nat) := match k with O => DFma 1 (DFma 0 DZero) | _ => DAdd (DTerm 0) (DTerm 1) end.
Definition sp := SAdd (SAdd SZero (SItem 0)) (SItem 1).
Lemma ints l : Forall (fun z => Z.abs z < 2 ^ 53)%Z l -> ordinary_vec (map fint l).
Proof. induction 1 as [|z l h _ ih]; constructor; [apply small_int, h|exact ih]. Qed.
Lemma est_ord : Forall ordinary_vec est.
Proof. constructor; [apply (ints [4; 4]%Z)|constructor; [apply (ints [7; 1]%Z)|constructor]]; repeat constructor. Qed.
Lemma tru_ord : Forall ordinary_vec tru.
Proof. constructor; [apply (ints [1; 0]%Z)|constructor; [apply (ints [2; 1]%Z)|constructor]]; repeat constructor. Qed.
Example sound_case : sound dp sp est tru.
Proof.
split; [reflexivity|]. split; [cbn; lia|]. split; [reflexivity|]. split; [exact est_ord|]. split; [exact tru_ord|].
split; [intros [|[|[|k]]]; reflexivity|]. split; [|apply Permutation_refl].
intros [|[|k]] h; [apply perm_swap|apply Permutation_refl|cbn in h; lia].
Qed.
(** errors (3, 4) and (5, 0): the root of (25 + 25) / 2 *)
Example value : frmse dp sp est tru = fint 5.
Proof. apply B2SF_inj. vm_compute. reflexivity. Qed.
Example nonneg_case : nonneg (frmse dp sp est tru).
Proof. exact (C70_nonneg dp sp est tru sound_case). Qed.
Example swap_case : frmse dp sp tru est = fint 5.
Proof. rewrite <- (C70_symmetric dp sp est tru sound_case). exact value. Qed.
Lemma sound_self : sound dp sp est est.
Proof.
split; [reflexivity|]. split; [cbn; lia|]. split; [reflexivity|]. split; [exact est_ord|]. split; [exact est_ord|].
split; [reflexivity|]. split; [|apply Permutation_refl].
intros [|[|k]] h; [apply perm_swap|apply Permutation_refl|cbn in h; lia].
Qed.
Example zero_case : frmse dp sp est est = fzero.
Proof. exact (C70_zero dp sp est est sound_self (fun k i => eq_refl)). Qed.
Example monotone_case : at_most (frmse dp sp est est) (frmse dp sp est tru).
Proof.
apply (C70_monotone dp sp est est est tru sound_self sound_case eq_refl). intros k i. unfold Rminus at 1. rewrite Rplus_opp_r, Rabs_R0. apply Rabs_pos.
Qed.
(** the differences of the entries *)
Lemma reals z : (Z.abs z < 2 ^ 53)%Z -> real (fint z) = IZR z.
Proof. intros h. apply (small_int z h). Qed.
Lemma diffs (P : R -> Prop) : P 3 -> P 4 -> P 5 -> P 0 -> forall k i, P (entry est k i - entry tru k i).
Proof.
intros h3 h4 h5 h0. assert (z : real fzero - real fzero = 0) by apply Rminus_eq_0.
intros [|[|[|k]]] [|[|[|i]]]; unfold entry, get, est, tru; cbn [nth]; try (rewrite z; exact h0); rewrite !reals by reflexivity.
- replace (4 - 1) with 3 by ring. exact h3.
- replace (4 - 0) with 4 by ring. exact h4.
- replace (7 - 2) with 5 by ring. exact h5.
- replace (1 - 1) with 0 by ring. exact h0.
Qed.
Lemma not_tiny k i : entry est k i = entry tru k i \/ bpow radix2 (-480) <= Rabs (entry est k i - entry tru k i).
Proof.
assert (t : bpow radix2 (-480) <= 1) by (change 1 with (bpow radix2 0); apply bpow_le; lia).
assert (q : entry est k i - entry tru k i = 0 \/ bpow radix2 (-480) <= Rabs (entry est k i - entry tru k i)).
{ apply (diffs (fun r => r = 0 \/ bpow radix2 (-480) <= Rabs r)); [right|right|right|left; reflexivity]; rewrite Rabs_pos_eq; lra. }
destruct q as [q|q]; [left; lra|right; exact q].
Qed.
Lemma depths k : (k < length est)%nat -> (dot_depth (dp k) <= 2)%nat.
Proof. intros h. destruct k as [|[|k]]; cbn in *; lia. Qed.
Example finite_case : ordinary (frmse dp sp est tru).
Proof.
refine (C70_finite dp sp est tru 2 3 sound_case depths _ _ _); [lia|cbn; lia|].
apply (diffs (fun r => Rabs r <= bpow radix2 3)); change (bpow radix2 3) with 8; rewrite Rabs_pos_eq; lra.
Qed.
Example accurate_case : within 12 (real (frmse dp sp est tru) * real (frmse dp sp est tru)) (mean_square est tru).
Proof. exact (C70_accurate dp sp est tru 2 sound_case depths not_tiny finite_case). Qed.
Example mean_square_case : mean_square est tru = 25.
Proof. unfold mean_square, est, tru. cbn [total distance2 length INR]. rewrite !reals by reflexivity. field. Qed.
(** another library: plain products from the left, and no empty accumulator *)
Definition dp2 (k : nat) := DAdd (DTerm 0) (DTerm 1).
Definition sp2 := SAdd (SItem 0) (SItem 1).
Example sound_other : sound dp2 sp2 est tru.
Proof.
split; [reflexivity|]. split; [cbn; lia|]. split; [reflexivity|]. split; [exact est_ord|]. split; [exact tru_ord|].
split; [intros [|[|[|k]]]; reflexivity|]. split; [|apply Permutation_refl].
intros [|[|k]] h; [apply Permutation_refl|apply Permutation_refl|cbn in h; lia].
Qed.
Example builds_case : (1 - bpow radix2 (-53)) ^ 12 * real (frmse dp sp est tru) ^ 2 <= (1 + bpow radix2 (-53)) ^ 12 * real (frmse dp2 sp2 est tru) ^ 2.
Proof.
apply (C70_builds dp sp dp2 sp2 est tru 4 sound_case sound_other); [|cbn; lia|exact not_tiny|exact finite_case|].
- intros k h. pose proof (depths k h). change (sum_depth sp) with 2%nat. lia.
- refine (C70_finite dp2 sp2 est tru 2 3 sound_other (fun _ _ => le_n 2) _ _ _); [lia|cbn; lia|].
  apply (diffs (fun r => Rabs r <= bpow radix2 3)); change (bpow radix2 3) with 8; rewrite Rabs_pos_eq; lra.
Qed.
End Case.

(** ** what does not hold: squares of tiny differences vanish and squares of huge ones are infinite *)
Module Range.
Definition fpow (e : Z) : f64 := @binary_normalize 53 1024 prec_ok emax_ok mode_NE 1 e false.
Lemma one_sound a b : ordinary a -> ordinary b -> sound (fun _ => DTerm 0) (SItem 0) [[a]] [[b]].
Proof.
intros ha hb. split; [reflexivity|]. split; [cbn; lia|]. split; [reflexivity|].
split; [repeat constructor; exact ha|]. split; [repeat constructor; exact hb|].
split; [intros [|[|k]]; reflexivity|]. split; [|apply Permutation_refl].
intros [|k] h; [apply Permutation_refl|cbn in h; lia].
Qed.
Lemma fpow_tiny : entry [[fpow (-600)]] 0 0 <> entry [[fzero]] 0 0.
Proof.
change (real (fpow (-600)) <> 0). unfold real, fpow. intros h.
assert (q : B2SF (fpow (-600)) = B2SF fzero).
{ f_equal. apply B2R_Bsign_inj; [vm_compute; reflexivity|reflexivity|exact h|vm_compute; reflexivity]. }
vm_compute in q. discriminate q.
Qed.
End Range.
(** an error of zero does not mean that the estimates are exact *)
Theorem C70_separates_refuted : exists dp sp ms xs, sound dp sp ms xs /\ entry ms 0 0 <> entry xs 0 0 /\ frmse dp sp ms xs = fzero.
Proof.
exists (fun _ => DTerm 0), (SItem 0), [[Range.fpow (-600)]], [[fzero]]. split; [apply Range.one_sound; [vm_compute; reflexivity|reflexivity]|].
split; [exact Range.fpow_tiny|]. apply B2SF_inj. vm_compute. reflexivity.
Qed.
(** the error of ordinary numbers need not be an ordinary number, though the exact one would be *)
Theorem C70_ordinary_refuted : exists dp sp ms xs, sound dp sp ms xs /\ mean_square ms xs = real (Range.fpow 600) ^ 2 /\ frmse dp sp ms xs = B754_infinity false.
Proof.
exists (fun _ => DTerm 0), (SItem 0), [[Range.fpow 600]], [[fzero]]. split; [apply Range.one_sound; [vm_compute; reflexivity|reflexivity]|].
split; [|apply B2SF_inj; vm_compute; reflexivity].
unfold mean_square. cbn [total distance2 length INR]. change (real fzero) with 0. rewrite Rminus_0_r. field.
Qed.

Print Assumptions C70_nonneg.
Print Assumptions C70_zero.
Print Assumptions C70_empty.
Print Assumptions C70_symmetric.
Print Assumptions C70_monotone.
Print Assumptions C70_accurate.
Print Assumptions C70_finite.
Print Assumptions C70_builds.
Print Assumptions C70_separates_refuted.
Print Assumptions C70_ordinary_refuted.
