(** * Property C72: the Lorenz model in double precision (Systems/L96.py) *)
Set Warnings "-notation-overridden,-ambiguous-paths".
From Coq Require Import ZArith Reals Lra Lia.
From Flocq Require Import Core IEEE754.BinarySingleNaN.
From Verif Require Import Float FloatSpec FloatFacts FloatMetricsSpec FloatL96 FloatL96Spec FloatL96Facts FloatL96Num FloatL96Step.
Local Open Scope R_scope.

(** rotating the state rotates every later state, bit for bit *)
Theorem C72_rotation n dt F k x s i j : (0 < n)%nat -> (j < n)%nat ->
  lorbit n dt F k (fun i j => x i ((j + s) mod n)%nat) i j = lorbit n dt F k x i ((j + s) mod n)%nat.
Proof. intros p. exact (rotation n p dt F k x s i j). Qed.
(** a row of a batch moves as it does alone or in any other batch, bit for bit *)
Theorem C72_rows n dt F k x y i l j : (0 < n)%nat -> (j < n)%nat -> (forall j, (j < n)%nat -> x i j = y l j) ->
  lorbit n dt F k x i j = lorbit n dt F k y l j.
Proof. intros p. exact (row_only n p dt F k x y i l j). Qed.
(** after [k] steps an entry depends only on the entries from 4k places before to 8k places after *)
Theorem C72_local n dt F k x y i l j : (0 < n)%nat ->
  (forall c, (-4 * Z.of_nat k <= c <= 8 * Z.of_nat k)%Z -> x i (column n (j + c)) = y l (column n (j + c))) ->
  lorbit n dt F k x i (column n j) = lorbit n dt F k y l (column n j).
Proof. intros p. exact (locality n p dt F k x y i l j). Qed.
(** and a nan does travel so far: [k] steps fill 12k + 1 neighbouring columns, so soon the whole row *)
Theorem C72_nan_near n dt F k x i j c : (0 < n)%nat -> is_nan (x i (column n j)) = true -> (-8 * Z.of_nat k <= c <= 4 * Z.of_nat k)%Z ->
  is_nan (lorbit n dt F k x i (column n (j + c))) = true.
Proof. intros p. exact (nan_near n p dt F k x i j c). Qed.
Theorem C72_nan_all n dt F k x i j l : (0 < n)%nat -> is_nan (x i j) = true -> (j < n)%nat -> (l < n)%nat -> (n <= 12 * k + 1)%nat ->
  is_nan (lorbit n dt F k x i l) = true.
Proof. intros p. exact (nan_all n p dt F k x i j l). Qed.
(** an entry that has overflowed never becomes a number again *)
Theorem C72_lost n dt F k x i j : ordinary (lorbit n dt F (S k) x i j) -> ordinary (lorbit n dt F k x i j).
Proof. exact (once_lost n dt F k x i j). Qed.
(** the equilibrium is exact: the state F never moves, whatever the step *)
Theorem C72_rest n dt F k x i j : (0 < n)%nat -> ordinary dt -> real F <> 0 -> (forall j, (j < n)%nat -> x i j = F) -> (j < n)%nat ->
  lorbit n dt F k x i j = F.
Proof. intros p. exact (at_rest n p dt F k x i j). Qed.
(** equal entries stay equal *)
Theorem C72_uniform n dt F k x i a j l : (0 < n)%nat -> (forall j, (j < n)%nat -> x i j = a) -> (j < n)%nat -> (l < n)%nat ->
  lorbit n dt F k x i j = lorbit n dt F k x i l.
Proof. intros p. exact (uniform n p dt F k x i a j l). Qed.
(** a step of size at most 1 from entries up to 2^60 does not overflow *)
Theorem C72_finite n dt F x i j e : (0 < n)%nat -> (0 <= e <= 60)%Z -> up_to 0 dt -> up_to e F -> (forall j, (j < n)%nat -> up_to e (x i j)) -> (j < n)%nat ->
  up_to (16 * e + 49) (lstep n dt F x i j).
Proof. intros p. exact (no_overflow n p dt F x i j e). Qed.
(** with one or three variables nothing couples them: the derivative is F - x *)
Theorem C72_three n F x i j : (n = 1 \/ n = 3)%nat -> real F <> 0 -> (forall j, (j < n)%nat -> ordinary (x i j)) -> (j < n)%nat ->
  lmodel n F x i j = fsub F (x i j).
Proof. intros h. exact (three_slope n ltac:(lia) F x i j h). Qed.
(** the derivative is that of exact arithmetic up to 12 roundings of the largest product *)
Theorem C72_accurate n F x i j M : (0 < n)%nat -> 1 <= M -> Rabs (real F) <= M -> (forall j, (j < n)%nat -> Rabs (real (x i j)) <= M) -> (j < n)%nat ->
  ordinary (lmodel n F x i j) ->
  Rabs (real (lmodel n F x i j) - slope (real F) (real (x i j)) (real (x i (column n (Z.of_nat j + 1)))) (real (x i (column n (Z.of_nat j + 2)))) (real (x i (column n (Z.of_nat j - 1)))))
  <= 12 * bpow radix2 (-53) * (M * M).
Proof. intros p. exact (slope_error n p F x i j M). Qed.
(** one step is that of the classical Runge-Kutta method in exact arithmetic, up to 2^-30 of the bound on the state, if
    the step size times this bound is at most 1; nothing overflows *)
Theorem C72_step n dt F x i z M : (0 < n)%nat -> 1 <= M <= bpow radix2 400 -> ordinary dt -> Rabs (real dt) * M <= 1 ->
  ordinary F -> Rabs (real F) <= M -> (forall j, (j < n)%nat -> ordinary (x i j) /\ Rabs (real (x i j)) <= M) ->
  ordinary (lstep n dt F x i (column n z)) /\
  Rabs (real (lstep n dt F x i (column n z)) - rk4 (field (real F)) (real dt) (fun z => real (x i (column n z))) z) <= bpow radix2 (-30) * M.
Proof. intros p. exact (step_error n p dt F x i z M). Qed.
(** the measurement cannot tell a state from its mirror image, and is never negative *)
Theorem C72_sign x i j : lmeasure (fun i j => fopp (x i j)) i j = lmeasure x i j.
Proof. exact (square_sign x i j). Qed.
Theorem C72_measure x i j : is_nan (x i j) = false -> nonneg (lmeasure x i j).
Proof. exact (square_nonneg x i j). Qed.
(** and is the square up to one rounding *)
Theorem C72_square x i j : ordinary (lmeasure x i j) ->
  Rabs (real (lmeasure x i j) - real (x i j) * real (x i j)) <= bpow radix2 (-53) * (real (x i j) * real (x i j)) + bpow radix2 (-1075).
Proof. exact (square_error x i j). Qed.

Print Assumptions C72_rotation. Print Assumptions C72_rows. Print Assumptions C72_local. Print Assumptions C72_nan_near. Print Assumptions C72_nan_all.
Print Assumptions C72_lost. Print Assumptions C72_rest. Print Assumptions C72_uniform. Print Assumptions C72_finite. Print Assumptions C72_three.
Print Assumptions C72_accurate. Print Assumptions C72_step. Print Assumptions C72_sign. Print Assumptions C72_measure. Print Assumptions C72_square.

(** ** cases *)
Local Close Scope R_scope.
Definition dt0 : f64 := fdiv (fint 1) (fint 20).
Definition F0 : f64 := fint 8.
(** the start of [generate_L96_initial_condition]: the equilibrium with a perturbed first entry; it moves, and moves its neighbour *)
Definition start : arr := fun _ j => match j with O => fadd F0 (fdiv (fint 1) (fint 100)) | _ => F0 end.
Example C72_moves : SpecFloat.SFeqb (B2SF (lstep 40 dt0 F0 start 0 1)) (B2SF F0) = false /\ B2SF (lstep 40 dt0 F0 start 0 20) = B2SF F0.
Proof. split; vm_compute; reflexivity. Qed.
(** the start perturbed at column 35 instead: the same orbit, rotated *)
Example C72_moves_rotated k : lorbit 40 dt0 F0 k (fun i j => start i ((j + 5) mod 40)%nat) 0 35 = lorbit 40 dt0 F0 k start 0 0.
Proof. exact (C72_rotation 40 dt0 F0 k start 5 0 35 ltac:(lia) ltac:(lia)). Qed.
Lemma F0_8 : real F0 = 8%R. Proof. now apply small_int. Qed.
Example C72_rest_case k : lorbit 40 dt0 F0 k (fun _ _ => F0) 0 7 = F0.
Proof. apply C72_rest; [lia|reflexivity|rewrite F0_8; lra|reflexivity|lia]. Qed.
(** one nan after one step: columns 12 (-8) to 4 of 20, not column 5 *)
Definition broken : arr := fun _ j => match j with O => B754_nan | _ => F0 end.
Example C72_nan_case : is_nan (lorbit 20 dt0 F0 1 broken 0 4) = true /\ is_nan (lorbit 20 dt0 F0 1 broken 0 12) = true /\
  ordinary (lorbit 20 dt0 F0 1 broken 0 5) /\ ordinary (lorbit 20 dt0 F0 1 broken 0 11).
Proof. repeat split; vm_compute; reflexivity. Qed.
Example C72_nan_two : is_nan (lorbit 20 dt0 F0 2 broken 0 11) = true.
Proof. apply (C72_nan_all 20 dt0 F0 2 broken 0 0 11); try lia; reflexivity. Qed.
(** the bound of [C72_accurate] is not about exact results: a derivative that rounds *)
Definition tenths : arr := fun _ j => fdiv (fint (Z.of_nat j)) (fint 10).
Example C72_accurate_case : ordinary (lmodel 5 F0 tenths 0 1) /\ lmodel 5 F0 tenths 0 1 <> fsub F0 (tenths 0%nat 1%nat).
Proof. split; [vm_compute; reflexivity|]. intros e. apply (f_equal (@B2SF 53 1024)) in e. vm_compute in e. discriminate e. Qed.
Local Open Scope R_scope.
(** the step size, forcing and start of the experiments, with M = 16 *)
Lemma small_dt0 : Rabs (real dt0) * 16 <= 1.
Proof.
unfold real. rewrite <- SF2R_B2SF. replace (B2SF dt0) with (SpecFloat.S754_finite false 7205759403792794 (-57)) by (vm_compute; reflexivity).
cbn -[IZR]. unfold F2R. cbn -[IZR]. rewrite Rabs_right; lra.
Qed.
Lemma small_first : Rabs (real (fadd F0 (fdiv (fint 1) (fint 100)))) <= 16.
Proof.
unfold real. rewrite <- SF2R_B2SF. replace (B2SF (fadd F0 (fdiv (fint 1) (fint 100)))) with (SpecFloat.S754_finite false 4509229126904709 (-49)) by (vm_compute; reflexivity).
cbn -[IZR]. unfold F2R. cbn -[IZR]. rewrite Rabs_right; lra.
Qed.
Example C72_step_case i z : Rabs (real (lstep 40 dt0 F0 start i (column 40 z)) - rk4 (field (real F0)) (real dt0) (fun z => real (start i (column 40 z))) z) <= bpow radix2 (-30) * 16.
Proof.
apply C72_step; [lia| |vm_compute; reflexivity|exact small_dt0|vm_compute; reflexivity|rewrite F0_8, Rabs_right; lra|].
- split; [lra|]. apply Rle_trans with (bpow radix2 4); [change (bpow radix2 4) with (IZR 16); lra|apply bpow_le; lia].
- intros [|j] _; cbn [start]; (split; [vm_compute; reflexivity|]); [exact small_first|]. rewrite F0_8, Rabs_right; lra.
Qed.
(** a square that is not exact *)
Example C72_square_case : ordinary (lmeasure tenths 0%nat 1%nat) /\ lmeasure tenths 0%nat 1%nat <> fdiv (fint 1) (fint 100).
Proof. split; [vm_compute; reflexivity|]. intros e. apply (f_equal (@B2SF 53 1024)) in e. vm_compute in e. discriminate e. Qed.
