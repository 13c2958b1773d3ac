(** * The updates of natural parameters (C66) and the times (C67) in double precision *)
Set Warnings "-notation-overridden,-ambiguous-paths".
From Coq Require Import ZArith Reals Lra Lia.
From Flocq Require Import Core IEEE754.BinarySingleNaN.
From Verif Require Import Float FloatSpec FloatFacts.
From Verif Require Nodes.
Local Open Scope R_scope.

(** ** C66 *)
(** the precision of a product is symmetric to the last bit, whatever the factors are *)
Theorem C66_symmetric a b i j : fp (fg_mul a b) i j = fp (fg_mul a b) j i.
Proof. exact (mul_sym a b i j). Qed.
(** multiplication commutes to the last bit *)
Theorem C66_commute a b i j : fp (fg_mul a b) i j = fp (fg_mul b a) i j /\ fs (fg_mul a b) i = fs (fg_mul b a) i.
Proof. exact (mul_comm a b i j). Qed.
(** the first power, and division by the flat factor, return the argument to the last bit *)
Theorem C66_first_power a i j : fp (fg_pow a fone) i j = fp a i j /\ fs (fg_pow a fone) i = fs a i.
Proof. exact (conj (fone_mul _) (fone_mul _)). Qed.
Theorem C66_divide_flat a i j : fp (fg_div a fg_factor) i j = fp a i j /\ fs (fg_div a fg_factor) i = fs a i.
Proof. exact (conj (fsub_zero _) (fsub_zero _)). Qed.
(** a Gaussian divided by itself is exactly the flat factor *)
Theorem C66_divide_self a i j : all_ordinary a -> fp (fg_div a a) i j = fp fg_factor i j /\ fs (fg_div a a) i = fs fg_factor i.
Proof. exact (fun o => conj (fsub_self _ (proj1 (o i j))) (fsub_self _ (proj2 (o i j)))). Qed.
(** multiplying by the flat factor changes no number *)
Theorem C66_multiply_flat a : all_ordinary a -> symmetric a -> moderate a -> equal_numbers (fg_mul a fg_factor) a.
Proof. exact (flat_mul a). Qed.
(** the undamped forward factor is exactly the projected state, whatever the old factor was *)
Theorem C66_forward old state : all_ordinary old -> all_ordinary state -> symmetric state -> moderate state ->
  equal_numbers (fwd_factor old state fone) state.
Proof. exact (fwd_undamped old state). Qed.
(** an undamped update with power one that changes no entry by more than a factor of two sets the marginal to exactly
    the projected one *)
Theorem C66_exact_visit projected marginal factor :
  all_ordinary projected -> all_ordinary marginal -> symmetric projected -> moderate projected ->
  (forall i j, within_two (real (fp projected i j)) (real (fp marginal i j)) /\ within_two (real (fs projected i)) (real (fs marginal i))) ->
  equal_numbers (snd (power_update projected marginal factor fone fone)) projected.
Proof. exact (exact_visit projected marginal factor). Qed.
(** in general two roundings separate the new factor and marginal from the exact ones, *)
Theorem C66_visit projected marginal factor i j : symmetric projected -> symmetric marginal -> symmetric factor ->
  let new := power_update projected marginal factor fone fone in
  (ordinary (fp (fst new) i j) -> rounded_move (real (fp (fst new) i j)) (real (fp factor i j)) (real (fp projected i j)) (real (fp marginal i j))) /\
  (ordinary (fs (fst new) i) -> rounded_move (real (fs (fst new) i)) (real (fs factor i)) (real (fs projected i)) (real (fs marginal i))) /\
  (ordinary (fp (snd new) i j) -> rounded_move (real (fp (snd new) i j)) (real (fp marginal i j)) (real (fp projected i j)) (real (fp marginal i j))) /\
  (ordinary (fs (snd new) i) -> rounded_move (real (fs (snd new) i)) (real (fs marginal i)) (real (fs projected i)) (real (fs marginal i))).
Proof. exact (visit_one projected marginal factor i j). Qed.
(** and three with any damping and power *)
Theorem C66_damped_visit projected marginal factor damping power i j : symmetric projected -> symmetric marginal -> symmetric factor ->
  let new := power_update projected marginal factor damping power in
  let step := real (fdiv damping power) in
  (ordinary (fp (fst new) i j) -> rounded_step (real (fp (fst new) i j)) (real (fp factor i j)) (real (fp projected i j)) (real (fp marginal i j)) (real damping)) /\
  (ordinary (fs (fst new) i) -> rounded_step (real (fs (fst new) i)) (real (fs factor i)) (real (fs projected i)) (real (fs marginal i)) (real damping)) /\
  (ordinary (fp (snd new) i j) -> rounded_step (real (fp (snd new) i j)) (real (fp marginal i j)) (real (fp projected i j)) (real (fp marginal i j)) step) /\
  (ordinary (fs (snd new) i) -> rounded_step (real (fs (snd new) i)) (real (fs marginal i)) (real (fs projected i)) (real (fs marginal i)) step).
Proof. exact (visit_any projected marginal factor damping power i j). Qed.
(** likewise the marginal of a forward update *)
Theorem C66_forward_marginal marginal old new power i j : symmetric marginal -> symmetric old -> symmetric new ->
  let m := fwd_marginal marginal old new power in
  let step := real (fdiv fone power) in
  (ordinary (fp m i j) -> rounded_step (real (fp m i j)) (real (fp marginal i j)) (real (fp new i j)) (real (fp old i j)) step) /\
  (ordinary (fs m i) -> rounded_step (real (fs m i)) (real (fs marginal i)) (real (fs new i)) (real (fs old i)) step).
Proof. exact (fun sm so sn => move_step marginal new old (fdiv fone power) i j sm sn so). Qed.
(** dividing a product by one of its factors misses the other factor by about the rounding error of the product *)
Theorem C66_undo a b i j : symmetric a -> symmetric b ->
  (ordinary (fp (fg_div (fg_mul a b) b) i j) -> exists e1 e2, relative e1 /\ relative e2 /\
     real (fp (fg_div (fg_mul a b) b) i j) = (real (fp a i j) + (real (fp a i j) + real (fp b i j)) * e1) * (1 + e2)) /\
  (ordinary (fs (fg_div (fg_mul a b) b) i) -> exists e1 e2, relative e1 /\ relative e2 /\
     real (fs (fg_div (fg_mul a b) b) i) = (real (fs a i) + (real (fs a i) + real (fs b i)) * e1) * (1 + e2)).
Proof. exact (undo_entry a b i j). Qed.
(** so that, unlike in exact arithmetic, the factor can be lost altogether: 1 + 2^53 - 2^53 = 0 *)
Theorem C66_undo_refuted : exists a b, all_ordinary a /\ all_ordinary b /\ symmetric a /\ symmetric b /\ moderate a /\ moderate b /\
  ~ equal_numbers (fg_div (fg_mul a b) b) a.
Proof. exact undo_lost. Qed.

(** ** C67 *)
(** the default times handed to the nodes are those of the clock *)
Theorem C67_nodes dt N : Nodes.default_fargs fadd (fun t : f64 => t) N fzero dt = List.map (clock dt) (List.seq 0 N).
Proof. exact (fargs_clock dt 0 N). Qed.
(** a step m * 2^e with |m| N < 2^53: all times are exact, and the smoother's times are those of the filter *)
Theorem C67_exact dt m e N k : ordinary dt -> real dt = IZR m * bpow radix2 e -> (-1074 <= e <= 971)%Z ->
  (Z.abs m * Z.of_nat N < 2 ^ 53)%Z -> (k <= N)%nat -> ordinary (clock dt k) /\ real (clock dt k) = INR k * real dt.
Proof. exact (fun o d he hN hk => swap_and _ _ (clock_exact dt m e N k o d he hN hk)). Qed.
Theorem C67_smoother dt m e N k : ordinary dt -> real dt = IZR m * bpow radix2 e -> (-1074 <= e <= 971)%Z ->
  (Z.abs m * Z.of_nat N < 2 ^ 53)%Z -> (Z.of_nat N <= 2 ^ 53)%Z -> (k < N)%nat ->
  ordinary (back_clock dt N k) /\ real (back_clock dt N k) = real (clock dt (N - 1 - k)).
Proof. exact (back_same dt m e N k). Qed.
(** not for every step: with dt = 0.1 the smoother visits the third of four states at another time than the filter *)
Theorem C67_smoother_refuted : exists dt N k, ordinary dt /\ 0 < real dt /\ (k < N)%nat /\ ordinary (clock dt N) /\
  real (back_clock dt N k) <> real (clock dt (N - 1 - k)).
Proof. exact tenth_differs. Qed.
(** the unit step of the systems counts exactly up to 2^53 and then stands still *)
Theorem C67_unit k : (Z.of_nat k <= 2 ^ 53)%Z -> real (clock fone k) = INR k.
Proof. exact (fun h => proj1 (clock_one k h)). Qed.
Theorem C67_stuck k : (2 ^ 53 <= Z.of_nat k)%Z -> real (clock fone k) = bpow radix2 53.
Proof. exact (clock_stuck k). Qed.
(** with any step size that is not negative time never runs backwards, and drifts by at most one rounding per step *)
Theorem C67_forward dt k : 0 <= real dt -> ordinary (clock dt (S k)) -> 0 <= real (clock dt k) <= real (clock dt (S k)).
Proof. exact (clock_mono dt k). Qed.
Theorem C67_drift dt k : 0 <= real dt -> ordinary (clock dt (S k)) ->
  INR (S k) * real dt * (1 - bpow radix2 (-53)) ^ k <= real (clock dt (S k)) <= INR (S k) * real dt * (1 + bpow radix2 (-53)) ^ k.
Proof. exact (clock_drift dt k). Qed.

(** ** Examples *)
(** constant natural parameters *)
Definition cst (p s : Z) : fgauss := FG (fun _ _ => fint p) (fun _ => fint s).
Example cst_ok p s : (Z.abs p < 2 ^ 53)%Z -> (Z.abs s < 2 ^ 53)%Z -> all_ordinary (cst p s) /\ symmetric (cst p s) /\ moderate (cst p s).
Proof.
intros hp hs. destruct (small_int p hp) as [p1 p2], (small_int s hs) as [s1 s2]. split; [|split].
- intros i j. now split.
- intros i j. reflexivity.
- intros i j. unfold real. cbn [fp cst]. rewrite p1. now apply small_mid.
Qed.
(** precision 3 and shift -5 projected from a marginal with 2 and -4: both within a factor of two *)
Example C66_ex_visit : real (fp (snd (power_update (cst 3 (-5)) (cst 2 (-4)) (cst 1 1) fone fone)) 0 0) = 3 /\
  real (fs (snd (power_update (cst 3 (-5)) (cst 2 (-4)) (cst 1 1) fone fone)) 0) = -5.
Proof.
destruct (cst_ok 3 (-5)) as (o & s & m); [reflexivity|reflexivity|]. destruct (cst_ok 2 (-4)) as (o' & _ & _); [reflexivity|reflexivity|].
destruct (small_int 3 eq_refl) as [a3 _], (small_int (-5) eq_refl) as [a5 _], (small_int 2 eq_refl) as [a2 _], (small_int (-4) eq_refl) as [a4 _].
destruct (C66_exact_visit (cst 3 (-5)) (cst 2 (-4)) (cst 1 1) o o' s m) as [_ h].
- intros i j. unfold within_two, real. cbn [fp fs cst]. rewrite a3, a5, a2, a4. lra.
- destruct (h 0%nat 0%nat) as [h1 h2]. rewrite h1, h2. unfold real. cbn [fp fs cst]. rewrite a3, a5. split; reflexivity.
Qed.
Example C66_ex_forward : equal_numbers (fwd_factor (cst 7 8) (cst 3 (-5)) fone) (cst 3 (-5)).
Proof.
destruct (cst_ok 3 (-5)) as (o & s & m); [reflexivity|reflexivity|]. destruct (cst_ok 7 8) as (o' & _ & _); [reflexivity|reflexivity|].
now apply C66_forward.
Qed.
Example C66_ex_flat : equal_numbers (fg_mul (cst 3 (-5)) fg_factor) (cst 3 (-5)).
Proof. destruct (cst_ok 3 (-5)) as (o & s & m); [reflexivity|reflexivity|]. now apply C66_multiply_flat. Qed.
(** a damped visit whose results are ordinary numbers: damping 0.5, power 2 *)
Example C66_ex_damped : let new := power_update (cst 3 (-5)) (cst 2 (-4)) (cst 1 1) (fdiv fone (fint 2)) (fint 2) in
  rounded_step (real (fp (fst new) 0 0)) 1 3 2 (real (fdiv fone (fint 2))).
Proof.
destruct (C66_damped_visit (cst 3 (-5)) (cst 2 (-4)) (cst 1 1) (fdiv fone (fint 2)) (fint 2) 0 0) as (h & _); [intros i j; reflexivity..|].
destruct (small_int 3 eq_refl) as [a3 _], (small_int 1 eq_refl) as [a1 _], (small_int 2 eq_refl) as [a2 _].
cbv zeta. unfold real in h. cbn [fp cst] in h. unfold real. rewrite a3, a1, a2 in h. apply h. reflexivity.
Qed.
(** step 1/4, a hundred states *)
Example C67_ex_quarter k : (k < 100)%nat -> real (back_clock (fdiv fone (fint 4)) 100 k) = real (clock (fdiv fone (fint 4)) (99 - k)).
Proof.
intros hk. destruct (C67_smoother (fdiv fone (fint 4)) 1 (-2) 100 k) as [_ h]; [reflexivity|exact quarter| | | |exact hk|exact h]; lia.
Qed.
(** ten steps of 0.1 stay within nine roundings of 1 *)
Example C67_ex_drift : INR 10 * real tenth * (1 - bpow radix2 (-53)) ^ 9 <= real (clock tenth 10) <= INR 10 * real tenth * (1 + bpow radix2 (-53)) ^ 9.
Proof. apply (C67_drift tenth 9); [apply Rlt_le, tenth_pos|reflexivity]. Qed.
Example C67_ex_unit : real (clock fone 100) = 100.
Proof. rewrite C67_unit by lia. cbn. lra. Qed.

Print Assumptions C66_symmetric.
Print Assumptions C66_commute.
Print Assumptions C66_first_power.
Print Assumptions C66_divide_flat.
Print Assumptions C66_divide_self.
Print Assumptions C66_multiply_flat.
Print Assumptions C66_forward.
Print Assumptions C66_exact_visit.
Print Assumptions C66_visit.
Print Assumptions C66_damped_visit.
Print Assumptions C66_forward_marginal.
Print Assumptions C66_undo.
Print Assumptions C66_undo_refuted.
Print Assumptions C67_nodes.
Print Assumptions C67_exact.
Print Assumptions C67_smoother.
Print Assumptions C67_smoother_refuted.
Print Assumptions C67_unit.
Print Assumptions C67_stuck.
Print Assumptions C67_forward.
Print Assumptions C67_drift.
