(** * Words for C70: errors as real numbers, and orders of summation *)
Set Warnings "-notation-overridden,-ambiguous-paths".
From Coq Require Import ZArith Reals List Permutation.
From Flocq Require Import Core IEEE754.BinarySingleNaN.
From Verif Require Import Float FloatSpec FloatMetrics.
Import ListNotations.
Local Open Scope R_scope.

(** the square of the Euclidean distance of two lists of numbers, and its mean over the steps *)
Fixpoint distance2 (m x : vec) : R :=
  match m, x with a :: m', b :: x' => (real a - real b) ^ 2 + distance2 m' x' | _, _ => 0 end.
Fixpoint total (ms xs : list vec) : R :=
  match ms, xs with m :: ms', x :: xs' => distance2 m x + total ms' xs' | _, _ => 0 end.
Definition mean_square (ms xs : list vec) : R := total ms xs / INR (length ms).

(** the plan uses each of the entries [0 .. n-1] once *)
Fixpoint dot_uses (p : dot_plan) : list nat :=
  match p with DZero => [] | DTerm i => [i] | DAdd l r => dot_uses l ++ dot_uses r | DFma i acc => i :: dot_uses acc end.
Fixpoint sum_uses (p : sum_plan) : list nat :=
  match p with SZero => [] | SItem i => [i] | SAdd l r => sum_uses l ++ sum_uses r end.
Definition all_once (uses : list nat) (n : nat) := Permutation uses (seq 0 n).
(** how many roundings lie between the entries and the result *)
Fixpoint dot_depth (p : dot_plan) : nat :=
  match p with DZero => 0 | DTerm _ => 1 | DAdd l r => S (max (dot_depth l) (dot_depth r)) | DFma _ acc => S (dot_depth acc) end.
Fixpoint sum_depth (p : sum_plan) : nat :=
  match p with SZero => 0 | SItem _ => 0 | SAdd l r => S (max (sum_depth l) (sum_depth r)) end.

(** a trajectory of [N] estimates and true values of ordinary numbers, of the same shapes, summed with these plans *)
Definition ordinary_vec (v : vec) := Forall ordinary v.
Definition sound (dp : nat -> dot_plan) (sp : sum_plan) (ms xs : list vec) :=
  length ms = length xs /\ (0 < length ms)%nat /\ (Z.of_nat (length ms) < 2 ^ 53)%Z /\
  Forall ordinary_vec ms /\ Forall ordinary_vec xs /\
  (forall k, length (nth k ms []) = length (nth k xs [])) /\
  (forall k, (k < length ms)%nat -> all_once (dot_uses (dp k)) (length (nth k ms []))) /\
  all_once (sum_uses sp) (length ms).
Definition entry (ms : list vec) (k i : nat) : R := real (get (nth k ms []) i).
(** zero, a positive number or infinity, but neither nan, nor negative, nor the negative zero *)
Definition nonneg (x : f64) := x = B754_infinity false \/ (ordinary x /\ Bsign x = false).
(** not larger, for such numbers *)
Definition at_most (x y : f64) := y = B754_infinity false \/ (ordinary x /\ ordinary y /\ real x <= real y).
(** [r] is [s] with at most [k] relative errors of 2^-53 *)
Definition within (k : nat) (r s : R) := (1 - bpow radix2 (-53)) ^ k * s <= r <= (1 + bpow radix2 (-53)) ^ k * s.
