(** * Specification of the numerical Jacobian *)
Set Warnings "-notation-overridden,-ambiguous-paths".
From mathcomp Require Import all_ssreflect all_algebra.
Set Implicit Arguments.
Unset Strict Implicit.
Unset Printing Implicit Defensive.
Import GRing.Theory Num.Theory.
Local Open Scope ring_scope.

Section Spec.
Variables (R : rcfType) (m n : nat).

(** output [i] of [Phi], seen along coordinate [j] from [v], is the polynomial [p i j] *)
Definition along (Phi : 'cV[R]_n -> 'cV[R]_m) (v : 'cV[R]_n) (p : 'I_m -> 'I_n -> {poly R}) : Prop :=
  forall i j t, Phi (v + t *: delta_mx j 0) i 0 = (p i j).[t].

(** the true Jacobian at [v]: derivatives at 0 along the coordinates *)
Definition partials (p : 'I_m -> 'I_n -> {poly R}) : 'M[R]_(m, n) := \matrix_(i, j) (p i j)^`().[0].

(** what third and higher odd derivatives add, divided by the squared step *)
Definition excess (p : 'I_m -> 'I_n -> {poly R}) (eps : R) : 'M[R]_(m, n) :=
  \matrix_(i, j) \sum_(k < size (p i j) | odd k && (2 < k)%N) (p i j)`_k * eps ^+ (k - 3).

End Spec.
