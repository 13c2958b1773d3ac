(** * Specification: limits of sequences in an ordered field *)
Set Warnings "-notation-overridden,-ambiguous-paths".
From mathcomp Require Import all_ssreflect all_algebra.
Set Implicit Arguments.
Unset Strict Implicit.
Unset Printing Implicit Defensive.
Import GRing.Theory Num.Theory.
Local Open Scope ring_scope.

Section Limit.
Variable R : rcfType.
(** every number is below some natural number *)
Definition archimedean := forall x : R, exists n : nat, x < n%:R.
Definition tends (f : nat -> R) (l : R) := forall e, 0 < e -> exists n0, forall n, (n0 <= n)%N -> `|f n - l| < e.
End Limit.
