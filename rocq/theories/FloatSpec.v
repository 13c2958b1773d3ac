(** * Words for C66 and C67: exact and nearly exact results in double precision *)
Set Warnings "-notation-overridden,-ambiguous-paths".
From Coq Require Import ZArith Reals.
From Flocq Require Import Core IEEE754.BinarySingleNaN.
From Verif Require Import Float.
Local Open Scope R_scope.

(** the real number a double stands for (0 for infinities and nan), and being neither infinite nor nan *)
Definition real (x : f64) : R := B2R x.
Definition ordinary (x : f64) : Prop := is_finite x = true.
(** every entry of the natural parameters is an ordinary number *)
Definition all_ordinary (g : fgauss) := forall i j, ordinary (fp g i j) /\ ordinary (fs g i).
Definition symmetric (g : fgauss) := forall i j, real (fp g i j) = real (fp g j i).
(** no precision entry is so large that doubling it overflows *)
Definition moderate (g : fgauss) := forall i j, Rabs (real (fp g i j)) < bpow radix2 1023.
(** the same numbers (zeros may differ in sign) *)
Definition equal_numbers (g h : fgauss) := all_ordinary g /\ (forall i j, real (fp g i j) = real (fp h i j) /\ real (fs g i) = real (fs h i)).
(** [x] and [y] have the same sign and are within a factor of two of each other *)
Definition within_two (x y : R) := y / 2 <= x <= 2 * y \/ 2 * y <= x <= y / 2.
(** relative rounding error of one operation, and the absolute one at the bottom of the range *)
Definition relative (e : R) := Rabs e <= bpow radix2 (-53).
Definition absolute (z : R) := Rabs z <= bpow radix2 (-1075).
(** [x] is [f + d * (p - m)] computed with three roundings *)
Definition rounded_step (x f p m d : R) := exists e1 e2 e3 z, relative e1 /\ relative e2 /\ relative e3 /\ absolute z /\
  x = (f + (d * ((p - m) * (1 + e1)) * (1 + e2) + z)) * (1 + e3).
(** [x] is [f + (p - m)] computed with two roundings *)
Definition rounded_move (x f p m : R) := exists e1 e2, relative e1 /\ relative e2 /\ x = (f + (p - m) * (1 + e1)) * (1 + e2).
