(** * C72: words for the Lorenz model in double precision *)
Set Warnings "-notation-overridden,-ambiguous-paths".
From Coq Require Import ZArith Reals.
From Flocq Require Import Core IEEE754.BinarySingleNaN.
From Verif Require Import Float FloatSpec.
Local Open Scope R_scope.

(** the column of a ring of [n] columns that lies [z] places after column 0 *)
Definition column (n : nat) (z : Z) : nat := Z.to_nat (z mod Z.of_nat n).
(** at most a power of two *)
Definition up_to (t : Z) (x : f64) : Prop := ordinary x /\ Rabs (real x) <= bpow radix2 t.
(** the derivative in exact arithmetic: [here], the next two on the ring and the one before *)
Definition slope (F here next next2 before : R) : R := - next * (next2 - before) - here + F.
(** the same for a sequence on the ring *)
Definition field (F : R) (w : Z -> R) (z : Z) : R := slope F (w z) (w (z + 1)%Z) (w (z + 2)%Z) (w (z - 1)%Z).
(** one step of the classical fourth-order Runge-Kutta method for [w' = G w] in exact arithmetic *)
Definition rk4 (G : (Z -> R) -> Z -> R) (h : R) (w : Z -> R) (z : Z) : R :=
  let a := G w in
  let b := G (fun z => w z + h / 2 * a z) in
  let c := G (fun z => w z + h / 2 * b z) in
  let d := G (fun z => w z + h * c z) in
  w z + h / 6 * (a z + 2 * b z + 2 * c z + d z).
