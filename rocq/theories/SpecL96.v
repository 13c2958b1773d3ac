(** * The documented Lorenz-96 model (README.md:117-124), independent of the code

    Component indices live in the cyclic group Z/(n+1). *)
Set Warnings "-notation-overridden,-ambiguous-paths".
From mathcomp Require Import all_ssreflect all_algebra.
Set Implicit Arguments.
Unset Strict Implicit.
Unset Printing Implicit Defensive.
Import GRing.Theory.
Local Open Scope ring_scope.

Section Spec.
Variables (R : fieldType) (n : nat).
Notation state := ('I_n.+1 -> R).
Notation one := (Zp1 : 'I_n.+1).

(** dx_i/dt = (x_{i+1} - x_{i-2}) x_{i-1} - x_i + F *)
Definition readme (F : R) (x : state) : state :=
  fun i => (x (i + one) - x (i - one - one)) * x (i - one) - x i + F.
(** one step of the classical fourth-order Runge-Kutta method *)
Definition rk4 (dt : R) (g : state -> state) (x : state) : state :=
  let k1 := g x in
  let k2 := g (fun i => x i + dt / 2%:R * k1 i) in
  let k3 := g (fun i => x i + dt / 2%:R * k2 i) in
  let k4 := g (fun i => x i + dt * k3 i) in
  fun i => x i + dt / 6%:R * (k1 i + 2%:R * k2 i + 2%:R * k3 i + k4 i).
(** components in reverse order, and cyclically shifted *)
Definition mirror (x : state) : state := fun i => x (rev_ord i).
Definition cyc (c : 'I_n.+1) (x : state) : state := fun i => x (i + c).
(** rows of a matrix as states *)
Definition rowf m (X : 'M[R]_(m, n.+1)) (i : 'I_m) : state := X i.
Definition matf m (f : 'I_m -> state) : 'M[R]_(m, n.+1) := \matrix_(i, j) f i j.
End Spec.
