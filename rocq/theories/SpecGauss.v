(** * Specification vocabulary: Gaussian energies and affine-Gaussian state-space models

    Nothing here refers to the code. *)
Set Warnings "-notation-overridden,-ambiguous-paths".
From mathcomp Require Import all_ssreflect all_algebra.
From Verif Require Import PosDef.
Set Implicit Arguments.
Unset Strict Implicit.
Unset Printing Implicit Defensive.
Import GRing.Theory Num.Theory Order.Theory.
Local Open Scope ring_scope.

(** twice the negative log density of N(m, P) at x, up to the normalising constant *)
Definition nll (R : rcfType) n (m : 'cV[R]_n) (P : 'M[R]_n) (x : 'cV[R]_n) : R := qf (invmx P) (x - m).

(** affine-Gaussian state-space model:
    x_0 ~ N(m0, P0),  x_{k+1} = A_k x_k + b_k + N(0, Q),  y_k = H_k x_{k+1} + c_k + N(0, Rm) *)
Record lgssm (R : rcfType) (n k : nat) := Lgssm {
  s_m0 : 'cV[R]_n; s_P0 : 'M[R]_n;
  s_A : nat -> 'M[R]_n; s_b : nat -> 'cV[R]_n; s_Q : 'M[R]_n;
  s_H : nat -> 'M[R]_(k, n); s_c : nat -> 'cV[R]_k; s_R : 'M[R]_k }.

Section Spec.
Variables (R : rcfType) (n k : nat).
Variable S : lgssm R n k.
Definition noise_ok := [/\ posdef (s_P0 S), posdef (s_Q S) & posdef (s_R S)].

(** joint negative log density of the trajectory x_0 .. x_N and the observations y_0 .. y_{N-1} *)
Definition joint (y : nat -> 'cV[R]_k) (N : nat) (x : nat -> 'cV[R]_n) : R :=
  nll (s_m0 S) (s_P0 S) (x 0%N) +
  \sum_(j < N) (nll (s_A S j *m x j + s_b S j) (s_Q S) (x j.+1) +
                nll (s_H S j *m x j.+1 + s_c S j) (s_R S) (y j)).

(** N(m, P) is the posterior marginal of x_i given y_0 .. y_{N-1}: minimising the joint energy over
    all other states leaves the energy of N(m, P), up to a constant.  (For Gaussians partial
    minimisation and integration give the same marginal.) *)
Definition posterior (y : nat -> 'cV[R]_k) (N i : nat) (m : 'cV[R]_n) (P : 'M[R]_n) : Prop :=
  posdef P /\ exists z, (forall x, nll m P (x i) + z <= joint y N x) /\
                        (forall v, exists x, x i = v /\ joint y N x = nll m P v + z).
End Spec.
