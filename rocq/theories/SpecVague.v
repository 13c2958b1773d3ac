(** * C73: affine models in which every state is also believed to be near zero

    Nothing here refers to the code. *)
Set Warnings "-notation-overridden,-ambiguous-paths".
From mathcomp Require Import all_ssreflect all_algebra.
From Verif Require Import PosDef SpecGauss.
Set Implicit Arguments.
Unset Strict Implicit.
Unset Printing Implicit Defensive.
Import GRing.Theory Num.Theory Order.Theory.
Local Open Scope ring_scope.

Section Spec.
Variables (R : rcfType) (k : nat) (S : lgssm R 1 k) (v : R).
(** joint negative log density of trajectory and observations, times a Gaussian N(0, v) for each of x_1 .. x_N *)
Definition vague_joint (y : nat -> 'cV[R]_k) (N : nat) (x : nat -> 'cV[R]_1) : R :=
  joint S y N x + \sum_(j < N) nll 0 v%:M (x j.+1).
(** N(m, P) is the marginal of x_i in that product (as in [posterior]) *)
Definition vague_posterior (y : nat -> 'cV[R]_k) (N i : nat) (m : 'cV[R]_1) (P : 'M[R]_1) : Prop :=
  posdef P /\ exists z, (forall x, nll m P (x i) + z <= vague_joint y N x) /\
                        (forall u, exists x, x i = u /\ vague_joint y N x = nll m P u + z).
End Spec.
