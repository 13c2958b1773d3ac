(** * Specification vocabulary: nonlinear state-space models and their linearisations

    Nothing here refers to the code. *)
Set Warnings "-notation-overridden,-ambiguous-paths".
From mathcomp Require Import all_ssreflect all_algebra.
From Verif Require Import PosDef SpecGauss.
Set Implicit Arguments.
Unset Strict Implicit.
Unset Printing Implicit Defensive.
Import GRing.Theory Num.Theory Order.Theory.
Local Open Scope ring_scope.

(** x_0 ~ N(m0, P0),  x_{j+1} = f_j(x_j) + N(0, Q),  y_j = h_j(x_{j+1}) + N(0, R), with the Jacobians
    F_j of f_j and H_j of h_j *)
Record nlssm (R : rcfType) (n k : nat) := Nlssm {
  n_m0 : 'cV[R]_n; n_P0 : 'M[R]_n; n_Q : 'M[R]_n; n_R : 'M[R]_k;
  n_f : nat -> 'cV[R]_n -> 'cV[R]_n; n_F : nat -> 'cV[R]_n -> 'M[R]_n;
  n_h : nat -> 'cV[R]_n -> 'cV[R]_k; n_H : nat -> 'cV[R]_n -> 'M[R]_(k, n) }.

Section Lin.
Variables (R : rcfType) (n k : nat).
Variable M : nlssm R n k.
Definition noise_okn := [/\ posdef (n_P0 M), posdef (n_Q M) & posdef (n_R M)].
(** the affine model with f_j linearised at xf_j and h_j at xh_j *)
Definition lin_at (xf xh : nat -> 'cV[R]_n) : lgssm R n k :=
  Lgssm (n_m0 M) (n_P0 M)
        (fun j => n_F M j (xf j)) (fun j => n_f M j (xf j) - n_F M j (xf j) *m xf j) (n_Q M)
        (fun j => n_H M j (xh j)) (fun j => n_h M j (xh j) - n_H M j (xh j) *m xh j) (n_R M).
(** the model in which f_j is replaced by its linearisation at the fixed point a, h_j by that at c *)
Definition frozen (a c : 'cV[R]_n) : nlssm R n k :=
  Nlssm (n_m0 M) (n_P0 M) (n_Q M) (n_R M)
        (fun j x => n_F M j a *m x + (n_f M j a - n_F M j a *m a)) (fun j _ => n_F M j a)
        (fun j x => n_H M j c *m x + (n_h M j c - n_H M j c *m c)) (fun j _ => n_H M j c).
End Lin.
