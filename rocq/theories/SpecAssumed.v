(** * Assumed-density filtering and smoothing with any moment-matching rule

    [phi m P] stands for the approximate (mean, covariance, cross covariance with the input) of a function of
    a Gaussian with mean [m] and covariance [P], whatever transform computes it. *)
Set Warnings "-notation-overridden,-ambiguous-paths".
From mathcomp Require Import all_ssreflect all_algebra.
From Verif Require Import PosDef.
Set Implicit Arguments.
Unset Strict Implicit.
Unset Printing Implicit Defensive.
Import GRing.Theory Num.Theory Order.Theory.
Local Open Scope ring_scope.

Section Spec.
Variable R : rcfType.
Definition rule n k := 'cV[R]_n -> 'M[R]_n -> 'cV[R]_k * 'M[R]_k * 'M[R]_(n, k).
(** mean, covariance and cross covariance of a rule *)
Definition r_mean n k (r : rule n k) m P := (r m P).1.1.
Definition r_cov n k (r : rule n k) m P := (r m P).1.2.
Definition r_cross n k (r : rule n k) m P := (r m P).2.

Variables n k : nat.
(** x_(j+1) = f_j(x_j) + q, y_j = h_j(x_(j+1)) + r *)
Record approx := Approx { a_f : nat -> rule n n; a_h : nat -> rule n k; a_Q : 'M[R]_n; a_R : 'M[R]_k;
  a_m0 : 'cV[R]_n; a_P0 : 'M[R]_n }.
Variables (A : approx) (y : nat -> 'cV[R]_k).
Notation mom := ('cV[R]_n * 'M[R]_n)%type.
Definition a_pred (j : nat) (g : mom) : mom := (r_mean (a_f A j) g.1 g.2, r_cov (a_f A j) g.1 g.2 + a_Q A).
Definition a_gain (j : nat) (g : mom) : 'M[R]_(n, k) :=
  r_cross (a_h A j) g.1 g.2 *m invmx (r_cov (a_h A j) g.1 g.2 + a_R A).
Definition a_corr (j : nat) (g : mom) : mom :=
  (g.1 + a_gain j g *m (y j - r_mean (a_h A j) g.1 g.2), g.2 - a_gain j g *m (r_cross (a_h A j) g.1 g.2)^T).
(** natural parameters (precision * mean, precision) and back *)
Definition natural (g : mom) : mom := (invmx g.2 *m g.1, invmx g.2).
Definition moments_of (u : mom) : mom := (invmx u.2 *m u.1, invmx u.2).
(** multiply by the Gaussian N(0, 1/c) *)
Definition tempered (c : R) (g : mom) : mom := moments_of ((natural g).1, (natural g).2 + c *: 1%:M).
(** the filter; [c] is the extra precision multiplied into every prediction: 0 is the Kalman filter *)
Fixpoint a_filt (c : R) (j : nat) : mom :=
  if j is i.+1 then a_corr i (tempered c (a_pred i (a_filt c i))) else (a_m0 A, a_P0 A).
Definition a_back (j : nat) (g next : mom) : mom :=
  let J := r_cross (a_f A j) g.1 g.2 *m invmx (a_pred j g).2 in
  (g.1 + J *m (next.1 - (a_pred j g).1), g.2 + J *m (next.2 - (a_pred j g).2) *m J^T).
(** [a_smooth c N i]: the i-th step from the end of [N] *)
Fixpoint a_smooth_rev (c : R) (N i : nat) : mom :=
  if i is i'.+1 then a_back (N - i) (a_filt c (N - i)) (a_smooth_rev c N i') else a_filt c N.
Definition a_smooth (c : R) (N j : nat) : mom := a_smooth_rev c N (N - j).

(** the rules describe joint distributions: a positive-definite covariance of the image (with noise) and of
    the input given the image *)
Definition proper m (r : rule n m) (V : 'M[R]_m) : Prop := forall mu P, posdef P ->
  let S := r_cov r mu P + V in posdef S /\ posdef (P - r_cross r mu P *m invmx S *m (r_cross r mu P)^T).
Definition proper_model (N : nat) : Prop :=
  (forall j, (j < N)%N -> proper (a_f A j) (a_Q A) /\ proper (a_h A j) (a_R A)) /\ posdef (a_P0 A).
End Spec.

(** the unscented rule of a function [phi]: [root P] is a square root of [P], the points are the mean and
    the mean plus or minus the scaled columns of the root *)
Section Sigma.
Variable R : rcfType.
Variables (n k : nat) (alpha beta kappa : R) (root : 'M[R]_n -> 'M[R]_n) (phi : 'cV[R]_n -> 'cV[R]_k).
Definition sigma_rule : rule R n k := fun m P =>
  let s := alpha ^+ 2 * (n%:R + kappa) in
  let c := (2%:R * s)^-1 in
  let w0 := (s - n%:R) / s in
  let w0c := w0 + (1 - alpha ^+ 2 + beta) in
  let xp j := m + Num.sqrt s *: col j (root P) in
  let xm j := m - Num.sqrt s *: col j (root P) in
  let mu := w0 *: phi m + c *: \sum_j (phi (xp j) + phi (xm j)) in
  let dev x := phi x - mu in
  (mu,
   w0c *: (dev m *m (dev m)^T) + c *: \sum_j (dev (xp j) *m (dev (xp j))^T + dev (xm j) *m (dev (xm j))^T),
   c *: \sum_j ((xp j - m) *m (dev (xp j))^T + (xm j - m) *m (dev (xm j))^T)).
End Sigma.
(** the exact rule of an affine function *)
Definition affine_moments (R : rcfType) n k (H : 'M[R]_(k, n)) (d : 'cV[R]_k) : rule R n k :=
  fun m P => (H *m m + d, H *m P *m H^T, P *m H^T).
