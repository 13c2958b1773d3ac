(** * Specification: damped belief propagation on a scalar affine-Gaussian chain

    Messages are unnormalised Gaussians exp(-p x^2 / 2 + s x), written (p, s): precision and shift.
    Node [i] holds the state after transition [i]; every node also carries the factor N(0, 1/c).
    No power occurs here. *)
Set Warnings "-notation-overridden,-ambiguous-paths".
From mathcomp Require Import all_ssreflect all_algebra.
From Verif Require Import SpecGauss SpecAssumed.
Set Implicit Arguments.
Unset Strict Implicit.
Unset Printing Implicit Defensive.
Import GRing.Theory Num.Theory.
Local Open Scope ring_scope.

(** which message is recomputed: into node [i] from the left, from its measurement, from the right *)
Variant msg := Left of nat | Obs of nat | Right of nat.

Section Spec.
Variables (R : rcfType) (k : nat) (S : lgssm R 1 k) (y : nat -> 'cV[R]_k) (N : nat) (c g : R).
Notation V := ('M[R]_1 * 'M[R]_1)%type.
Record msgs := Msgs { left : nat -> V; obs : nat -> V; right : nat -> V }.
Definition silent : msgs := Msgs (fun=> 0) (fun=> 0) (fun=> 0).
Definition weak : V := (c%:M, 0).
(** the state after the transition x' = A x + b + N(0, Q) of the state with natural parameters [u] *)
Definition through (i : nat) (m : 'cV[R]_1) (P : 'M[R]_1) : V :=
  let P' := s_A S i *m P *m (s_A S i)^T + s_Q S in (invmx P', invmx P' *m (s_A S i *m m + s_b S i)).
Definition left_msg (x : msgs) (i : nat) : V :=
  if i is j.+1 then let u := weak + left x j + obs x j in through i (invmx u.1 *m u.2) (invmx u.1)
  else through 0 (s_m0 S) (s_P0 S).
(** the likelihood of the measurement *)
Definition obs_msg (i : nat) : V :=
  let HR := (s_H S i)^T *m invmx (s_R S) in (HR *m s_H S i, HR *m (y i - s_c S i)).
(** integrating x' out of N(x' | A x + b, Q) exp(-l x'^2 / 2 + e x') *)
Definition right_msg (x : msgs) (i : nat) : V :=
  let u := weak + obs x i.+1 + right x i.+1 in
  let: (l, e) := (u.1 0 0, u.2 0 0) in
  let: (a, b, q) := (s_A S i.+1 0 0, s_b S i.+1 0 0, s_Q S 0 0) in
  ((a ^+ 2 * l / (1 + q * l))%:M, (a * (e - b * l) / (1 + q * l))%:M).
(** replace entry [i], moving the fraction [g] towards [v] *)
Definition toward (f : nat -> V) (i : nat) (v : V) : nat -> V := fun j => if j == i then f i + g *: (v - f i) else f j.
Definition bp_step (x : msgs) (m : msg) : msgs :=
  match m with
  | Left i => Msgs (toward (left x) i (left_msg x i)) (obs x) (right x)
  | Obs i => Msgs (left x) (toward (obs x) i (obs_msg i)) (right x)
  | Right i => if (i.+1 < N)%N then Msgs (left x) (obs x) (toward (right x) i (right_msg x i)) else x
  end.
Definition bp_run (l : seq msg) (x : msgs) : msgs := foldl bp_step x l.
(** natural parameters of the belief at node [i] *)
Definition belief (x : msgs) (i : nat) : V := weak + left x i + obs x i + right x i.
End Spec.
