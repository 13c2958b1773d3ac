(** * Vocabulary for the properties of the whole EP_FullSweep command *)
Set Warnings "-notation-overridden,-ambiguous-paths".
From mathcomp Require Import all_ssreflect all_algebra.
From Coq Require Import String.
From Verif Require Import Base ND PosDef LinAlg Gauss GaussFacts Nodes Transforms TransformFacts Estimator SpecAssumed KalmanFacts EPTaylor
  SpecMetrics Database FullSweep Program.
Set Implicit Arguments.
Unset Strict Implicit.
Unset Printing Implicit Defensive.
Import GRing.Theory Num.Theory Order.Theory.
Local Open Scope ring_scope.

(** no row was added to any table; tables may have been created *)
Definition unwritten (d d' : db) : Prop :=
  (forall n t, lookup d n = Some t -> lookup d' n = Some t) /\
  (forall n t, lookup d' n = Some t -> lookup d n = Some t \/ trows t = [::]).
(** the experiment table of [d'] has no row satisfying [Q] that was not already in that of [d] *)
Definition no_new (name : string) (Q : row -> Prop) (d d' : db) : Prop := forall t r,
  lookup d' name = Some t -> r \in trows t -> Q r -> exists2 t0, lookup d name = Some t0 & r \in trows t0.
Definition of_transform (id : string) (r : row) : Prop := exists2 t, nth VNull r 0 = VText t & upper t = id.

Section Spec.
Variable R : rcfType.
Variable illcond : forall n, 'M[R]_n -> bool.
Variable G : Type.
Variables (Kw T : Type) (t_zero : T) (tadd : T -> T -> T) (kw_tu0 : T -> Kw).
Variable mdl : model R G Kw T.
Notation sy := (m_sys mdl).
(** the transition function at time step [i]: [t] is [0 + dt + ... + dt] *)
Definition step_fun (i : nat) : dfun R := sy_trans sy (kw_tu0 (iter i (tadd^~ (sy_dt sy)) t_zero)).
(** simulations are of the configured length, at least two, and measurements are vectors of length [k] *)
Definition simulates k : Prop := (1 < m_steps mdl)%N /\ forall g g' xy, m_sim mdl g = (g', Ok xy) ->
  size xy = m_steps mdl /\ exists y : nat -> 'cV[R]_k, reads y (unzip2 xy).
(** states of length [n], Gaussian noise and prior *)
Record noises n k (Q P0 : 'M[R]_n) (Rm : 'M[R]_k) (m0 : 'cV[R]_n) : Prop := Noises {
  no_dim : m_dim mdl = n; no_Q : m_Q mdl = Nd2 Q; no_R : m_R mdl = Nd2 Rm;
  no_init : momp illcond (sy_init sy) m0 P0; no_pd : [/\ posdef Q, posdef Rm & posdef P0] }.
(** one-dimensional, written with array operations (like the growth model) *)
Definition scalar_system : Prop := exists Q P0 Rm m0 phi dphi psi dpsi, [/\ @noises 1 1 Q P0 Rm m0, simulates 1,
  forall i, elementwise (phi i) (dphi i) (step_fun i) & elementwise psi dpsi (sy_meas sy)].
(** [n]-dimensional with [k] measurements, written for arrays of states (like the tracking models) *)
Definition array_system n k : Prop := exists Q P0 Rm m0 (phi : nat -> 'cV[R]_n -> 'cV[R]_n) (psi : 'cV[R]_n -> 'cV[R]_k),
  [/\ @noises n k Q P0 Rm m0, simulates k, forall i, rowwise (step_fun i) (phi i) & rowwise (sy_meas sy) psi].

(** ** what a row of the experiment table reports *)
Variables (logpdf : nd R -> nd R -> nd R -> res R) (number : R -> val) (seed_rng : int -> G -> G).
(** scipy's log-density of a one-dimensional Gaussian; the mean may be of shape (1,) or (1,1) *)
Definition density (lp : 'cV[R]_1 -> 'cV[R]_1 -> 'M[R]_1 -> R) : Prop := forall v m c x a, posdef c -> holds x v ->
  a = Nd1 m \/ a = Nd2 m -> logpdf x a (Nd2 c) = Ok (lp v m c).
(** [ab]: the errors of the estimates [est] of the true states [vs] *)
Definition scores lp (est : seq ('cV[R]_1 * 'M[R]_1)) (vs : seq 'cV[R]_1) (ab : val * val) : Prop :=
  ab.1 = number (Num.sqrt (average (errors (unzip1 est) vs))) /\ ab.2 = number (average [seq - lp p.2 p.1.1 p.1.2 | p <- zip est vs]).
(** [ab] scores the smoothed estimates of the rule [A], each prediction being multiplied by N(0, 1e10), for data
    simulated after seeding the generator with [s] *)
Definition smoother_scores lp k (A : approx R 1 k) (s : int) (ab : val * val) : Prop := exists g g' xy (y : nat -> 'cV[R]_k) vs,
  [/\ m_sim mdl (seed_rng s g) = (g', Ok xy), reads y (unzip2 xy), forall2 (@holds R 1) (unzip1 xy) vs &
    scores lp [seq a_smooth A y (trace_min R) (size xy) i.+1 | i <- iota 0 (size xy)] vs ab].
End Spec.
