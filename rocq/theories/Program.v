(** * The command of Experiments/EP_FullSweep.py with the numerical code it calls

    [FullSweep] leaves the numerical part open; here it is the exact-arithmetic model of the node chain, the
    transforms and the metrics.  The system is any pair of functions with noise covariances: what
    [--dynamic-system] selects (lines 136-160). *)
Set Warnings "-notation-overridden,-ambiguous-paths".
From mathcomp Require Import all_ssreflect all_algebra.
From Coq Require Import String Ascii.
From Verif Require Import Base ND LinAlg Gauss Nodes Transforms Estimator MonteCarlo Metrics EPGauss EPEst Database FullSweep.
Set Implicit Arguments.
Unset Strict Implicit.
Unset Printing Implicit Defensive.
Import GRing.Theory Num.Theory Order.Theory.
Local Open Scope ring_scope.

(** [str.upper] on ASCII letters *)
Definition upper_char (c : ascii) : ascii :=
  let k := nat_of_ascii c in if (97 <= k <= 122)%N then ascii_of_nat (k - 32) else c.
Fixpoint upper (s : string) : string := if s is String c s' then String (upper_char c) (upper s') else EmptyString.

Section Program.
Variable R : rcfType.
Variable illcond : forall n, 'M[R]_n -> bool.
Variable G : Type.                                    (* the state of numpy's generator *)
Notation nd := (nd R).
Notation gauss := (gauss R).
Notation dfun := (dfun R).
Notation heap := (heap gauss R dfun dfun nd G).
Notation transform := (transform R G).
Variables (Kw T : Type) (t_zero : T) (tadd : T -> T -> T) (kw_tu0 : T -> Kw).
Notation system := (system gauss dfun dfun Kw T).
Variable draw : forall size n, 'cV[R]_n -> 'M[R]_n -> G -> G * 'M[R]_(size, n).
Variable logpdf : nd -> nd -> nd -> res R.

(** lines 136-160: the system and its noise covariances, [sys_dim], [timesteps]; [m_sim] is [system.simulate(timesteps)] *)
Record model := Model { m_sys : system; m_Q : nd; m_R : nd; m_dim : nat; m_steps : nat; m_sim : G -> G * res (seq (nd * nd)) }.
Variable mdl : model.
(** how sqlite stores an array (Utils/Database.py:20-58) and a floating-point number *)
Variables (pickle : nd -> val) (number : R -> val).
Variable seed_rng : int -> G -> G.                    (* np.random.seed *)

(** the process: the nodes, the generator, and the variables [x] and [y] of [full_sweep] *)
Record world := World { w_heap : heap; w_nodes : seq nat; w_rng : G; w_x : seq nd; w_y : seq nd }.

(** lines 31-50; the arguments [alpha1] ... [kappa2] have their defaults in every call *)
Definition ut (a b k : R) : transform := pure_transform (ut_transform illcond (m_dim mdl) a b k).
Definition select_transform (id : string) (samples : nat) : transform * transform :=
  if upper id == "UT"%string then (ut 1 2%:R 3%:R, ut 1 2%:R 2%:R)
  else if upper id == "TT"%string then (pure_transform (tt_transform illcond), pure_transform (tt_transform illcond))
  else if upper id == "MCT"%string then (mc_map illcond draw (Some samples), mc_map illcond draw (Some samples))
  else (ut 1 2%:R 3%:R, ut 1 2%:R 2%:R).

(** lines 103-105: [data = system.simulate(timesteps)], [x, y = zip( *data)] *)
Definition p_reseed (seed : int) (w : world) : world := World (w_heap w) (w_nodes w) (seed_rng seed (w_rng w)) (w_x w) (w_y w).
Definition p_simulate (w : world) : world * res data :=
  let: (g, r) := m_sim mdl (w_rng w) in
  match r with
  | Err e => (World (w_heap w) (w_nodes w) g (w_x w) (w_y w), Err e)
  | Ok xy => (World (w_heap w) (w_nodes w) g (unzip1 xy) (unzip2 xy), Ok [seq (pickle p.1, pickle p.2) | p <- xy])
  end.

(** lines 53-79; [samples=int(1e4)] *)
Definition p_estimator (c : cfg) : Nodes.estimator gauss R dfun dfun nd G :=
  let tm := select_transform (c_trans c) mc_default in
  mk_estimator illcond tm.1 tm.2 (m_Q mdl) (m_R mdl) (ratr (c_power c)) (ratr (c_damp c)).
Definition chain_of (c : cfg) (ys : seq nd) : Nodes.M gauss R dfun dfun nd G (seq nat) :=
  Nodes.mbind (@build_nodes gauss R dfun dfun nd G (@as_factor R) (@as_marginal R) 1 Kw T (m_steps mdl) (m_dim mdl) None None) (fun nodes =>
  Nodes.mbind (node_estimator 1 nodes (p_estimator c)) (fun nodes =>
  node_system t_zero tadd kw_tu0 (@nsqueeze R) nodes (m_sys mdl) ys None)).
Definition p_build (c : cfg) (xy : data) (w : world) : world * res unit :=
  let: (st, r) := chain_of c (w_y w) ([::], w_rng w) in
  match r with
  | Err e => (World (w_heap w) (w_nodes w) st.2 (w_x w) (w_y w), Err e)
  | Ok nodes => (World st.1 nodes st.2 (w_x w) (w_y w), Ok tt)
  end.

(** ExpectationPropagation/Iterations.py:31-35 on the nodes *)
Definition p_sweep (w : world) : world * res unit :=
  let: (st, r) := @ep_fwd_back_updates gauss R dfun dfun nd G (gmul illcond) (gdiv illcond) (gpow illcond) (gvalidate illcond)
    (@r_one_over R) (@r_one_minus R) (@r_sdiv R) (w_nodes w) (w_heap w, w_rng w) in
  (World st.1 (w_nodes w) st.2 (w_x w) (w_y w), r).
(** Utils/Metrics.py:21-23 on the nodes' marginals and [x] *)
Definition p_metrics (w : world) : world * res (val * val) :=
  let gs := pmap (fun i => omap (@n_marg gauss R dfun dfun nd G) (Nodes.lookup (w_heap w) i)) (w_nodes w) in
  (w, do m <- node_metrics illcond logpdf gs (w_x w); Ok (number m.1, number m.2)).

(** lines 133-175 *)
Variables (num_iter : nat) (dyn_name exp_name : string).
Definition command (seeds : seq int) (trans : seq string) (powers damps : seq rat) (override : bool) : Database.M world unit :=
  main p_reseed p_simulate p_build p_sweep p_metrics num_iter dyn_name exp_name seeds trans powers damps override.
(** lines 130, 170-173: the defaults of the options and the ranges *)
Definition default_trans : seq string := [:: "TT"; "UT"; "MCT"]%string.
Definition power_range : seq rat := [seq k.+1%:R / 10%:R | k <- iota 0 10].
Definition damp_range : seq rat := [:: 1; 8%:R / 10%:R].
End Program.
