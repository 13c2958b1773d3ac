(** * C61: repeated damped updates converge to the smoother; ep_update against ep_fwd_back_updates *)
Set Warnings "-notation-overridden,-ambiguous-paths".
From mathcomp Require Import all_ssreflect all_algebra real_closed.realalg.
From Verif Require Import Base ND NDFacts PosDef LinAlg LinAlgFacts Gauss GaussFacts Nodes NodesFacts EPInv EPGauss
  Transforms TransformFacts Estimator EstimatorFacts EPEst SpecGauss SpecAssumed SpecBP SpecLimit EPValue EPChain EPSweep EPSetup EPPower EPBelief
  EPCase KalmanFacts Prop_EP Prop_EPKalman EPPowerRun Prop_EPPower EPConverge.
Set Implicit Arguments.
Unset Strict Implicit.
Unset Printing Implicit Defensive.
Import GRing.Theory Num.Theory Order.Theory.
Local Open Scope ring_scope.

Section Props.
Variable R : rcfType.
Variable illcond : forall n, 'M[R]_n -> bool.
Variable W : Type.
Variables (Kw T : Type) (t_zero : T) (tadd : T -> T -> T) (kw_tu0 : T -> Kw).
Variables (k : nat) (tm mm : transform R W) (S : lgssm R 1 k) (y : nat -> 'cV[R]_k) (sy : system (gauss R) (dfun R) (dfun R) Kw T)
  (kws : nat -> Kw) (ys : seq (nd R)) (fa : option (seq Kw)) (w : W).
Notation state := (state (gauss R) R (dfun R) (dfun R) (nd R) W).
Notation N := (size ys).
Notation A := (affine_approx S).
Notation c := (trace_min R).
Notation holds := (@holds R illcond W).
Notation ep_run := (@ep_run R illcond W).
Notation ep_sweep := (@ep_sweep R illcond W).
Notation ep_update := (@ep_update R illcond W).
Notation start ys p g := (power_start illcond t_zero tadd kw_tu0 tm mm S sy ys fa w p g).
Notation exact_model y ys := (exact_model illcond t_zero tadd kw_tu0 tm mm S y sy kws ys fa).
Notation gentle := (gentle S ys).
Notation nodes_ok := (nodes_ok ys).

(** single-node updates in any order, damped: if every update of every node keeps occurring,
    no update fails and every mean and variance tends to the smoother's *)
Theorem C61_any_order p g s : archimedean R -> regular illcond -> exact_model y ys -> gentle p -> 0 < g <= 1 ->
  (forall t, ev_node (s t) < N)%N -> fair N s -> forall i, (i < N)%N -> exists m P : nat -> R,
  [/\ forall t, exists st : state, ep_run (mkseq s t) (start ys p g) = (st, Ok tt) /\ holds st i ((m t)%:M, (P t)%:M),
      tends m ((a_smooth A y c N i.+1).1 0 0) & tends P ((a_smooth A y c N i.+1).2 0 0)].
Proof. by move=> ar ic hm hp hg hs hf i hi; exact: (conv_fair w ic hm ar hp hg hs hf hi). Qed.
(** after any updates, repeated calls of ep_fwd_back_updates *)
Theorem C61_sweeps p g l : archimedean R -> regular illcond -> exact_model y ys -> gentle p -> 0 < g <= 1 -> nodes_ok l ->
  exists st0 : state, ep_run l (start ys p g) = (st0, Ok tt) /\ forall i, (i < N)%N -> exists m P : nat -> R,
  [/\ forall n, exists st : state, repeated (ep_sweep (iota 0 N)) n st0 = (st, Ok tt) /\ holds st i ((m n)%:M, (P n)%:M),
      tends m ((a_smooth A y c N i.+1).1 0 0) & tends P ((a_smooth A y c N i.+1).2 0 0)].
Proof.
by move=> ar ic hm hp hg hl; exact: (conv_passes w ic hm ar hp hg hl (sweep_ok ys) (@sweep_covers N) (@sweep_runE R illcond W ys)).
Qed.
(** after any updates, repeated calls of ep_update *)
Theorem C61_updates p g l : archimedean R -> regular illcond -> exact_model y ys -> gentle p -> 0 < g <= 1 -> nodes_ok l ->
  exists st0 : state, ep_run l (start ys p g) = (st0, Ok tt) /\ forall i, (i < N)%N -> exists m P : nat -> R,
  [/\ forall n, exists st : state, repeated (ep_update (iota 0 N)) n st0 = (st, Ok tt) /\ holds st i ((m n)%:M, (P n)%:M),
      tends m ((a_smooth A y c N i.+1).1 0 0) & tends P ((a_smooth A y c N i.+1).2 0 0)].
Proof.
by move=> ar ic hm hp hg hl; exact: (conv_passes w ic hm ar hp hg hl (update_ok N) (@update_covers N) (@update_run R illcond W N)).
Qed.
(** undamped, [n] calls of ep_update make the last [n] nodes right, so N calls make all of them right *)
Theorem C61_update_exact p l n : regular illcond -> exact_model y ys -> gentle p -> nodes_ok l -> (0 < n)%N -> exists st0 st : state,
  [/\ ep_run l (start ys p 1) = (st0, Ok tt), repeated (ep_update (iota 0 N)) n st0 = (st, Ok tt) &
      forall i, (i < N)%N -> (N <= i + n)%N -> holds st i (a_smooth A y c N i.+1)].
Proof. by move=> ic hm hp hl n0; exact: (update_best w ic hm hp hl n0). Qed.
(** [n] calls of ep_update from the start: node [i] has seen the measurements before i + n only, with any damping *)
Theorem C61_update_horizon (y' : nat -> 'cV[R]_k) (ys' : seq (nd R)) p g n : regular illcond -> exact_model y ys -> exact_model y' ys' ->
  size ys' = N -> gentle p -> 0 <= g <= 1 ->
  exists st st' : state, [/\ repeated (ep_update (iota 0 N)) n (start ys p g) = (st, Ok tt),
    repeated (ep_update (iota 0 N)) n (start ys' p g) = (st', Ok tt) &
    forall i, (i < N)%N -> (forall j, (j < i + n)%N -> y j = y' j) -> exists m P, holds st i (m, P) /\ holds st' i (m, P)].
Proof. by move=> ic hm hm' es hp hg; exact: (update_horizon w n ic hm hm' es hp hg). Qed.
End Props.

(** ** a concrete case: the random walk of C28 over the real algebraic numbers, power and damping 1/2 *)
Lemma archi_nat (F : archiFieldType) (x : F) : exists n, x < n%:R.
Proof. by exists (Num.bound `|x|); exact: le_lt_trans (ler_norm x) (archi_boundP (normr_ge0 x)). Qed.
Lemma realalg_archimedean : archimedean [rcfType of realalg].
Proof. exact: (@archi_nat [archiFieldType of realalg]). Qed.
Section Case.
Variable R : rcfType.
Lemma half_in : 0 < (2%:R^-1 : R) <= 1. Proof. by have /andP[-> /ltW ->] := half_damp R. Qed.
(** the same walk with another last measurement *)
Definition other_y (i : nat) : 'cV[R]_1 := if i is 0%N then 3%:R%:M else 5%:R%:M.
Definition other_ys : seq (nd R) := [:: Nd1 (other_y 0); Nd1 (other_y 1)].
Lemma other_reads : KalmanFacts.reads other_y other_ys.
Proof. by case=> [|[|//]] _; exact: KalmanFacts.squeeze_1. Qed.
Lemma other_model : exact_model (@never R) tt (fun _ _ => tt) (fun=> tt) (@walk_ut R) (@walk_ut R) (@walk R) other_y (@walk_sys R) (fun=> tt) other_ys None.
Proof.
have h : @affine_system R (@never R) unit unit 1 (@walk R) 1 2%:R 1 2%:R other_y (@walk_sys R) (fun=> tt) other_ys.
  by have [p1 p2 h1 _ h3] := @walk_affine R; split=> //; exact: other_reads.
by split; [exact: (affine_implements unit 0 0 (@walk_noise R) h)|exact: walk_noise|exact: walk_keys|].
Qed.
(** one ep_update leaves the first node with the same marginal for both data sets *)
Lemma walk_horizon : exists (st st' : state (gauss R) R (dfun R) (dfun R) (nd R) unit) m P, [/\
    @ep_update R (@never R) unit (iota 0 2) (power_start (@never R) tt (fun _ _ => tt) (fun=> tt) (@walk_ut R) (@walk_ut R) (@walk R) (@walk_sys R) (@walk_ys R) None tt 2%:R^-1 1) = (st, Ok tt),
    @ep_update R (@never R) unit (iota 0 2) (power_start (@never R) tt (fun _ _ => tt) (fun=> tt) (@walk_ut R) (@walk_ut R) (@walk R) (@walk_sys R) other_ys None tt 2%:R^-1 1) = (st', Ok tt),
    holds (@never R) st 0 (m, P) & holds (@never R) st' 0 (m, P)].
Proof.
have g1 : 0 <= (1 : R) <= 1 by rewrite ler01 lexx.
have [st [st' [r r' h]]] := C61_update_horizon tt 1 (@walk_regular R) (@walk_model R) other_model (erefl _) (@half_gentle R) g1.
have hy j : (j < 0 + 1)%N -> @walk_y R j = other_y j by case: j.
by have [m [P [h1 h2]]] := h 0%N isT hy; exists st, st', m, P.
Qed.
End Case.
Lemma walk_fair : fair 2 (cycle (update_events 2)). Proof. exact: cycle_fair (@update_covers 2). Qed.
Lemma walk_range t : (ev_node (cycle (update_events 2) t) < 2)%N.
Proof. by apply: (all_nthP (Fwd 0) (update_ok 2)); rewrite ltn_mod. Qed.
Example C61_any_order_case := @C61_any_order [rcfType of realalg] _ _ _ _ _ _ _ _ _ _ _ _ _ _ _ _ tt _ _ (cycle (update_events 2))
  realalg_archimedean (@walk_regular _) (@walk_model _) (@half_gentle _) (@half_in _) walk_range walk_fair.
Example C61_horizon_case := walk_horizon [rcfType of realalg].
Example C61_sweeps_case := @C61_sweeps [rcfType of realalg] _ _ _ _ _ _ _ _ _ _ _ _ _ _ _ _ tt _ _ [:: Meas 1; Back 0; Back 0]
  realalg_archimedean (@walk_regular _) (@walk_model _) (@half_gentle _) (@half_in _) isT.
Example C61_updates_case := @C61_updates [rcfType of realalg] _ _ _ _ _ _ _ _ _ _ _ _ _ _ _ _ tt _ _ [:: Fwd 1]
  realalg_archimedean (@walk_regular _) (@walk_model _) (@half_gentle _) (@half_in _) isT.
Example C61_exact_case := @C61_update_exact [rcfType of realalg] _ _ _ _ _ _ _ _ _ _ _ _ _ _ _ _ tt _ [:: Fwd 1] 2
  (@walk_regular _) (@walk_model _) (@half_gentle _) isT isT.
Print Assumptions C61_any_order. Print Assumptions C61_sweeps. Print Assumptions C61_updates.
Print Assumptions C61_update_exact. Print Assumptions C61_update_horizon.
