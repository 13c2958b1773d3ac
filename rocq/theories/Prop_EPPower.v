(** * C60: the power of the estimator on scalar affine models *)
Set Warnings "-notation-overridden,-ambiguous-paths".
From mathcomp Require Import all_ssreflect all_algebra real_closed.realalg.
From Verif Require Import Base ND NDFacts PosDef LinAlg LinAlgFacts Gauss GaussFacts Nodes NodesFacts EPInv EPGauss
  Transforms TransformFacts Estimator EstimatorFacts EPEst SpecGauss SpecAssumed SpecBP EPValue EPChain EPSweep EPSetup EPPower EPBelief
  EPCase Prop_EP Prop_EPKalman EPPowerRun.
Set Implicit Arguments.
Unset Strict Implicit.
Unset Printing Implicit Defensive.
Import GRing.Theory Num.Theory Order.Theory.
Local Open Scope ring_scope.

Section Props.
Variable R : rcfType.
Variable illcond : forall n, 'M[R]_n -> bool.
Variable W : Type.
Variables (Kw T : Type) (t_zero : T) (tadd : T -> T -> T) (kw_tu0 : T -> Kw).
Variables (k : nat) (tm mm : transform R W) (S : lgssm R 1 k) (y : nat -> 'cV[R]_k) (sy : system (gauss R) (dfun R) (dfun R) Kw T)
  (kws : nat -> Kw) (ys : seq (nd R)) (fa : option (seq Kw)) (w : W).
Notation state := (state (gauss R) R (dfun R) (dfun R) (nd R) W).
Notation N := (size ys).
Notation A := (affine_approx S).
Notation c := (trace_min R).
Notation holds := (@holds R illcond W).
Notation ep_run := (@ep_run R illcond W).
Notation ep_sweep := (@ep_sweep R illcond W).
Notation start p g := (power_start illcond t_zero tadd kw_tu0 tm mm S sy ys fa w p g).
Notation exact_model := (exact_model illcond t_zero tadd kw_tu0 tm mm S y sy kws ys fa).
Notation gentle := (gentle S ys).
Notation nodes_ok := (nodes_ok ys).
Notation beliefs := (beliefs S y ys).

(** any list of node updates, any power strictly between 0 and 1, any damping: the marginals are the
    beliefs of damped belief propagation, and the factors are its messages to the given power *)
Theorem C60_belief_propagation p g l : regular illcond -> exact_model -> gentle p -> 0 <= g <= 1 -> nodes_ok l ->
  exists st : state, ep_run l (start p g) = (st, Ok tt) /\ forall i, (i < N)%N ->
  holds st i (mean_cov (belief c (beliefs g l) i)) /\
  exists n, [/\ lookup st.1 i = Some n, natv illcond (n_fwd n) (p *: left (beliefs g l) i),
    natv illcond (n_meas n) (p *: obs (beliefs g l) i) & natv illcond (n_back n) (p *: right (beliefs g l) i)].
Proof. by move=> ic hm; apply: (pow_bp w ic hm). Qed.
(** the power does not matter *)
Theorem C60_power_free p p' g l : regular illcond -> exact_model -> gentle p -> gentle p' -> 0 <= g <= 1 -> nodes_ok l ->
  exists st st' : state, [/\ ep_run l (start p g) = (st, Ok tt), ep_run l (start p' g) = (st', Ok tt) &
  forall i, (i < N)%N -> exists m P, holds st i (m, P) /\ holds st' i (m, P)].
Proof. by move=> ic hm; apply: (pow_free w ic hm). Qed.
(** without damping one sweep, after any updates, reaches the smoother's result, and nothing changes it again *)
Theorem C60_undamped p l l' : regular illcond -> exact_model -> gentle p -> nodes_ok l -> nodes_ok l' ->
  exists st st' st'' : state, [/\ ep_run l (start p 1) = (st, Ok tt), ep_sweep (iota 0 N) st = (st', Ok tt),
    ep_run l' st' = (st'', Ok tt) & forall i, (i < N)%N -> holds st'' i (a_smooth A y c N i.+1) /\ same_node illcond st' st'' i].
Proof. by move=> ic hm; apply: (pow_undamped w ic hm). Qed.
(** with any damping no update order claims more precision than the smoother, or variance above 1e10 *)
Theorem C60_precision p g l : regular illcond -> exact_model -> gentle p -> 0 <= g <= 1 -> nodes_ok l ->
  exists st : state, ep_run l (start p g) = (st, Ok tt) /\ forall i, (i < N)%N ->
  exists m P, holds st i (m, P) /\ (a_smooth A y c N i.+1).2 0 0 <= P 0 0 <= large_num R.
Proof. by move=> ic hm; apply: (pow_precision w ic hm). Qed.
(** a state that a damped sweep leaves as it is holds the smoother's result *)
Theorem C60_fixed_point p g l (st st' : state) : regular illcond -> exact_model -> gentle p -> 0 < g <= 1 -> nodes_ok l ->
  ep_run l (start p g) = (st, Ok tt) -> ep_sweep (iota 0 N) st = (st', Ok tt) -> (forall i, (i < N)%N -> same_node illcond st st' i) ->
  forall i, (i < N)%N -> holds st i (a_smooth A y c N i.+1).
Proof. by move=> ic hm hp hg hl e1 e2 hf; apply: (pow_fixed ic hm hp hg hl e1 e2 hf). Qed.
(** power 1 is different: with damping its first backward update gains less than with any power below 1 *)
Theorem C60_power_one p g i : regular illcond -> exact_model -> gentle p -> 0 < g < 1 -> (i.+1 < N)%N -> s_A S i.+1 0 0 != 0 ->
  1 - g <= g * s_Q S 0 0 * (obs_msg S y i.+1).1 0 0 -> let l := filter_events (iota 0 N) ++ [:: Back i] in
  exists (st st' : state) m P m' P', [/\ ep_run l (start p g) = (st, Ok tt), ep_run l (start 1 g) = (st', Ok tt),
    holds st i (m, P), holds st' i (m', P') & P 0 0 < P' 0 0].
Proof. by move=> ic hm; apply: (pow_one w ic hm). Qed.
End Props.

(** ** a concrete case: the random walk of C28 with the unscented transform, power and damping 1/2 *)
Section Case.
Variable R : rcfType.
Notation N := (size (@walk_ys R)).
Notation wstart p g := (power_start (@never R) tt (fun _ _ => tt) (fun=> tt) (@walk_ut R) (@walk_ut R) (@walk R) (@walk_sys R) (@walk_ys R) None tt p g).
Notation model := (exact_model (@never R) tt (fun _ _ => tt) (fun=> tt) (@walk_ut R) (@walk_ut R) (@walk R) (@walk_y R) (@walk_sys R) (fun=> tt) (@walk_ys R) None).
Lemma walk_model : model.
Proof. by split; [exact: (affine_implements unit 0 0 (@walk_noise R) (@walk_affine R))|exact: walk_noise|exact: walk_keys|]. Qed.
Lemma half_gentle : gentle (@walk R) (@walk_ys R) (2%:R^-1).
Proof.
have h0 : 0 < (2%:R^-1 : R) by rewrite invr_gt0 ltr0n.
have h2 : (2%:R^-1 : R) + 2%:R^-1 = 1 by rewrite [RHS]splitr !mul1r.
split=> [|i _]; first by rewrite h0 invf_lt1 ?ltr1n ?ltr0n.
rewrite !mxE eqxx mulr1n expr1n mulr1 invrK; have -> : 1 - 2%:R^-1 = 2%:R^-1 :> R by rewrite -[X in X - _]h2 addrK.
rewrite mulrDr mulr1 [trace_min R * _]mulrC mulrA mulVf ?pnatr_eq0 // mul1r -[X in _ <= X]h2 ler_add2l.
rewrite lef_pinv ?posrE ?exprn_gt0 ?ltr0n //; apply: (@le_trans _ _ 10%:R); first by rewrite ler_nat.
by rewrite exprS ler_pemulr ?ler0n // exprn_ege1 // ler1n.
Qed.
Lemma half_damp : 0 < (2%:R^-1 : R) < 1.
Proof. by have [] := half_gentle. Qed.
Lemma walk_one : exists (st st' : state (gauss R) R (dfun R) (dfun R) (nd R) unit) m P m' P',
  [/\ @ep_run R (@never R) unit [:: Fwd 0; Meas 0; Fwd 1; Meas 1; Back 0] (wstart 2%:R^-1 2%:R^-1) = (st, Ok tt),
      @ep_run R (@never R) unit [:: Fwd 0; Meas 0; Fwd 1; Meas 1; Back 0] (wstart 1 2%:R^-1) = (st', Ok tt),
    holds (@never R) st 0 (m, P), holds (@never R) st' 0 (m', P') & P 0 0 < P' 0 0].
Proof.
have e : (obs_msg (@walk R) (@walk_y R) 1).1 0 0 = 1 by rewrite /obs_msg /= trmx1 invmx1 !mul1mx mxE eqxx.
have h2 : (2%:R^-1 : R) + 2%:R^-1 = 1 by rewrite [RHS]splitr !mul1r.
apply: (C60_power_one tt (@walk_regular R) walk_model half_gentle half_damp (i := 0)) => //; first by rewrite mxE eqxx oner_neq0.
by rewrite e mulr1 mxE eqxx mulr1 -[X in X - _]h2 addrK.
Qed.
Lemma half01 : 0 <= (2%:R^-1 : R) <= 1. Proof. by have /andP[/ltW -> /ltW ->] := half_damp. Qed.
(** two undamped sweeps of power 1/2: the hypotheses of [C60_fixed_point] are met *)
Lemma walk_steady : exists st st' : state (gauss R) R (dfun R) (dfun R) (nd R) unit,
  [/\ @ep_run R (@never R) unit [:: Fwd 0; Meas 0; Fwd 1; Meas 1; Back 1; Back 0] (wstart 2%:R^-1 1) = (st, Ok tt),
      @ep_sweep R (@never R) unit (iota 0 2) st = (st', Ok tt) &
      forall i, (i < 2)%N -> same_node (@never R) st st' i].
Proof.
pose l := sweep_events 2; have hl : nodes_ok (@walk_ys R) l by [].
have [st0 [st [st' [h1 h2 h3 h4]]]] := C60_undamped tt (@walk_regular R) walk_model half_gentle (isT : nodes_ok (@walk_ys R) [::]) hl.
exists st, st'; split=> [||i hi].
- by case: h1 => ->; rewrite -h2 (@sweep_runE R (@never R) unit (@walk_ys R)).
- by rewrite (@sweep_runE R (@never R) unit (@walk_ys R)).
- by have [] := h4 i hi.
Qed.
End Case.
Example C60_case := @C60_belief_propagation [rcfType of realalg] _ _ _ _ _ _ _ _ _ _ _ _ _ _ _ _ tt _ _ [:: Meas 1; Fwd 1; Back 0; Meas 0; Back 0]
  (@walk_regular _) (@walk_model _) (@half_gentle _) (@half01 _) isT.
Example C60_steady_case := walk_steady [rcfType of realalg].
Example C60_one_case := walk_one [rcfType of realalg].
Print Assumptions C60_belief_propagation. Print Assumptions C60_power_free. Print Assumptions C60_undamped.
Print Assumptions C60_precision. Print Assumptions C60_fixed_point. Print Assumptions C60_power_one.
