(** * Property C73: what EP computes from the shipped start on scalar affine models *)
Set Warnings "-notation-overridden,-ambiguous-paths".
From mathcomp Require Import all_ssreflect all_algebra.
From mathcomp Require Import real_closed.realalg.
From Verif Require Import Base ND PosDef LinAlg LinAlgFacts Gauss GaussFacts EPGauss Nodes Transforms Estimator EPEst SpecAssumed EPValue EPChain EPSweep
  KalmanLoop AssumedFacts EPSetup SpecGauss CondGauss KalmanMath EPCase Prop_EP Prop_EPKalman SpecVague VagueFacts VagueBound.
Set Implicit Arguments.
Unset Strict Implicit.
Unset Printing Implicit Defensive.
Import GRing.Theory Num.Theory Order.Theory.
Local Open Scope ring_scope.

Section Props.
Variable R : rcfType.
Variable illcond : forall n, 'M[R]_n -> bool.
Variable W : Type.
Variables (Kw T : Type) (t_zero : T) (tadd : T -> T -> T) (kw_tu0 : T -> Kw).
Variables (k : nat) (S : lgssm R 1 k) (a1 b1 k1 a2 b2 k2 : R) (y : nat -> 'cV[R]_k)
  (sy : system (gauss R) (dfun R) (dfun R) Kw T) (kws : nat -> Kw) (ys : seq (nd R)) (fa : option (seq Kw)) (w : W).
Notation N := (size ys).
Notation tm := (pure_transform (W := W) (ut_transform illcond 1 a1 b1 k1)).
Notation mm := (pure_transform (W := W) (ut_transform illcond 1 a2 b2 k2)).
Notation start := (ep_start illcond t_zero tadd kw_tu0 tm mm (affine_approx S) sy ys fa w).
Notation keys := (keywords t_zero tadd kw_tu0 fa sy kws N).
Notation system_is := (affine_system illcond S a1 k1 a2 k2 y sy kws ys).

(** the forward pass and the sweep from the shipped start give the filtering and smoothing marginals of the
    model in which every state also has a prior N(0, 1e10) *)
Theorem C73_posterior : regular illcond -> (1 < N)%N -> keys -> noise_ok S -> system_is ->
  exists st st', [/\ ep_filter illcond (iota 0 N) start = (st, Ok tt), ep_sweep illcond (iota 0 N) start = (st', Ok tt) &
    forall i, (i < N)%N -> exists g g',
      [/\ holds illcond st i g, vague_posterior S (10%:R ^+ 10) y i.+1 i.+1 g.1 g.2,
          holds illcond st' i g' & vague_posterior S (10%:R ^+ 10) y N i.+1 g'.1 g'.2]].
Proof.
move=> ic hN hk ok hs; have hi := affine_implements W b1 b2 ok hs.
have [st [h1 h2]] := C28_forward w ic hN hk hi; have [st' [h3 h4]] := C28_sweep w ic hN hk hi.
exists st, st'; split=> // i hj; do 2!eexists; split; [exact: (h2 i hj)| |exact: (h4 i hj)|].
- have := filt_posterior y ok (trace_min_gt0 R) i.+1; by rewrite /trace_min invrK.
- have := smooth_posterior y ok (trace_min_gt0 R) hj; by rewrite /trace_min invrK.
Qed.

(** the variances of the forward pass are smaller than those [v i] of the exact filtering posteriors, and by
    a factor of at most 1 + 1e-10 * (v 0 + .. + v i) *)
Theorem C73_variance : regular illcond -> (1 < N)%N -> keys -> noise_ok S -> system_is ->
  exists st (v : nat -> R), ep_filter illcond (iota 0 N) start = (st, Ok tt) /\
  forall i, (i < N)%N -> (exists m, posterior S y i.+1 i.+1 m (v i)%:M) /\
    exists g, [/\ holds illcond st i g, g.2 0 0 < v i & v i <= g.2 0 0 * (1 + (10%:R ^+ 10)^-1 * \sum_(j < i.+1) v j)].
Proof.
move=> ic hN hk ok hs; have hi := affine_implements W b1 b2 ok hs.
have [st [h1 h2]] := C28_forward w ic hN hk hi.
exists st, (fun i => (a_filt (model S) y 0 i.+1).2 0 0); split=> // i hj; split.
  exists (a_filt (model S) y 0 i.+1).1; rewrite -[X in posterior _ _ _ _ _ X]mx11_scalar.
  rewrite (a_filt_kf y ok); exact: kf_posterior.
eexists; split; [exact: (h2 i hj)|exact: (var_strict y ok i (trace_min_gt0 R))|].
by have /andP[_] := var_bounds y ok i.+1 (ltW (trace_min_gt0 R)).
Qed.

(** every marginal claims at least 1e-10 more precision than the exact posterior has: the forward pass compared with
    the filtering posteriors, the sweep with the smoothing posteriors *)
Theorem C73_sharper : regular illcond -> (1 < N)%N -> keys -> noise_ok S -> system_is ->
  exists st st', [/\ ep_filter illcond (iota 0 N) start = (st, Ok tt), ep_sweep illcond (iota 0 N) start = (st', Ok tt) &
    forall i, (i < N)%N -> exists g g', [/\ holds illcond st i g, holds illcond st' i g',
      (exists m P, posterior S y i.+1 i.+1 m P /\ (P 0 0)^-1 + (10%:R ^+ 10)^-1 <= (g.2 0 0)^-1) &
      (exists m P, posterior S y N i.+1 m P /\ (P 0 0)^-1 + (10%:R ^+ 10)^-1 <= (g'.2 0 0)^-1)]].
Proof.
move=> ic hN hk ok hs; have [st [st' [h1 h2 h3]]] := C73_posterior ic hN hk ok hs.
exists st, st'; split=> // i hj; have [g [g' [e1 e2 e3 e4]]] := h3 i hj; exists g, g'; split=> //.
- exists (kf S y i.+1).1, (kf S y i.+1).2; have p := kf_posterior y ok i.+1; split; first exact: p.
  exact: sharper (large_gt0 R) (ltnSn i) p e2.
- exists (ks S y N i.+1).1, (ks S y N i.+1).2; have p := ks_posterior y ok hj; split; first exact: p.
  exact: sharper (large_gt0 R) hj p e4.
Qed.

(** the variances of the sweep are smaller than those [v i] of the exact smoothing posteriors, and by a factor of at most
    1 + 1e-10 * (v 0 + .. + v (N-1)) *)
Theorem C73_sweep : regular illcond -> (1 < N)%N -> keys -> noise_ok S -> system_is ->
  exists st' (v : nat -> R), ep_sweep illcond (iota 0 N) start = (st', Ok tt) /\
  forall i, (i < N)%N -> (exists m, posterior S y N i.+1 m (v i)%:M) /\
    exists g, [/\ holds illcond st' i g, g.2 0 0 < v i & v i <= g.2 0 0 * (1 + (10%:R ^+ 10)^-1 * \sum_(j < N) v j)].
Proof.
move=> ic hN hk ok hs; have [st [st' [_ h2 h3]]] := C73_posterior ic hN hk ok hs.
pose v i := (ks S y N i.+1).2 0 0.
have hp j : (j < N)%N -> posterior S y N j.+1 (ks S y N j.+1).1 (v j)%:M.
  by move=> hj; rewrite /v -mx11_scalar; exact: ks_posterior.
exists st', v; split=> // i hj; split; first by eexists; exact: hp.
have [_ [g [_ _ e3 e4]]] := h3 i hj; exists g; split=> //.
- have := sharper (large_gt0 R) hj (hp i hj) e4; rewrite mxE eqxx mulr1n => le.
  have [/posdef11 v0 _] := hp i hj; rewrite mxE eqxx mulr1n in v0; have [/posdef11 g0 _] := e4.
  rewrite -ltf_pinv ?posrE //; apply: lt_le_trans le; by rewrite ltr_addl invr_gt0 large_gt0.
- have := blunter (m := fun j => (ks S y N j.+1).1) (large_gt0 R) hj hp e4.
  have [/posdef11 v0 _] := hp i hj; rewrite mxE eqxx mulr1n in v0; have [/posdef11 g0 _] := e4.
  by rewrite -[(v i)^-1 * _]mulrC ler_pdivl_mulr // ler_pdivr_mull.
Qed.
End Props.

(** ** the random walk of two steps meets the hypotheses *)
Section Case.
Variable R : rcfType.
Notation e0 := (affine_approx (@walk R)).
Notation start0 := (ep_start (@never R) tt (fun _ _ => tt) (fun=> tt) (@walk_ut R) (@walk_ut R) e0 (@walk_sys R) (@walk_ys R) None tt).
Lemma walk_vague : exists st (v : nat -> R), @ep_filter R (@never R) unit (iota 0 2) start0 = (st, Ok tt) /\
  forall i, (i < 2)%N -> (exists m, posterior (@walk R) (@walk_y R) i.+1 i.+1 m (v i)%:M) /\
    exists g, [/\ holds (@never R) st i g, g.2 0 0 < v i & v i <= g.2 0 0 * (1 + (10%:R ^+ 10)^-1 * \sum_(j < i.+1) v j)].
Proof. exact: (C73_variance 0 0 tt (@walk_regular R) (isT : (1 < size (@walk_ys R))%N) (@walk_keys R) (@walk_noise R) (@walk_affine R)). Qed.
Lemma walk_vague_posterior : exists st st', [/\ @ep_filter R (@never R) unit (iota 0 2) start0 = (st, Ok tt),
  @ep_sweep R (@never R) unit (iota 0 2) start0 = (st', Ok tt) &
  forall i, (i < 2)%N -> exists g g', [/\ holds (@never R) st i g, vague_posterior (@walk R) (10%:R ^+ 10) (@walk_y R) i.+1 i.+1 g.1 g.2,
    holds (@never R) st' i g' & vague_posterior (@walk R) (10%:R ^+ 10) (@walk_y R) 2 i.+1 g'.1 g'.2]].
Proof. exact: (C73_posterior 0 0 tt (@walk_regular R) (isT : (1 < size (@walk_ys R))%N) (@walk_keys R) (@walk_noise R) (@walk_affine R)). Qed.
Lemma walk_sharper : exists st st', [/\ @ep_filter R (@never R) unit (iota 0 2) start0 = (st, Ok tt),
  @ep_sweep R (@never R) unit (iota 0 2) start0 = (st', Ok tt) &
  forall i, (i < 2)%N -> exists g g', [/\ holds (@never R) st i g, holds (@never R) st' i g',
    (exists m P, posterior (@walk R) (@walk_y R) i.+1 i.+1 m P /\ (P 0 0)^-1 + (10%:R ^+ 10)^-1 <= (g.2 0 0)^-1) &
    (exists m P, posterior (@walk R) (@walk_y R) 2 i.+1 m P /\ (P 0 0)^-1 + (10%:R ^+ 10)^-1 <= (g'.2 0 0)^-1)]].
Proof. exact: (C73_sharper 0 0 tt (@walk_regular R) (isT : (1 < size (@walk_ys R))%N) (@walk_keys R) (@walk_noise R) (@walk_affine R)). Qed.
Lemma walk_vague_sweep : exists st' (v : nat -> R), @ep_sweep R (@never R) unit (iota 0 2) start0 = (st', Ok tt) /\
  forall i, (i < 2)%N -> (exists m, posterior (@walk R) (@walk_y R) 2 i.+1 m (v i)%:M) /\
    exists g, [/\ holds (@never R) st' i g, g.2 0 0 < v i & v i <= g.2 0 0 * (1 + (10%:R ^+ 10)^-1 * \sum_(j < 2) v j)].
Proof. exact: (C73_sweep 0 0 tt (@walk_regular R) (isT : (1 < size (@walk_ys R))%N) (@walk_keys R) (@walk_noise R) (@walk_affine R)). Qed.
End Case.
Example C73_case := walk_vague_posterior [rcfType of realalg].
Example C73_case_variance := walk_vague [rcfType of realalg].
Example C73_case_sharper := walk_sharper [rcfType of realalg].
Example C73_case_sweep := walk_vague_sweep [rcfType of realalg].
Print Assumptions C73_posterior. Print Assumptions C73_variance. Print Assumptions C73_sharper. Print Assumptions C73_sweep.
