(** * Property C53: EP on vector states *)
Set Warnings "-notation-overridden,-ambiguous-paths".
From mathcomp Require Import all_ssreflect all_algebra.
From mathcomp Require Import real_closed.realalg.
From Verif Require Import Base ND NDFacts PosDef LinAlg LinAlgFacts Gauss GaussFacts Nodes NodesFacts EPInv EPGauss
  Transforms TransformFacts Estimator EstimatorFacts EPEst SpecAssumed KalmanFacts AssumedFacts EPSetup MonteCarlo EPVector EPCase
  Prop_EP Prop_EPKalman.
Set Implicit Arguments.
Unset Strict Implicit.
Unset Printing Implicit Defensive.
Import GRing.Theory Num.Theory Order.Theory.
Local Open Scope ring_scope.

Section Props.
Variable R : rcfType.
Variable illcond : forall n, 'M[R]_n -> bool.
Variable W : Type.
Notation nd := (nd R).
Notation gauss := (gauss R).
Notation dfun := (dfun R).
Notation transform := (transform R W).
Notation state := (state gauss R dfun dfun nd W).
Variables (Kw T : Type) (t_zero : T) (tadd : T -> T -> T) (kw_tu0 : T -> Kw).
Notation system := (system gauss dfun dfun Kw T).
Variable draw : forall size n, 'cV[R]_n -> 'M[R]_n -> W -> W * 'M[R]_(size, n).
Variable n : nat.
Notation ut alpha beta kappa := (pure_transform (W := W) (ut_transform illcond n alpha beta kappa)).
Notation mc := (mc_map illcond draw).
(** the solvers never report an ill-conditioned matrix in this dimension *)
Definition regular_at := forall M : 'M[R]_n, ~~ illcond M.
Definition vstart (tm mm : transform) Q Rm p dm (sy : system) (ys : seq nd) fa w : state :=
  setup n t_zero tadd kw_tu0 (@nsqueeze R) (size ys) (mk_estimator illcond tm mm Q Rm p dm) sy ys fa w.
(** the measurement of node [j] has not been used *)
Definition unmeasured (st : state) (j : nat) : Prop := exists2 x, lookup st.1 j = Some x & n_meas x = as_factor n.

(** C53: a forward pass or a first sweep that returns has not used any measurement but the last, for any
    transforms that raise at a state whose mean is a square array *)
Theorem C53_forward k (tm mm : transform) (p dm : R) (Q P0 : 'M[R]_n) Rm (m0 : 'cV[R]_n) sy ys fa w (kws : nat -> Kw) er :
  let start := vstart tm mm (Nd2 Q) Rm p dm sy ys fa w in
  regular_at -> (0 < n)%N -> (1 < size ys)%N -> 0 < p -> 0 <= dm -> posdef P0 ->
  keywords t_zero tadd kw_tu0 fa sy kws (size ys) -> momp illcond (sy_init sy) m0 P0 ->
  (forall i, shaped illcond n tm (sy_trans sy (kws i)) n /\ rejects illcond n tm (sy_trans sy (kws i)) er) ->
  shaped illcond n mm (sy_meas sy) k ->
  (forall st, ep_filter illcond (iota 0 (size ys)) start = (st, Ok tt) -> forall j, (j < (size ys).-1)%N ->
     unmeasured st j /\ exists x (v : 'cV[R]_n), lookup st.1 j = Some x /\ g_mean illcond (n_marg x) = Ok (Nd1 v)) /\
  (forall st, ep_sweep illcond (iota 0 (size ys)) start = (st, Ok tt) -> forall j, (j < (size ys).-1)%N -> unmeasured st j).
Proof.
move=> start ic n0 hN p0 d0 pP hk hi hf hh.
have key := @forward_pass R illcond n ic n0 W Kw T nd t_zero tadd kw_tu0 (@nsqueeze R) tm mm p dm Q Rm (size ys) k sy ys fa kws
  (Nd0 0) w hN erefl hk p0 d0 m0 P0 hi pP (fun i _ => (hf i).1) hh er (fun i _ => (hf i).2).
split=> st h j hj.
  rewrite /ep_filter kfilter_run in h; have [x [h1 h2 [L [v [hv bL]]]]] := key st h j hj; split; first by exists x.
  by have [h3 _] := nvs_momf hv bL; exists x; eexists; split; [exact: h1|exact: h3].
have [_ r2] := @sweep_run gauss R dfun dfun nd W (gmul illcond) (gdiv illcond) (gpow illcond) (gvalidate illcond)
  (@r_one_over R) (@r_one_minus R) (@r_sdiv R) (iota 0 (size ys)) start.
move: h; rewrite /ep_sweep r2 run_cat /mbind; case E: run => [st1 [[]|]] // h.
have [x [h1 h2 _]] := key st1 E j hj.
have [x' h3 h4] := back_keeps illcond (rev (iota 0 (size ys))) h1.
by exists x'; rewrite ?h4 //; move: h3; rewrite /smooth_events in h; rewrite h.
Qed.

(** C53: this holds for the unscented transform in every dimension but one ... *)
Theorem C53_unscented k alpha beta kappa alpha' beta' kappa' (p dm : R) (Q P0 : 'M[R]_n) Rm (m0 : 'cV[R]_n) sy ys fa w
  (kws : nat -> Kw) (phi : nat -> 'cV[R]_n -> 'cV[R]_n) (psi : 'cV[R]_n -> 'cV[R]_k) :
  let start := vstart (ut alpha beta kappa) (ut alpha' beta' kappa') (Nd2 Q) Rm p dm sy ys fa w in
  regular_at -> (1 < n)%N -> 0 < alpha ^+ 2 * (n%:R + kappa) -> 0 < alpha' ^+ 2 * (n%:R + kappa') ->
  (1 < size ys)%N -> 0 < p -> 0 <= dm -> posdef P0 ->
  keywords t_zero tadd kw_tu0 fa sy kws (size ys) -> momp illcond (sy_init sy) m0 P0 ->
  (forall i, rowwise (sy_trans sy (kws i)) (phi i)) -> rowwise (sy_meas sy) psi ->
  forall st, ep_sweep illcond (iota 0 (size ys)) start = (st, Ok tt) -> forall j, (j < (size ys).-1)%N -> unmeasured st j.
Proof.
move=> start ic n1 pos pos' hN p0 d0 pP hk hi hf hh; have ne : n != 1%N by rewrite neq_ltn n1 orbT.
have h1 i : shaped illcond n (ut alpha beta kappa) (sy_trans sy (kws i)) n /\
    rejects illcond n (ut alpha beta kappa) (sy_trans sy (kws i)) ValueErr.
  by split; [exact: follows_shaped (ut_follows _ pos (hf i))|exact: ut_rejects pos (hf i)].
have h2 : shaped illcond n (ut alpha' beta' kappa') (sy_meas sy) k by exact: follows_shaped (ut_follows _ pos' hh).
exact: (C53_forward _ _ _ ic (ltnW n1) hN p0 d0 pP hk hi h1 h2).2.
Qed.
(** ... and for the Monte Carlo transform in every dimension, whatever is drawn *)
Theorem C53_montecarlo k sz sz' (p dm : R) (Q P0 : 'M[R]_n) Rm (m0 : 'cV[R]_n) sy ys fa w
  (kws : nat -> Kw) (phi : nat -> 'cV[R]_n -> 'cV[R]_n) (psi : 'cV[R]_n -> 'cV[R]_k) :
  let start := vstart (mc sz) (mc sz') (Nd2 Q) Rm p dm sy ys fa w in
  regular_at -> (0 < n)%N -> (1 < size ys)%N -> 0 < p -> 0 <= dm -> posdef P0 ->
  keywords t_zero tadd kw_tu0 fa sy kws (size ys) -> momp illcond (sy_init sy) m0 P0 ->
  (forall i, rowwise (sy_trans sy (kws i)) (phi i)) -> rowwise (sy_meas sy) psi ->
  forall st, ep_sweep illcond (iota 0 (size ys)) start = (st, Ok tt) -> forall j, (j < (size ys).-1)%N -> unmeasured st j.
Proof.
move=> start ic n0 hN p0 d0 pP hk hi hf hh.
have h1 i : shaped illcond n (mc sz) (sy_trans sy (kws i)) n /\ rejects illcond n (mc sz) (sy_trans sy (kws i)) ValueErr.
  by split; [exact: mc_shaped (hf i)|exact: mc_rejects].
have h2 : shaped illcond n (mc sz') (sy_meas sy) k by exact: mc_shaped hh.
exact: (C53_forward _ _ _ ic n0 hN p0 d0 pP hk hi h1 h2).2.
Qed.

(** C53: transforms that compute a rule and raise [er] at square means stop the first sweep at node 1; node 0
    has a mean of shape (n,n), the other nodes are as they were built *)
Theorem C53_aborts k (tm mm : transform) (p dm : R) (Q P0 : 'M[R]_n) (Rm : 'M[R]_k) (m0 : 'cV[R]_n) sy ys fa w (kws : nat -> Kw)
  (r : rule R n n) (rz : rule R n k) (y : nat -> 'cV[R]_k) er :
  let start := vstart tm mm (Nd2 Q) (Nd2 Rm) p dm sy ys fa w in
  regular_at -> (0 < n)%N -> (1 < size ys)%N -> 0 < p -> 0 <= dm -> posdef Q -> posdef P0 ->
  keywords t_zero tadd kw_tu0 fa sy kws (size ys) -> reads y ys -> momp illcond (sy_init sy) m0 P0 ->
  follows illcond tm (sy_trans sy (kws 0%N)) r -> proper r Q -> follows illcond mm (sy_meas sy) rz -> proper rz (p^-1 *: Rm) ->
  rejects illcond n tm (sy_trans sy (kws 1%N)) er ->
  exists st, [/\ ep_filter illcond (iota 0 (size ys)) start = (st, Err er),
    ep_sweep illcond (iota 0 (size ys)) start = (st, Err er),
    exists x (M : 'M[R]_n), lookup st.1 0 = Some x /\ g_mean illcond (n_marg x) = Ok (Nd2 M) &
    forall j, j != 0%N -> lookup st.1 j = lookup start.1 j].
Proof.
move=> start ic n0 hN p0 d0 pQ pP hk hy hi hf hp hh hz hr.
have [st [h1 [x h2 [L [M [hv bL]]]] h3]] := @aborts R illcond n ic n0 W Kw T nd t_zero tadd kw_tu0 (@nsqueeze R) tm mm p dm k Q Rm
  (size ys) sy ys fa kws (Nd0 0) w hN erefl hk p0 d0 pQ m0 P0 (y 0%N) r rz er hi pP hf hh hp hz hr (hy 0%N (ltnW hN)).
have [l el] : exists l, filter_events (iota 0 (size ys)) = [:: Fwd 0; Meas 0; Fwd 1] ++ l.
  by case: (size ys) hN => [|[|N]] // _; eexists.
exists st; split=> //.
- by rewrite /ep_filter kfilter_run el; exact: h1.
- have [_ r2] := @sweep_run gauss R dfun dfun nd W (gmul illcond) (gdiv illcond) (gpow illcond) (gvalidate illcond)
    (@r_one_over R) (@r_one_minus R) (@r_sdiv R) (iota 0 (size ys)) start.
  by rewrite /ep_sweep r2 el -catA; exact: h1.
- by have [h4 _] := nvs_momf hv bL; exists x; eexists; split; [exact: h2|exact: h4].
Qed.
(** C53: the unscented transform with admissible parameters, in dimension two or more *)
Theorem C53_unscented_aborts k alpha beta kappa (p dm : R) (Q P0 : 'M[R]_n) (Rm : 'M[R]_k) (m0 : 'cV[R]_n) sy ys fa w
  (kws : nat -> Kw) (phi : nat -> 'cV[R]_n -> 'cV[R]_n) (psi : 'cV[R]_n -> 'cV[R]_k) (y : nat -> 'cV[R]_k) :
  let start := vstart (ut alpha beta kappa) (ut alpha beta kappa) (Nd2 Q) (Nd2 Rm) p dm sy ys fa w in
  regular_at -> (1 < n)%N -> 0 < alpha ^+ 2 * (n%:R + kappa) -> 0 <= alpha ^+ 2 * kappa + n%:R * beta ->
  (1 < size ys)%N -> 0 < p -> 0 <= dm -> [/\ posdef Q, posdef Rm & posdef P0] ->
  keywords t_zero tadd kw_tu0 fa sy kws (size ys) -> reads y ys -> momp illcond (sy_init sy) m0 P0 ->
  (forall i, rowwise (sy_trans sy (kws i)) (phi i)) -> rowwise (sy_meas sy) psi ->
  exists st, ep_filter illcond (iota 0 (size ys)) start = (st, Err ValueErr) /\
    ep_sweep illcond (iota 0 (size ys)) start = (st, Err ValueErr).
Proof.
move=> start ic n1 pos adm hN p0 d0 [pQ pR pP] hk hy hi hf hh; have ne : n != 1%N by rewrite neq_ltn n1 orbT.
have pRp : posdef (p^-1 *: Rm) by apply: posdefZ; rewrite ?invr_gt0.
have [st [h1 h2 _ _]] := C53_aborts w ic (ltnW n1) hN p0 d0 pQ pP hk hy hi (ut_follows beta pos (hf 0%N))
  (ut_rule_proper pos _ (ltnW n1) adm pQ) (ut_follows beta pos hh) (ut_rule_proper pos _ (ltnW n1) adm pRp) (ut_rejects _ _ beta ne pos (hf 1%N)).
by exists st.
Qed.
End Props.

(** a concrete case: a random walk in the plane observed directly, two measurements *)
Section Case.
Variable R : rcfType.
Definition plane_sys : system (gauss R) (dfun R) (dfun R) unit unit :=
  System (fun=> @idf R) (@idf R) Datatypes.tt (gaussian (Nd1 (0 : 'cV[R]_2)) (Nd2 (1%:M : 'M[R]_2))).
Definition plane_y (i : nat) : 'cV[R]_2 := \col_(j < 2) (i + j)%:R.
Definition plane_ys : seq (nd R) := [:: Nd1 (plane_y 0); Nd1 (plane_y 1)].
Lemma plane_reads : reads plane_y plane_ys.
Proof. by case=> [|[|//]] _. Qed.
Lemma plane_id : rowwise (@idf R) (fun x : 'cV[R]_2 => x).
Proof. by move=> k X; congr (Ok (Nd2 _)); apply/matrixP=> i j; rewrite !mxE. Qed.
Notation u2 := (pure_transform (W := unit) (ut_transform (@never R) 2 1 0 2%:R)).
Notation one := (1%:M : 'M[R]_2).
Notation start mm := (vstart (@never R) Datatypes.tt (fun _ _ => Datatypes.tt) (fun=> Datatypes.tt) 2 u2 mm (Nd2 one) (Nd2 one) 2%:R^-1 1 plane_sys plane_ys None Datatypes.tt).
Lemma plane_pos : 0 < 1 ^+ 2 * (2%:R + 2%:R) :> R.
Proof. by rewrite expr1n mul1r addr_gt0 ?ltr0n. Qed.
Lemma plane_adm : 0 <= 1 ^+ 2 * 2%:R + 2%:R * 0 :> R.
Proof. by rewrite expr1n mul1r mulr0 addr0 ler0n. Qed.
Lemma half_pos : 0 < 2%:R^-1 :> R. Proof. by rewrite invr_gt0 ltr0n. Qed.
Lemma plane_aborts : exists st, ep_sweep (@never R) (iota 0 2) (start u2) = (st, Err ValueErr).
Proof.
have p1 := posdef1 R 2.
have [st [_ h]] := @C53_unscented_aborts R (@never R) unit unit unit Datatypes.tt (fun _ _ => Datatypes.tt) (fun=> Datatypes.tt) 2 2 1 0 2%:R
  2%:R^-1 1 one one one 0 plane_sys plane_ys None Datatypes.tt (fun=> Datatypes.tt) (fun _ x => x) (fun x => x) plane_y
  (fun=> isT) isT plane_pos plane_adm isT half_pos ler01 (And3 p1 p1 p1) (fun _ _ => erefl) plane_reads (momp_gaussian _ _ _)
  (fun=> plane_id) plane_id.
by exists st.
Qed.
(** and a forward pass that returns: every measurement is skipped because its transform raises LinAlgError *)
Definition blank : transform R unit := fun _ _ w => (w, Err LinAlgErr).
Lemma plane_returns : exists st, ep_filter (@never R) (iota 0 2) (start blank) = (st, Ok Datatypes.tt) /\
  unmeasured 2 st 0.
Proof.
have p1 := posdef1 R 2; have hr := ut_rule_proper plane_pos (fun x : 'cV[R]_2 => x) isT plane_adm p1.
have [st h] := @skips R (@never R) 2 (fun=> isT) isT unit unit unit (nd R) Datatypes.tt (fun _ _ => Datatypes.tt) (fun=> Datatypes.tt) (@nsqueeze R)
  u2 blank 2%:R^-1 1 2 one one 2 plane_sys plane_ys None (fun=> Datatypes.tt) (Nd0 0) Datatypes.tt isT erefl (fun _ _ => erefl)
  half_pos ler01 p1 0 one _ (momp_gaussian _ _ _) p1 (fun=> ut_follows 0 plane_pos plane_id) (fun=> hr) (fun _ _ _ => erefl).
have e : ep_filter (@never R) (iota 0 2) (start blank) = (st, Ok Datatypes.tt) by rewrite /ep_filter kfilter_run; exact: h.
exists st; split=> //.
have h1 : shaped (@never R) 2 u2 (@idf R) 2 /\ rejects (@never R) 2 u2 (@idf R) ValueErr.
  by split; [exact: follows_shaped (ut_follows _ plane_pos plane_id)|exact: ut_rejects plane_pos plane_id].
have h2 : shaped (@never R) 2 blank (@idf R) 2 by [].
have [k _] := @C53_forward R (@never R) unit unit unit Datatypes.tt (fun _ _ => Datatypes.tt) (fun=> Datatypes.tt) 2 2 u2 blank
  2%:R^-1 1 one one (Nd2 one) 0 plane_sys plane_ys None Datatypes.tt (fun=> Datatypes.tt) ValueErr
  (fun=> isT) isT isT half_pos ler01 p1 (fun _ _ => erefl) (momp_gaussian _ _ _) (fun=> h1) h2.
exact: (k st e 0%N isT).1.
Qed.
End Case.
Example C53_case := plane_aborts [rcfType of realalg].
Example C53_case_forward := plane_returns [rcfType of realalg].
Print Assumptions C53_forward. Print Assumptions C53_unscented. Print Assumptions C53_montecarlo.
Print Assumptions C53_aborts. Print Assumptions C53_unscented_aborts.
