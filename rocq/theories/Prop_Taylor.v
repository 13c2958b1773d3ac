(** * Property C52: EP with the Taylor transform on scalar systems written for arrays *)
Set Warnings "-notation-overridden,-ambiguous-paths".
From mathcomp Require Import all_ssreflect all_algebra.
From mathcomp Require Import real_closed.realalg.
From Verif Require Import Base ND NDFacts PosDef LinAlg LinAlgFacts Gauss GaussFacts Nodes NodesFacts EPInv EPGauss
  Transforms TransformFacts Estimator EstimatorFacts EPEst SpecAssumed EPValue EPChain KalmanFacts EPSetup EPTaylor EPCase Prop_EP Prop_EPKalman.
Set Implicit Arguments.
Unset Strict Implicit.
Unset Printing Implicit Defensive.
Import GRing.Theory Num.Theory Order.Theory.
Local Open Scope ring_scope.

Section Props.
Variable R : rcfType.
Variable illcond : forall n, 'M[R]_n -> bool.
Variable W : Type.
Notation nd := (nd R).
Notation gauss := (gauss R).
Notation dfun := (dfun R).
Variables (Kw T : Type) (t_zero : T) (tadd : T -> T -> T) (kw_tu0 : T -> Kw).
Notation system := (system gauss dfun dfun Kw T).
Notation tt := (pure_transform (W := W) (tt_transform illcond)).

(** C52: at a state whose mean has shape (1,1) the transform of an element-wise function raises ValueError *)
Theorem C52_transform phi dphi F (g : gauss) (x : 'M[R]_1) P : elementwise phi dphi F ->
  g_mean illcond g = Ok (Nd2 x) -> g_cov illcond g = Ok P -> tt_transform illcond F g = Err ValueErr.
Proof. exact: tt_square. Qed.

(** C52: the first sweep stops at the second node with ValueError, for every power and damping; node 0 has been
    updated and its mean has shape (1,1), the other nodes are as they were built *)
Theorem C52_sweep (p dm : R) (Q Rm P0 : 'M[R]_1) (m0 : 'cV[R]_1) (phi dphi : nat -> R -> R) psi dpsi sy ys fa w
  (kws : nat -> Kw) (y : nat -> 'cV[R]_1) :
  let start := setup 1 t_zero tadd kw_tu0 (@nsqueeze R) (size ys) (mk_estimator illcond tt tt (Nd2 Q) (Nd2 Rm) p dm) sy ys fa w in
  regular illcond -> (1 < size ys)%N -> 0 < p -> 0 <= dm -> [/\ posdef Q, posdef Rm & posdef P0] ->
  keywords t_zero tadd kw_tu0 fa sy kws (size ys) -> reads y ys -> momp illcond (sy_init sy) m0 P0 ->
  (forall i, elementwise (phi i) (dphi i) (sy_trans sy (kws i))) -> elementwise psi dpsi (sy_meas sy) ->
  exists st, [/\ ep_filter illcond (iota 0 (size ys)) start = (st, Err ValueErr),
    ep_sweep illcond (iota 0 (size ys)) start = (st, Err ValueErr),
    exists n x, lookup st.1 0 = Some n /\ g_mean illcond (n_marg n) = Ok (@Nd2 R 1 1 x) &
    forall j, j != 0%N -> lookup st.1 j = lookup start.1 j].
Proof.
move=> start ic hN p0 d0 [pQ pR pP] hk hy [hm hP] hf hh.
pose e := mk_estimator illcond tt tt (Nd2 Q) (Nd2 Rm) p dm.
have fr i (hi : (i < size ys)%N) := @built_fresh R W Kw T nd t_zero tadd kw_tu0 (@nsqueeze R) (size ys) e p dm sy ys fa kws (Nd0 0) w
  erefl erefl hN erefl hk i hi.
have [n a1 [[a2 [a3 a4 a5 a6]] [a7 a8 a9 a10] [a11 a12] [a13 a14 a15]]] := fr 0%N (ltnW hN).
have [n' b1 [[b2 _] [b7 _ _ _] [b11 _] [b13 _ _]]] := fr 1%N hN.
rewrite -[built _ _ _ _ _ _ _ _ _ _]/start in a1 b1.
have [h [w0 E]] : exists h w0, start = (h, w0) by case: (start) => h w0; exists h, w0.
move: a1 b1; rewrite E /= => a1 b1.
have [f [mg [u [e1 u1 u2]]]] := fwd0 ic p0 d0 pQ w0 a1 a2 (a10 erefl) hm hP pP a7 (hf 0%N) a11 a12 a13 a4 a3.
set h1 := update _ _ _ in e1; have l1 : lookup h1 0 = Some (set_fwd f mg n) by rewrite lookup_update eqxx a1.
have [f2 [mg2 [v [e2 v1 v2]]]] := meas0 ic p0 d0 pR w0 l1 a8 hh a9 (hy 0%N (ltnW hN)) a11 a12 a14 a5 u1 u2.
set h2 := update _ _ _ in e2; have l2 : lookup h2 0 = Some (set_meas f2 mg2 (set_fwd f mg n)) by rewrite lookup_update eqxx l1.
have l3 : lookup h2 1 = Some n' by rewrite lookup_update /= lookup_update.
have e3 := fwd1 ic p0 w0 l2 l3 b2 b7 (hf 1%N) b11 b13 a6 v1 v2.
have ei : exists l, filter_events (iota 0 (size ys)) = [:: Fwd 0; Meas 0; Fwd 1] ++ l.
  by case: (size ys) hN => [|[|N]] // _; eexists.
have [l el] := ei.
have hrun l' : ep_run illcond ([:: Fwd 0; Meas 0; Fwd 1] ++ l') (h, w0) = ((h2, w0), Err ValueErr).
  have rc (ev0 : ev) evs st : ep_run illcond (ev0 :: evs) st =
      match update_call illcond ev0 st with (st', Ok _) => ep_run illcond evs st' | (st', Err er) => (st', Err er) end by [].
  by rewrite /cat rc /update_call e1 rc /update_call e2 rc /update_call e3.
exists (h2, w0); split.
- by rewrite /ep_filter kfilter_run el; exact: hrun.
- have [_ r2] := @sweep_run gauss R dfun dfun nd W (gmul illcond) (gdiv illcond) (gpow illcond) (gvalidate illcond)
    (@r_one_over R) (@r_one_minus R) (@r_sdiv R) (iota 0 (size ys)) (h, w0).
  by rewrite /ep_sweep r2 el -catA; exact: hrun.
- by have [_ _ /(_ v2) [hx _]] := v1; do 2!eexists; split; [exact: l2|exact: hx].
- by move=> j hj; rewrite /= lookup_update (negPf hj) lookup_update (negPf hj).
Qed.
End Props.

(** a concrete case: f(x) = 3x + 1, h(x) = x^2, two measurements *)
Section Case.
Variable R : rcfType.
Definition ew (phi dphi : R -> R) : dfun R := DFun
  (fun a => match a with Nd0 x => Ok (Nd0 (phi x)) | Nd1 n v => Ok (Nd1 (map_mx phi v)) | Nd2 m n A => Ok (Nd2 (map_mx phi A)) end)
  (fun a => match a with Nd1 n v => Ok (JLow (Nd2 (map_mx dphi (diag_mx v^T)))) | Nd2 m n A => Ok (JHigh [:: m; n; m; n] [:: dphi (ent A 0 0)])
    | _ => Err TypeErr end).
Lemma ew_elementwise phi dphi : elementwise phi dphi (ew phi dphi).
Proof.
split=> // v; first by congr (Ok (JLow (Nd2 _))); apply: mx11_eq; rewrite !mxE eqxx mulr1n.
by rewrite /= -[ent v 0 0]/(ent v (nat_of_ord (0 : 'I_1)) (nat_of_ord (0 : 'I_1))) entE.
Qed.
Definition ew_sys : system (gauss R) (dfun R) (dfun R) unit unit :=
  System (fun=> ew (fun x => 3%:R * x + 1) (fun=> 3%:R)) (ew (fun x => x ^+ 2) (fun x => 2%:R * x)) Datatypes.tt
    (gaussian (Nd1 (0 : 'cV[R]_1)) (Nd2 (1%:M : 'M[R]_1))).
Notation ttr := (pure_transform (W := unit) (tt_transform (@never R))).
Lemma ew_aborts : exists st,
  ep_sweep (@never R) (iota 0 2) (setup 1 Datatypes.tt (fun _ _ => Datatypes.tt) (fun=> Datatypes.tt) (@nsqueeze R) 2
    (mk_estimator (@never R) ttr ttr (Nd2 (1%:M : 'M[R]_1)) (Nd2 (1%:M : 'M[R]_1)) 2%:R^-1 1) ew_sys (@walk_ys R) None Datatypes.tt)
  = (st, Err ValueErr).
Proof.
have h0 : 0 < 2%:R^-1 :> R by rewrite invr_gt0 ltr0n.
have p1 := posdef1 R 1.
have [st [_ h _ _]] := @C52_sweep R (@never R) unit unit unit Datatypes.tt (fun _ _ => Datatypes.tt) (fun=> Datatypes.tt) 2%:R^-1 1
  1%:M 1%:M 1%:M 0 (fun _ x => 3%:R * x + 1) (fun _ _ => 3%:R) (fun x => x ^+ 2) (fun x => 2%:R * x) ew_sys (@walk_ys R) None
  Datatypes.tt (fun=> Datatypes.tt) (@walk_y R) (@walk_regular R) isT h0 ler01 (And3 p1 p1 p1) (fun _ _ => erefl) (@walk_reads R)
  (momp_gaussian _ _ _) (fun=> ew_elementwise _ _) (ew_elementwise _ _).
by exists st.
Qed.
End Case.
Example C52_case := ew_aborts [rcfType of realalg].
Print Assumptions C52_transform. Print Assumptions C52_sweep.
