(** * Proofs about the whole EP_FullSweep command *)
Set Warnings "-notation-overridden,-ambiguous-paths".
From mathcomp Require Import all_ssreflect all_algebra.
From Coq Require Import String.
From Verif Require Import Base ND NDFacts PosDef LinAlg LinAlgFacts Gauss GaussFacts Nodes NodesFacts EPInv EPGauss
  Transforms TransformFacts Estimator EstimatorFacts EPEst SpecAssumed KalmanFacts AssumedFacts EPChain EPSweep EPSetup EPTaylor Metrics MetricsFacts SpecMetrics MonteCarlo EPVector
  Prop_EP Prop_EPKalman Prop_Taylor Prop_Vector
  Database FullSweep SpecDb DatabaseFacts SweepFacts Program ProgramRows SpecProgram.
Set Implicit Arguments.
Unset Strict Implicit.
Unset Printing Implicit Defensive.
Import GRing.Theory Num.Theory Order.Theory.
Local Open Scope ring_scope.

Section Facts.
Variable R : rcfType.
Variable illcond : forall n, 'M[R]_n -> bool.
Variable G : Type.
Notation nd := (nd R).
Notation gauss := (gauss R).
Notation dfun := (dfun R).
Variables (Kw T : Type) (t_zero : T) (tadd : T -> T -> T) (kw_tu0 : T -> Kw).
Variable draw : forall size n, 'cV[R]_n -> 'M[R]_n -> G -> G * 'M[R]_(size, n).
Variable logpdf : nd -> nd -> nd -> res R.
Variable mdl : model R G Kw T.
Variables (pickle : nd -> val) (number : R -> val) (seed_rng : int -> G -> G).
Notation world := (world R G).
Notation step_fun := (step_fun t_zero tadd kw_tu0 mdl).
Notation p_estimator := (p_estimator illcond draw mdl).
Notation p_reseed := (@p_reseed R G seed_rng).
Notation p_simulate := (p_simulate mdl pickle).
Notation p_build := (p_build illcond t_zero tadd kw_tu0 draw mdl).
Notation p_sweep := (@p_sweep R illcond G).
Notation p_metrics := (p_metrics (G := G) illcond logpdf number).

(** what [w_x] and [w_y] hold while the settings of seed [s] are run *)
Definition during (s : int) (w : world) : Prop := exists g g' xy,
  [/\ m_sim mdl (seed_rng s g) = (g', Ok xy), w_x w = unzip1 xy & w_y w = unzip2 xy].
Lemma during_sim s w w' xy : p_simulate (p_reseed s w) = (w', Ok xy) -> during s w'.
Proof.
rewrite /Program.p_simulate /=; case h: (m_sim _ _) => [g [d|e]] // [<- _].
by exists (w_rng w), g, d.
Qed.
Lemma during_build s c xy w : during s w -> during s (p_build c xy w).1.
Proof.
case=> g [g' [d [h1 h2 h3]]]; exists g, g', d; rewrite /Program.p_build.
by case: chain_of => st [ns|e].
Qed.
Lemma during_sweep s w : during s w -> during s (p_sweep w).1.
Proof.
by case=> g [g' [d [h1 h2 h3]]]; exists g, g', d; rewrite /Program.p_sweep; case: ep_fwd_back_updates.
Qed.
Lemma during_metrics s w : during s w -> during s (p_metrics w).1. Proof. by []. Qed.

(** the chain of nodes is the one of [setup] *)
Lemma build_split N d (e : Nodes.estimator gauss R dfun dfun nd G) (k : seq nat -> Nodes.M gauss R dfun dfun nd G (seq nat)) st :
  Nodes.mbind (@build_nodes gauss R dfun dfun nd G (@as_factor R) (@as_marginal R) 1 Kw T N d None None) (fun nodes =>
    Nodes.mbind (node_estimator 1 nodes e) k) st =
  Nodes.mbind (@build_nodes gauss R dfun dfun nd G (@as_factor R) (@as_marginal R) 1 Kw T N d (Some e) None) k st.
Proof.
rewrite /build_nodes /= /Nodes.mbind; case: mfor => st1 [u|er] //=.
by case: node_estimator => st2 [u2|er].
Qed.
Lemma built c xy w : (1 < m_steps mdl)%N -> size (w_y w) = m_steps mdl ->
  let st := setup (m_dim mdl) t_zero tadd kw_tu0 (@nsqueeze R) (size (w_y w)) (p_estimator c) (m_sys mdl) (w_y w) None (w_rng w) in
  p_build c xy w = (World st.1 (iota 0 (size (w_y w))) st.2 (w_x w) (w_y w), Ok tt).
Proof.
move=> h1 h2 st; rewrite /Program.p_build /chain_of build_split /Nodes.mbind -h2.
have := @build_nodes_spec gauss R dfun dfun nd G (@as_factor R) (@as_marginal R) 1 Kw T (m_steps mdl) (m_dim mdl) (Some (p_estimator c)) None [::] (w_rng w) h1.
rewrite /st /setup -h2; case: build_nodes => -[h w'] r /= [_ hs _ -> hb].
have an : all (fun j => j < size (h, w').1)%N (iota 0 (size (w_y w))) by apply/allP=> j; rewrite mem_iota hs h2.
have := @node_system_spec gauss R dfun dfun nd G Kw T nd t_zero tadd kw_tu0 (@nsqueeze R) (iota 0 (size (w_y w))) (m_sys mdl) (w_y w) None (h, w') (iota_uniq _ _) an.
case: node_system => -[h3 w3] r3 /= [_ _ -> _ _]; rewrite size_iota !minnn take_oversize ?size_iota //.
by case: eqP h1 => //; rewrite h2 => ->.
Qed.

(** a setting that stops in its first sweep logs nothing *)
Lemma stops_logs num_iter c xy w e : (1 < m_steps mdl)%N -> size (w_y w) = m_steps mdl ->
  (exists st, ep_sweep illcond (iota 0 (size (w_y w))) (setup (m_dim mdl) t_zero tadd kw_tu0 (@nsqueeze R) (size (w_y w))
      (p_estimator c) (m_sys mdl) (w_y w) None (w_rng w)) = (st, Err e)) ->
  setting_logs p_build p_sweep p_metrics num_iter.+1 c xy w = ([::], Some e).
Proof.
move=> h1 h2 [st h]; rewrite /setting_logs (built _ _ h1 h2) /= /Program.p_sweep /= -surjective_pairing.
by move: h; rewrite /ep_sweep => ->.
Qed.
Lemma keys N : keywords t_zero tadd kw_tu0 None (m_sys mdl) (fun i => kw_tu0 (iter i (tadd^~ (sy_dt (m_sys mdl))) t_zero)) N.
Proof. by []. Qed.

Lemma taylor_stops num_iter c xy w : scalar_system illcond t_zero tadd kw_tu0 mdl -> regular illcond ->
  upper (c_trans c) = "TT"%string -> 0 < c_power c -> 0 <= c_damp c -> during (c_seed c) w ->
  setting_logs p_build p_sweep p_metrics num_iter.+1 c xy w = ([::], Some ValueErr).
Proof.
case=> Q [P0 [Rm [m0 [phi [dphi [psi [dpsi [[hd hQ hR hi hp] [h1 hs] hf hm]]]]]]]] ic ht p0 d0 [g [g' [d [e1 _ e3]]]].
have [sd [y hy]] := hs _ _ _ e1; have hz : size (w_y w) = m_steps mdl by rewrite e3 size_map.
apply: stops_logs => //; rewrite /Program.p_estimator hd /select_transform ht /= hQ hR.
have pp : 0 < ratr (c_power c) :> R by rewrite ltr0q.
have pd : 0 <= ratr (c_damp c) :> R by rewrite ler0q.
have hN : (1 < size (w_y w))%N by rewrite hz.
rewrite -e3 in hy.
have [st [_ h _ _]] := @C52_sweep R illcond G Kw T t_zero tadd kw_tu0 (ratr (c_power c)) (ratr (c_damp c)) Q Rm P0 m0 phi dphi psi dpsi
  (m_sys mdl) (w_y w) None (w_rng w) _ y ic hN pp pd hp (fun _ _ => erefl) hy hi hf hm.
by exists st.
Qed.
Lemma unscented_stops n k num_iter c xy w : array_system illcond t_zero tadd kw_tu0 mdl n k -> @regular_at R illcond n -> (1 < n)%N ->
  upper (c_trans c) = "UT"%string -> 0 < c_power c -> 0 <= c_damp c -> during (c_seed c) w ->
  setting_logs p_build p_sweep p_metrics num_iter.+1 c xy w = ([::], Some ValueErr).
Proof.
case=> Q [P0 [Rm [m0 [phi [psi [[hd hQ hR hi [pQ pR pP]] [h1 hs] hf hm]]]]]] ic n1 ht p0 d0 [g [g' [d [e1 _ e3]]]].
have [sd [y hy]] := hs _ _ _ e1; have hz : size (w_y w) = m_steps mdl by rewrite e3 size_map.
apply: stops_logs => //; rewrite /Program.p_estimator /select_transform ht /= /ut hd hQ hR.
have pp : 0 < ratr (c_power c) :> R by rewrite ltr0q.
have pd : 0 <= ratr (c_damp c) :> R by rewrite ler0q.
have hN : (1 < size (w_y w))%N by rewrite hz.
rewrite -e3 in hy; have ne : n != 1%N by rewrite neq_ltn n1 orbT.
have pos j : 0 < 1 ^+ 2 * (n%:R + j%:R) :> R by rewrite expr1n mul1r -natrD ltr0n addn_gt0 (ltnW n1).
have adm j : 0 <= 1 ^+ 2 * j%:R + n%:R * 2%:R :> R by rewrite expr1n mul1r -natrM -natrD ler0n.
have pRp : posdef ((ratr (c_power c))^-1 *: Rm) by apply: PosDef.posdefZ; rewrite ?invr_gt0.
have [st [_ h _ _]] := C53_aborts (w_rng w) ic (ltnW n1) hN pp pd pQ pP (@keys (size (w_y w))) hy hi (ut_follows 2%:R (pos 3%N) (hf 0%N))
  (ut_rule_proper (pos 3%N) _ (ltnW n1) (adm 3%N) pQ) (ut_follows 2%:R (pos 2%N) hm) (ut_rule_proper (pos 2%N) _ (ltnW n1) (adm 2%N) pRp)
  (ut_rejects _ _ 2%:R ne (pos 3%N) (hf 1%N)).
by exists st.
Qed.

(** ** the errors of scalar estimates *)
Definition tells1 (g : gauss) (p : 'cV[R]_1 * 'M[R]_1) : Prop :=
  [/\ exists2 a, g_mean illcond g = Ok a & a = Nd1 p.1 \/ a = Nd2 p.1, g_cov illcond g = Ok (Nd2 p.2) & posdef p.2].
Lemma sqerr1 g x p (v : 'cV[R]_1) : tells1 g p -> SpecMetrics.holds x v -> g_squared_error illcond g x = Ok (dist2 p.1 v).
Proof.
case=> -[a h1 h2] _ _ hx; case: h2 h1 => -> h1; first exact: sqerr h1 hx.
rewrite /g_squared_error h1 bindE; case: hx => ->.
- rewrite /nsub bop_Mv bindE /=; congr Ok; rewrite /dist2 !big_ord1.
  by rewrite !mxE.
- rewrite nsubmm bindE /=; congr Ok; rewrite /dist2 !big_ord1.
  by rewrite !mxE.
Qed.
Lemma metrics1 lp gs xs est vs : density logpdf lp -> forall2 tells1 gs est -> forall2 (@SpecMetrics.holds R 1) xs vs -> zip est vs <> [::] ->
  exists ab, node_metrics illcond logpdf gs xs = Ok ab /\ scores number lp est vs (number ab.1, number ab.2).
Proof.
move=> hl h1 h2 ne.
have e1 : rmse illcond gs xs = Ok (Num.sqrt (average (errors (unzip1 est) vs))).
  rewrite /rmse (mapM_F2 (g := fun p : ('cV[R]_1 * 'M[R]_1) * 'cV[R]_1 => dist2 p.1.1 p.2) _ (F2_zip h1 h2)); last first.
    by move=> a c [p q]; exact: sqerr1 p q.
  have -> : [seq dist2 p.1.1 p.2 | p <- zip est vs] = errors (unzip1 est) vs.
    by rewrite /errors; elim: (est) (vs) => [|a l IH] [|b l'] //=; rewrite IH.
  rewrite bindE /np_mean /average; case e: (errors _ _) => [|z zs]; last by rewrite bindE.
  by case: (est) (vs) ne e => [|a l] [|b l'].
have e2 : nll illcond logpdf gs xs = Ok (average [seq - lp p.2 p.1.1 p.1.2 | p <- zip est vs]).
  rewrite /nll (mapM_F2 (g := fun p : ('cV[R]_1 * 'M[R]_1) * 'cV[R]_1 => - lp p.2 p.1.1 p.1.2) _ (F2_zip h1 h2)); last first.
    by move=> a c [[[b hb1 hb2] p' p3] q]; rewrite /g_nll hb1 bindE p' bindE (hl c.2 _ _ _ _ p3 q hb2) bindE.
  by rewrite bindE /np_mean /average; case: (zip est vs) ne.
by eexists; split; [rewrite /node_metrics e1 bindE e2 bindE; reflexivity|].
Qed.

(** one sweep of a scalar chain with the unscented transform, power and damping one *)
Definition ut_rule k (phi : nat -> 'cV[R]_1 -> 'cV[R]_1) (psi : 'cV[R]_1 -> 'cV[R]_k) Q Rm P0 m0 : approx R 1 k :=
  ut_approx 1 2%:R 3%:R 1 2%:R 2%:R phi psi Q P0 Rm m0 (@ut_root R 1).
Lemma first_log k num_iter c xy w Q P0 (Rm : 'M[R]_k) m0 phi psi lp :
  noises illcond mdl Q P0 Rm m0 -> simulates mdl k ->
  (forall g g' d, m_sim mdl g = (g', Ok d) -> exists vs, forall2 (@SpecMetrics.holds R 1) (unzip1 d) vs) ->
  (forall i, rowwise (step_fun i) (phi i)) -> rowwise (sy_meas (m_sys mdl)) psi -> density logpdf lp -> regular illcond ->
  upper (c_trans c) = "UT"%string -> c_power c = 1 -> c_damp c = 1 -> during (c_seed c) w ->
  exists ab rest e, setting_logs p_build p_sweep p_metrics num_iter.+1 c xy w = (ab :: rest, e) /\
    smoother_scores mdl number seed_rng lp (ut_rule phi psi Q Rm P0 m0) (c_seed c) ab.
Proof.
move=> [hd hQ hR hi [pQ pR pP]] [h1 hs] hx hf hm hl ic ht p1 d1 [g [g' [d [e1 e2 e3]]]].
have [sd [y hy]] := hs _ _ _ e1; have [vs hv] := hx _ _ _ e1; have hz : size (w_y w) = m_steps mdl by rewrite e3 size_map.
rewrite /setting_logs (built _ _ h1 hz) /Program.p_estimator /select_transform ht /= /ut hd hQ hR p1 d1 !rmorph1 /Program.p_sweep /=.
rewrite -surjective_pairing; set A := ut_rule phi psi Q Rm P0 m0.
have hN : (1 < size (w_y w))%N by rewrite hz.
have pp j : ut_params 1 2%:R (j%:R : R).
  by split; rewrite expr1n mul1r -1?natrD ?addr_ge0 ?ler0n // -(natrD _ 1) ltr0n.
have hc : configured illcond y (m_sys mdl) (fun i => kw_tu0 (iter i (tadd^~ (sy_dt (m_sys mdl))) t_zero)) (w_y w) phi psi Q P0 Rm m0.
  by split=> [i _| | | |]; [exact: hf|exact: hm|rewrite e3|exact: hi|split].
have im := @ut_implements R illcond G _ _ _ _ _ _ _ _ _ _ _ _ _ _ _ _ _ _ _ (pp 3%N) (pp 2%N) hc.
have [st [r1 r2]] := C28_sweep (w_rng w) ic hN (@keys (size (w_y w))) im.
case E: ep_fwd_back_updates => [st0 r0]; have [-> ->] : (st0, r0) = (st, Ok tt) by rewrite -E; exact: r1.
rewrite /Program.p_metrics /=.
pose est := [seq a_smooth A y (trace_min R) (size (w_y w)) i.+1 | i <- iota 0 (size (w_y w))].
set gs := pmap _ _; have [_ pm _ _] := im.
have hg : forall2 tells1 gs est.
  rewrite /gs /est; have : all (fun i => i < size (w_y w))%N (iota 0 (size (w_y w))) by apply/allP=> j; rewrite mem_iota.
  elim: (iota 0 _) => [|i l IH] /=; first by constructor.
  case/andP=> hi' hl'; have [n [a [q1 q2 q3 q4]]] := r2 i hi'; rewrite q1 /=; constructor; last exact: IH.
  split=> //; [by exists a|exact: (smooth_pd y (ltW (trace_min_gt0 R)) pm)].
have ne : zip est vs <> [::].
  have : (0 < size (zip est vs))%N by rewrite size_zip size_map size_iota -(F2_size hv) size_map sd hz minnn (ltnW h1).
  by case: zip.
rewrite -e2 in hv; have [ab [q1 q2]] := metrics1 hl hg hv ne; rewrite q1 bindE /=.
eexists; eexists; eexists; split; first by reflexivity.
exists g, g', d, y, vs; split=> //; first by rewrite -e2.
by have -> : size d = size (w_y w) by rewrite sd.
Qed.
End Facts.
