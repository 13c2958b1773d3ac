(** * EP on vector states: shapes *)
Set Warnings "-notation-overridden,-ambiguous-paths".
From mathcomp Require Import all_ssreflect all_algebra.
From Verif Require Import Base ND NDFacts PosDef LinAlg LinAlgFacts Gauss GaussFacts Nodes NodesFacts EPInv EPGauss
  Transforms TransformFacts CondGauss Estimator EstimatorFacts EPEst SpecAssumed EPValue EPChain EPSweep KalmanFacts AssumedFacts EPSetup
  MonteCarlo.
Set Implicit Arguments.
Unset Strict Implicit.
Unset Printing Implicit Defensive.
Import GRing.Theory Num.Theory Order.Theory.
Local Open Scope ring_scope.

(** ** positive definite matrices *)
Section Loewner.
Variable R : rcfType.
Lemma inv_antitone n (P C : 'M[R]_n) : posdef P -> posdef C -> possemi (P - C) -> possemi (invmx C - invmx P).
Proof.
move=> pP pC h; split; first by rewrite linearB /= !sym_inv ?pP.1 ?pC.1.
move=> v; rewrite qfBm subr_ge0.
have uP := posdef_unit pP; have uC := posdef_unit pC.
set a := invmx C *m v; set b := invmx P *m v.
have h1 := (posdef_semi pC).2 (a - b); rewrite (qfB _ _ pC.1) in h1.
have ea : qf C a = qf (invmx C) v by rewrite qf_inv ?pC.1.
have eb : qf P b = qf (invmx P) v by rewrite qf_inv ?pP.1.
have eab : bf C a b = qf (invmx P) v.
  have e1 : bf C b a = (b^T *m v) 0 0 by rewrite /bf -mulmxA /a mulKVmx.
  have e2 : qf (invmx P) v = (v^T *m b) 0 0 by rewrite /qf /bf -mulmxA.
  by rewrite bfC pC.1 e1 e2 -[v^T *m b]tr11 (trmx_mul v^T b) trmxK.
have h2 := h.2 b; rewrite qfBm subr_ge0 eb in h2.
rewrite ea eab in h1; have := ler_add h1 h2; rewrite add0r.
rewrite mulr_natl mulr2n opprD !addrA => h3.
have h4 : qf C b <= (qf (invmx C) v - qf (invmx P) v) + qf C b by move: h3; rewrite addrAC subrK addrAC.
by move: h4; rewrite ler_addr subr_ge0.
Qed.
Lemma possemi_tr n (A : 'M[R]_n) : possemi A -> 0 <= \tr A.
Proof.
move=> [_ h]; apply: sumr_ge0 => i _; have := h (delta_mx i 0).
rewrite /qf bfE (bigD1 i) //= (bigD1 i) //= !mxE !eqxx mul1r mulr1 big1 ?addr0; last first.
  by move=> j hj; rewrite !mxE (negPf hj) mulr0.
rewrite big1 ?addr0 // => j hj; rewrite big1 // => l _; by rewrite !mxE (negPf hj) !mul0r.
Qed.
End Loewner.

(** ** natural parameters with the shape of the shift: (n,) or (n,n) *)
Section Vec.
Variable R : rcfType.
Variable illcond : forall n, 'M[R]_n -> bool.
Variable n : nat.
Hypothesis ic : forall A : 'M[R]_n, ~~ illcond A.
Notation nd := (nd R).
Notation gauss := (gauss R).

Inductive sft := Flat of 'cV[R]_n | Wide of 'M[R]_n.
Definition nds (a : sft) : nd := match a with Flat v => Nd1 v | Wide M => Nd2 M end.
Definition wide_mx (a : sft) : 'M[R]_n := match a with Flat v => rowb v | Wide M => M end.
Definition isflat (a : sft) : bool := if a is Flat _ then true else false.
Definition sop (op : forall m, 'M[R]_(n, m) -> 'M[R]_(n, m) -> 'M[R]_(n, m)) (a b : sft) : sft :=
  match a, b with Flat v, Flat w => Flat (op _ v w) | _, _ => Wide (op _ (wide_mx a) (wide_mx b)) end.
Definition sadd := sop (fun m => +%R).
Definition ssub := sop (fun m A B => A - B).
Definition szero : sft := Flat 0.
Definition sscale c (a : sft) : sft := match a with Flat v => Flat (c *: v) | Wide M => Wide (c *: M) end.
Definition slin (J : 'M[R]_n) (a : sft) : sft := match a with Flat v => Flat (J *m v) | Wide M => Wide (J *m M) end.
Lemma nds_least a : natleast1 (nds a) = nds a. Proof. by case: a. Qed.
Lemma nds_scale c a : nscale c (nds a) = nds (sscale c a). Proof. by case: a. Qed.
Lemma nadd_nds a b : nadd (nds a) (nds b) = Ok (nds (sadd a b)).
Proof.
by case: a; case: b => B A; rewrite /= ?naddvv ?naddmm // /nadd ?bop_vm ?bop_mv; congr (Ok (Nd2 _)); apply/matrixP=> i j;
  rewrite !mxE.
Qed.
Lemma nsub_nds a b : nsub (nds a) (nds b) = Ok (nds (ssub a b)).
Proof.
by case: a; case: b => B A; rewrite /= ?nsubvv ?nsubmm // /nsub ?bop_vm ?bop_mv; congr (Ok (Nd2 _)); apply/matrixP=> i j;
  rewrite !mxE.
Qed.
Lemma ndot_nds J a : ndot (Nd2 J) (nds a) = Ok (nds (slin J a)).
Proof. by case: a => A; rewrite /= ?ndotmv ?ndotmm. Qed.
Lemma nmatmul_nds J a : nmatmul (Nd2 J) (nds a) = Ok (nds (slin J a)).
Proof. by case: a => A; rewrite /= ?nmatmulmv ?nmatmulmm. Qed.
Lemma flat_add a b : isflat (sadd a b) = isflat a && isflat b. Proof. by case: a; case: b. Qed.
Lemma flat_sub a b : isflat (ssub a b) = isflat a && isflat b. Proof. by case: a; case: b. Qed.
Lemma flat_scale c a : isflat (sscale c a) = isflat a. Proof. by case: a. Qed.
Lemma flat_lin J a : isflat (slin J a) = isflat a. Proof. by case: a. Qed.
Lemma slinK J a : J \in unitmx -> slin J (slin (invmx J) a) = a.
Proof. by move=> u; case: a => A /=; rewrite mulKVmx. Qed.

Definition big (L : 'M[R]_n) : Prop := posdef L /\ trace_min R <= \tr L.
Definition nvs (g : gauss) (L : 'M[R]_n) (a : sft) : Prop :=
  [/\ g_precision illcond g = Ok (Nd2 L), g_shift illcond g = Ok (nds a), L^T = L &
    big L -> g_mean illcond g = Ok (nds (slin (invmx L) a)) /\ g_cov illcond g = Ok (Nd2 (invmx L))].
Lemma nvs_nat (L : 'M[R]_n) a : L^T = L -> nvs (Nat (Nd2 L) (nds a)) L a.
Proof.
move=> sL; split=> //= -[pL hL].
have e : natural_to_moment illcond (Nd2 L) (nds a) = do mean <- ndot (Nd2 (invmx L)) (nds a); Ok (mean, Nd2 (invmx L)).
  rewrite /natural_to_moment bindE ntraceE bindE ltNge hL /= sp_solve_pos_pd //= bindE symmetrize_inv ?pL.1 // bindE.
by rewrite e ndot_nds !bindE.
Qed.
Lemma nvs_mom a (P : 'M[R]_n) : posdef P -> nvs (gaussian (nds a) (Nd2 P)) (invmx P) (slin (invmx P) a).
Proof.
move=> pP; have e : moment_to_natural illcond (natleast1 (nds a)) (Nd2 P) = Ok (Nd2 (invmx P), nds (slin (invmx P) a)).
  rewrite /moment_to_natural bindE /= sp_solve_pos_pd //= bindE symmetrize_inv ?pP.1 // bindE nds_least.
  by rewrite nmatmul_nds bindE.
split; rewrite /= ?e ?bindE ?(sym_inv pP.1) // => _.
by rewrite invmxK slinK ?posdef_unit // nds_least.
Qed.
Lemma from_nvs (L : 'M[R]_n) a : L^T = L -> nvs (from_natural (Nd2 L) (nds a)) L a.
Proof. by rewrite /from_natural nds_least; exact: nvs_nat. Qed.
Lemma nvs_mul g g' L L' a a' : nvs g L a -> nvs g' L' a' -> exists2 c, gmul illcond g g' = Ok c & nvs c (L + L') (sadd a a').
Proof.
move=> [p1 s1 t1 _] [p2 s2 t2 _]; have t : (L + L')^T = L + L' by rewrite linearD /= t1 t2.
rewrite /gmul p1 bindE p2 bindE naddmm bindE symmetrize_sym // bindE s1 bindE s2 bindE.
by rewrite nadd_nds bindE; eexists; first reflexivity; exact: from_nvs.
Qed.
Lemma nvs_div g g' L L' a a' : nvs g L a -> nvs g' L' a' -> exists2 c, gdiv illcond g g' = Ok c & nvs c (L - L') (ssub a a').
Proof.
move=> [p1 s1 t1 _] [p2 s2 t2 _]; have t : (L - L')^T = L - L' by rewrite linearB /= t1 t2.
rewrite /gdiv p1 bindE p2 bindE nsubmm bindE s1 bindE s2 bindE.
by rewrite nsub_nds bindE; eexists; first reflexivity; exact: from_nvs.
Qed.
Lemma nvs_pow g L a p : nvs g L a -> exists2 c, gpow illcond g p = Ok c & nvs c (p *: L) (sscale p a).
Proof.
move=> [p1 s1 t1 _]; rewrite /gpow p1 bindE s1 bindE; eexists; first reflexivity.
by rewrite nds_scale; apply: from_nvs; rewrite linearZ /= t1.
Qed.
Lemma nvs_factor : nvs (as_factor n) 0 szero.
Proof. by apply: (@nvs_nat 0 szero); rewrite trmx0. Qed.
Lemma nvs_marginal : nvs (as_marginal n) ((trace_min R)%:M) szero.
Proof.
have := nvs_mom szero (posdefZ1 n (large_gt0 R)).
by rewrite /= mulmx0 scalemx1 invmx_scalar -[_^-1]/(trace_min R) -scalemx1.
Qed.
Lemma nvs_valid g L a : nvs g L a -> big L -> gvalidate illcond g = Ok tt.
Proof.
move=> [_ _ _ h] hb; have [_ h2] := h hb; rewrite /gvalidate h2 bindE; have := posdef_inv hb.1 => pP.
by apply/validate_covP => //; exact: pP.1.
Qed.
Lemma big_base : (0 < n)%N -> big (trace_min R)%:M.
Proof.
move=> n0; split; first by rewrite -scalemx1; apply: posdefZ1; exact: trace_min_gt0.
by rewrite mxtrace_scalar -[X in X <= _]mulr1n ler_pmuln2l // trace_min_gt0.
Qed.
Lemma big_add (L D : 'M[R]_n) : big L -> possemi D -> big (L + D).
Proof.
move=> [pL hL] hD; split; first exact: posdefD.
by rewrite mxtraceD; apply: le_trans hL _; rewrite ler_addl possemi_tr.
Qed.
(** reading the moments *)
Definition momf (g : gauss) (P : 'M[R]_n) (a : sft) : Prop :=
  g_mean illcond g = Ok (nds a) /\ g_cov illcond g = Ok (Nd2 P).
Lemma nvs_momf g L a : nvs g L a -> big L -> momf g (invmx L) (slin (invmx L) a).
Proof. by move=> [_ _ _ h] /h. Qed.
End Vec.

(** ** the two steps of the estimator *)
Section Steps.
Variable R : rcfType.
Variable illcond : forall n, 'M[R]_n -> bool.
Variable n : nat.
Hypothesis ic : forall A : 'M[R]_n, ~~ illcond A.
Variable W : Type.
Notation nd := (nd R).
Notation gauss := (gauss R).
Notation dfun := (dfun R).
Notation transform := (transform R W).
Notation nvs := (@nvs R illcond n).
Notation big := (@big R n).

(** at a state with a vector mean the transform returns arrays of the usual shapes, or raises *)
Definition shaped (T : transform) (F : dfun) k : Prop := forall g (m : 'cV[R]_n) P w w' mo, momp illcond g m P -> posdef P ->
  T F g w = (w', Ok mo) -> exists a (v : 'cV[R]_k) (C : 'M[R]_k) (X : 'M[R]_(n, k)), mo = (a, Nd2 C, Nd2 X) /\ natleast1 a = Nd1 v.
(** at a state whose mean is a square array the transform raises something else than LinAlgError *)
Definition rejects (T : transform) (F : dfun) (er : err) : Prop := er != LinAlgErr /\ forall g (M P : 'M[R]_n) w,
  g_mean illcond g = Ok (Nd2 M) -> g_cov illcond g = Ok (Nd2 P) -> posdef P -> exists w', T F g w = (w', Err er).

Lemma chol_pd k (A : 'M[R]_k) L : A^T = A -> np_cholesky (Nd2 A) = Ok L -> posdef A.
Proof.
move=> sA; rewrite /np_cholesky eqxx conform_mx_id => h; apply/chol_posdef => //; by case: chol h.
Qed.
Lemma time_step_flat (Q C : 'M[R]_n) p a (v : 'cV[R]_n) X s : 0 < p -> natleast1 a = Nd1 v ->
  time_step (Nd2 Q) p (a, Nd2 C, X) = Ok s -> exists2 V : 'M[R]_n, s = gaussian (Nd1 v) (Nd2 V) & posdef V.
Proof.
move=> p0 ha; rewrite /time_step niaddmm bindE ndivs_ok ?gt_eqF // bindE /= symmetrizeE bindE.
case E: np_cholesky => [L|] //; rewrite bindE => -[<-]; eexists; last exact: chol_pd (sympart_sym _) E.
by rewrite /gaussian ha.
Qed.
Lemma meas_step_wide k (Rm : nd) p g (m : 'cV[R]_n) (P : 'M[R]_n) (y za : nd) (Z : 'M[R]_k) (X : 'M[R]_(n, k)) s :
  momp illcond g m P -> P^T = P -> meas_step illcond Rm p g y (za, Nd2 Z, Nd2 X) = Ok s ->
  exists (M C : 'M[R]_n), [/\ s = gaussian (Nd2 M) (Nd2 C), C^T = C & possemi (P - C)].
Proof.
move=> [hm hP] sP; rewrite /meas_step; case: ndivs => [r|] //; rewrite bindE.
case E1: niadd => [c1|] //; have [Z1 ->] := niadd_shape E1; rewrite bindE symmetrizeE bindE.
case E: np_cholesky => [L|] //; have pZ := chol_pd (sympart_sym _) E; rewrite bindE.
case E2: np_solve => [kt|] //; rewrite (np_solve_shape E2) bindE hm bindE.
case: nsub => [dv|] //; rewrite bindE; have [q [v ->]] := nreshape_shape dv.
case E3: nmatmul => [u|] //; have [w ->] := nmatmul_shape E3; rewrite bindE.
have vm : is_vec (Nd1 m) m by left.
rewrite (nadd_outer w vm) bindE hP bindE /=.
set K := (_ *m _)^T; have eK : K = X *m invmx (sympart Z1) by rewrite /K trmx_mul trmxK (sym_inv pZ.1).
rewrite nmatmulmm bindE nsubmm bindE.
have sC : (P - K *m X^T)^T = P - K *m X^T by rewrite linearB /= sP eK !trmx_mul trmxK (sym_inv pZ.1) mulmxA.
rewrite symmetrize_sym // bindE => -[<-].
exists (outer_add m w), (P - K *m X^T); split=> //; rewrite subKr eK.
by apply: possemi_congr; apply: posdef_semi; exact: posdef_inv.
Qed.
End Steps.

(** ** update calls on a chain that was just built *)
Section Chain.
Variable R : rcfType.
Variable illcond : forall n, 'M[R]_n -> bool.
Variable n : nat.
Hypothesis ic : forall A : 'M[R]_n, ~~ illcond A.
Hypothesis n0 : (0 < n)%N.
Variable W : Type.
Notation nd := (nd R).
Notation gauss := (gauss R).
Notation dfun := (dfun R).
Notation transform := (transform R W).
Notation nvs := (@nvs R illcond n).
Notation big := (@big R n).
Notation node := (node gauss R dfun dfun nd W).
Notation heap := (heap gauss R dfun dfun nd W).
Notation state := (state gauss R dfun dfun nd W).
Notation do_ev := (@do_ev gauss R dfun dfun nd W (gmul illcond) (gdiv illcond) (gpow illcond)
  (gvalidate illcond) (@r_one_over R) (@r_one_minus R) (@r_sdiv R)).
Notation run := (@run gauss R dfun dfun nd W (gmul illcond) (gdiv illcond) (gpow illcond)
  (gvalidate illcond) (@r_one_over R) (@r_one_minus R) (@r_sdiv R)).
Notation fwd_cav := (@fwd_cav gauss R dfun dfun nd W (gdiv illcond) (gpow illcond) (@r_one_over R)).
Variables (tm mm : transform) (p dm : R) (Q : 'M[R]_n) (Rm : nd).
Hypothesis p0 : 0 < p.
Hypothesis d0 : 0 <= dm.
Let e := mk_estimator illcond tm mm (Nd2 Q) Rm p dm.
Lemma over_p : r_one_over p = Ok p^-1. Proof. by rewrite /r_one_over gt_eqF. Qed.
Lemma div_p : r_sdiv dm p = Ok (dm / p). Proof. by rewrite /r_sdiv gt_eqF. Qed.

Definition flat_marg (x : node) : Prop := exists L v, nvs (n_marg x) L (Flat v) /\ big L.
Definition wide_marg (x : node) : Prop := exists L M, nvs (n_marg x) L (Wide M) /\ big L.

Lemma Ok_eq A (x : res A) a b : x = Ok a -> x = Ok b -> a = b. Proof. by move=> -> []. Qed.

Lemma fwd_ev (h : heap) i w x F : lookup h i = Some x ->
  (forall c, fwd_cav h x c -> exists (m : 'cV[R]_n) P, momp illcond c m P /\ posdef P) ->
  n_trans x = Some F -> shaped illcond n tm F n -> kwval (n_ufwd x) None = Some (e_trans e) ->
  n_power x = Some p -> n_damp x = Some dm -> n_fwd x = as_factor n -> n_marg x = as_marginal n ->
  let st' := (do_ev (Fwd i) (h, w)).1 in
  exists f mg, [/\ lookup st'.1 i = Some (set_fwd f mg x), flat_marg (set_fwd f mg x) & forall j, j != i -> lookup st'.1 j = lookup h j].
Proof.
move=> hx hc hF hT hu hp hd hf hm st'.
have /= := ev_outcome (gmul illcond) (gdiv illcond) (gpow illcond) (gvalidate illcond) (@r_one_over R) (@r_one_minus R) (@r_sdiv R) (Fwd i) (h, w).
case=> [E|[x' [f [m [h1 _ E hcm]]]]].
  exists (n_fwd x), (n_marg x); rewrite /st' /= E; split=> //; first by rewrite hx; case: (x).
  by exists (trace_min R)%:M, 0; split; [rewrite /= hm; exact: nvs_marginal|exact: big_base].
move: h1; rewrite hx => -[e1]; subst x'.
exists f, m; rewrite /st' /= E; split; [by rewrite lookup_update eqxx hx| |by move=> j /negPf hj; rewrite lookup_update hj].
case: hcm => s [dm' [p' [om [ip [f1 [f2 [q [qp [[hs _ _] [h1 h2] [h3 h4] [h5 h6 h7] [h8 h9 h10]]]]]]]]]].
move: h1 h2; rewrite hd hp => -[e1] [e2]; subst dm' p'.
have := h3; rewrite /r_one_minus => -[e3]; subst om; have e4 := Ok_eq over_p h4; subst ip.
case: hs => pr [c [w1 [w2 [k1 k2 k3]]]]; move: k1; rewrite hu => -[e5]; subst pr.
have [mc [Pc [hmc pPc]]] := hc c k2.
move: k3; rewrite hF /= /proj_trans /andthen; case ET: tm => [w3 [mo|er]] //= [_ hs].
have [a [v [C [X [emo ha]]]]] := hT _ _ _ _ _ _ hmc pPc ET; rewrite emo bindE in hs.
have [V es pV] := time_step_flat p0 ha hs.
have ns := nvs_mom ic (Flat v) pV; rewrite -[nds (Flat v)]/(Nd1 v) -es in ns.
have [g1 i1 v1] := nvs_pow ic (1 - dm) (nvs_factor ic); have [g2 i2 v2] := nvs_pow ic dm ns.
rewrite hf in h5 h8; have ? := Ok_eq i1 h5; have ? := Ok_eq i2 h6; subst g1 g2.
have [g3 i3 v3] := nvs_mul ic v1 v2; have ? := Ok_eq i3 h7; subst g3.
have [g4 i4 v4] := nvs_div ic v3 (nvs_factor ic); have ? := Ok_eq i4 h8; subst g4.
have [g5 i5 v5] := nvs_pow ic p^-1 v4; have ? := Ok_eq i5 h9; subst g5.
rewrite hm in h10; have [g6 i6 v6] := nvs_mul ic (nvs_marginal ic) v5; have ? := Ok_eq i6 h10; subst g6.
do 2!eexists; split; first exact: v6.
apply: big_add; first exact: big_base.
rewrite scaler0 add0r subr0; apply: possemiZ; first by rewrite invr_ge0 ltW.
apply: possemiZ => //.
by apply: posdef_semi; exact: posdef_inv.
Qed.

Lemma meas_ev (h : heap) i w x H k : lookup h i = Some x ->
  n_measf x = Some H -> shaped illcond n mm H k -> kwval (n_umeas x) None = Some (e_meas e) ->
  n_power x = Some p -> n_damp x = Some dm -> n_meas x = as_factor n -> flat_marg x ->
  let st' := (do_ev (Meas i) (h, w)).1 in
  st'.1 = h \/ exists f mg, [/\ lookup st'.1 i = Some (set_meas f mg x), wide_marg (set_meas f mg x) &
    forall j, j != i -> lookup st'.1 j = lookup h j].
Proof.
move=> hx hH hT hu hp hd hf [L [sv [nm bL]]] st'.
have /= := ev_outcome (gmul illcond) (gdiv illcond) (gpow illcond) (gvalidate illcond) (@r_one_over R) (@r_one_minus R) (@r_sdiv R) (Meas i) (h, w).
case=> [E|[x' [f [m [h1 _ E hcm]]]]]; first by left.
move: h1; rewrite hx => -[e1]; subst x'; right.
exists f, m; rewrite /st' /= E; split; [by rewrite lookup_update eqxx hx| |by move=> j /negPf hj; rewrite lookup_update hj].
case: hcm => s [dm' [p' [dp [r [rd [rp [[hs hv _] [h1 h2] h3 [h4 h5 h6] [h7 h8]]]]]]]].
move: h1 h2; rewrite hd hp => -[e1] [e2]; subst dm' p'.
have e3 := Ok_eq div_p h3; subst dp.
case: hs => pr [c [y [w1 [w2 [k1 _ k2 k3]]]]]; move: k1; rewrite hu => -[e5]; subst pr.
rewrite hf in k2; have [c' i0 vc] := nvs_div ic nm (nvs_factor ic); have ? := Ok_eq i0 k2; subst c'.
rewrite subr0 in vc; have [hmc hPc] := nvs_momf vc bL.
have pP := posdef_inv bL.1; set P := invmx L in pP hmc hPc.
move: k3; rewrite hH /= /proj_meas; case: bind => // _; rewrite /andthen; case ET: mm => [w3 [mo|er]] //= [_ hs].
have hmo : momp illcond c (P *m (sv - 0)) P by [].
have [a [v [C [X [emo ha]]]]] := hT _ _ _ _ _ _ hmo pP ET; rewrite emo bindE in hs.
have [M [V [es sV dV]]] := meas_step_wide hmo pP.1 hs.
have pV : posdef V by apply/validate_covP => //; move: hv; rewrite es /gvalidate bindE.
have ns := nvs_mom ic (Wide M) pV; rewrite -[nds (Wide M)]/(Nd2 M) -es in ns.
have [g1 i1 v1] := nvs_div ic ns nm; have ? := Ok_eq i1 h4; subst g1.
have [g2 i2 v2] := nvs_pow ic (dm / p) v1; have ? := Ok_eq i2 h7; subst g2.
have [g3 i3 v3] := nvs_mul ic nm v2; have ? := Ok_eq i3 h8; subst g3.
do 2!eexists; split; first exact: v3.
apply: big_add => //; apply: possemiZ; first by rewrite divr_ge0 // ltW.
have := inv_antitone pP pV dV; by rewrite /P invmxK.
Qed.

Lemma fwd_reject (h : heap) w x i x' F er : lookup h i = Some x -> lookup h i.+1 = Some x' -> n_prev x' = Some i ->
  n_trans x' = Some F -> rejects illcond n tm F er -> n_power x' = Some p -> kwval (n_ufwd x') None = Some (e_trans e) ->
  n_back x = as_factor n -> wide_marg x -> exists w', do_ev (Fwd i.+1) (h, w) = ((h, w'), Err er).
Proof.
move=> hx hx' hpv hF [her hr] hp hu hb [L [M [nm bL]]].
have [b e1 v1] := nvs_pow ic p^-1 (nvs_factor ic); have [g e2 v2] := nvs_div ic nm v1.
rewrite scaler0 subr0 in v2; have [hm hP] := nvs_momf v2 bL.
have [w' hw] := hr _ _ _ w hm hP (posdef_inv bL.1).
have es : e_trans e (Some F) g w = (w', Err er) by rewrite /= /proj_trans /andthen hw.
exists w'; move: es hu; move: (e_trans e) => pe es hu.
rewrite /= /call_fwd /mbind /get /= hx' hu /fwd_update /mbind /get /= hx' /fwd_cavity /mtry /mbind /lift /get /= hpv /= hx hp /= over_p hb e1 e2.
rewrite /fwd_project /mtry /mbind /mworld /lift /ret hF.
by rewrite -[(h, w).2]/w es (negPf her).
Qed.
End Chain.

(** ** the forward pass *)
Section Pass.
Variable R : rcfType.
Variable illcond : forall n, 'M[R]_n -> bool.
Variable n : nat.
Hypothesis ic : forall A : 'M[R]_n, ~~ illcond A.
Hypothesis n0 : (0 < n)%N.
Variable W : Type.
Notation nd := (nd R).
Notation gauss := (gauss R).
Notation dfun := (dfun R).
Notation transform := (transform R W).
Notation node := (node gauss R dfun dfun nd W).
Notation heap := (heap gauss R dfun dfun nd W).
Notation state := (state gauss R dfun dfun nd W).
Notation flat_marg := (@flat_marg R illcond n W).
Notation wide_marg := (@wide_marg R illcond n W).
Notation do_ev := (@do_ev gauss R dfun dfun nd W (gmul illcond) (gdiv illcond) (gpow illcond)
  (gvalidate illcond) (@r_one_over R) (@r_one_minus R) (@r_sdiv R)).
Notation run := (@run gauss R dfun dfun nd W (gmul illcond) (gdiv illcond) (gpow illcond)
  (gvalidate illcond) (@r_one_over R) (@r_one_minus R) (@r_sdiv R)).
Variables (Kw T Y0 : Type) (t_zero : T) (tadd : T -> T -> T) (kw_tu0 : T -> Kw) (squeeze : Y0 -> nd).
Notation system := (system gauss dfun dfun Kw T).
Notation kw_at := (kw_at t_zero tadd kw_tu0).
Variables (tm mm : transform) (p dm : R) (Q : 'M[R]_n) (Rm : nd).
Let e := mk_estimator illcond tm mm (Nd2 Q) Rm p dm.
Variables (N k : nat) (sy : system) (ys : seq Y0) (fa : option (seq Kw)) (kws : nat -> Kw) (y0 : Y0) (w : W).
Hypothesis hN : (1 < N)%N.
Hypothesis hys : size ys = N.
Hypothesis hkw : forall i, (i < N)%N -> kw_at fa (sy_dt sy) i = Some (kws i).
Definition built : state := (node_system t_zero tadd kw_tu0 squeeze (iota 0 N) sy ys fa
    (@build_nodes gauss R dfun dfun nd W (@as_factor R) (@as_marginal R) 1 Kw T N n (Some e) None ([::], w)).1).1.
(** what no update call changes *)
Definition static (i : nat) (x : node) : Prop :=
  [/\ n_prev x = (if i is i'.+1 then Some i' else None),
      [/\ n_trans x = Some (sy_trans sy (kws i)), n_measf x = Some (sy_meas sy), n_y x = Some (squeeze (nth y0 ys i)) &
        n_prior x = if i is 0%N then Some (sy_init sy) else None],
      n_power x = Some p /\ n_damp x = Some dm &
      [/\ kwval (n_ufwd x) None = Some (e_trans e), kwval (n_umeas x) None = Some (e_meas e) &
          kwval (n_uback x) None = Some (e_back e)]].
Definition fresh (x : node) : Prop :=
  [/\ n_marg x = as_marginal n, n_fwd x = as_factor n, n_meas x = as_factor n & n_back x = as_factor n].
Lemma built_fresh i : (i < N)%N -> exists x, [/\ lookup built.1 i = Some x, static i x & fresh x].
Proof.
rewrite /built.
have := @build_nodes_spec gauss R dfun dfun nd W (@as_factor R) (@as_marginal R) 1 Kw T N n (Some e) None [::] w hN.
case: build_nodes => -[h w'] r /= [_ hs _ _ hb].
have an : all (fun j => j < size (h, w').1)%N (iota 0 N) by apply/allP=> j; rewrite mem_iota hs !add0n.
have := @node_system_spec gauss R dfun dfun nd W Kw T Y0 t_zero tadd kw_tu0 squeeze (iota 0 N) sy ys fa (h, w') (iota_uniq _ _) an.
case: node_system => -[h1 w1] r1 /= [_ _ _ hl _] hi.
have hfa : (N <= if fa is Some l then size l else size ys)%N.
  have hp : (N.-1 < N)%N by rewrite prednK // ltnW.
  have := hkw hp; rewrite /NodesFacts.kw_at; case: (fa) => [l|_]; last by rewrite hys.
  rewrite leqNgt => hd; apply/negP => hlt; move: hd; rewrite drop_oversize //.
  by rewrite -ltnS prednK // ltnW.
have hn : minn (size (iota 0 N)) (minn (size ys) (if fa is Some l then size l else size ys)) = N.
  by move: hfa; rewrite size_iota hys => hfa; rewrite (minn_idPl hfa) minnn.
have hy : ohead (drop i ys) = Some (nth y0 ys i) by rewrite (drop_nth y0) ?hys.
have := hl i _ _ _ _ (etrans _ (hb i hi)) hy (hkw hi); rewrite hn nth_iota // !add0n => /(_ hi erefl) h2.
eexists; split; first exact: h2.
  by rewrite /static; case: i hi {hy h2} => [|i] hi /=; split.
by rewrite /fresh; case: i hi {hy h2} => [|i] hi /=.
Qed.

Hypothesis p0 : 0 < p.
Hypothesis d0 : 0 <= dm.
Variables (m0 : 'cV[R]_n) (P0 : 'M[R]_n).
Hypothesis hinit : momp illcond (sy_init sy) m0 P0.
Hypothesis pP0 : posdef P0.
Hypothesis hf : forall i, (i < N)%N -> shaped illcond n tm (sy_trans sy (kws i)) n.
Hypothesis hh : shaped illcond n mm (sy_meas sy) k.
Variable er : err.
Hypothesis hrej : forall i, (i < N)%N -> rejects illcond n tm (sy_trans sy (kws i)) er.

(** the forward pass has reached node [i]; nothing has been measured yet *)
Definition reached (i : nat) (h : heap) : Prop := forall j, (j < N)%N -> exists x,
  [/\ lookup h j = Some x, static j x, n_meas x = as_factor n /\ n_back x = as_factor n &
      if (j < i)%N then flat_marg x else fresh x].

Lemma cav_flat i h x : (i < N)%N -> reached i h -> lookup h i = Some x -> static i x ->
  forall c, @fwd_cav gauss R dfun dfun nd W (gdiv illcond) (gpow illcond) (@r_one_over R) h x c ->
  exists (m : 'cV[R]_n) P, momp illcond c m P /\ posdef P.
Proof.
move=> hi hr hx [hpv [_ _ _ hpr] [hp _] _] c [[j [x' [pw [ip [bf [[h1 h2] h3 h4 h5 h6]]]]]]|h1]; last first.
  by move: h1; rewrite hpr; case: i {hi hr hpv hx hpr} => // -[<-]; exists m0, P0.
case: i hi hr hpv hx hpr h1 => [|i] hi hr hpv hx hpr h1; first by rewrite hpv in h1.
have ? : j = i by move: h1; rewrite hpv => -[].
subst j; have [x2 [k1 k2 [k3 k4] k5]] := hr i (ltnW hi); move: h2; rewrite k1 => -[e2]; subst x2.
move: k5; rewrite ltnSn => -[L [v [nm bL]]].
have [g1 i1 v1] := nvs_pow ic ip (nvs_factor ic); rewrite k4 in h5; have ? := Ok_eq i1 h5; subst g1.
have [g2 i2 v2] := nvs_div ic nm v1; have ? := Ok_eq i2 h6; subst g2.
rewrite scaler0 subr0 in v2; have [q1 q2] := nvs_momf v2 bL.
by do 2!eexists; split; [split; [exact: q1|exact: q2]|exact: posdef_inv bL.1].
Qed.

Lemma fwd_reached i h w1 : (i < N)%N -> reached i h ->
  let st := (do_ev (Fwd i) (h, w1)).1 in reached i.+1 st.1.
Proof.
move=> hi hr st; have [x [hx sx [z1 z2] fx]] := hr i hi; move: fx; rewrite ltnn => -[f1 f2 f3 f4].
have cf := cav_flat hi hr hx sx; have [s1 [s2 s3 s4 s5] [s6 s7] [s8 s9 s10]] := sx.
have [f [mg [a1 a2 a3]]] := fwd_ev ic n0 p0 d0 w1 hx cf s2 (hf hi) s8 s6 s7 f2 f1.
move=> j hj; case: (eqVneq j i) => [->|ne].
  by exists (set_fwd f mg x); split=> //; rewrite ltnSn.
have [x' [b1 b2 b3 b4]] := hr j hj; exists x'; split=> //; first by rewrite a3.
by rewrite ltnS leq_eqVlt (negPf ne).
Qed.

Lemma run_cons ev0 evs st : run (ev0 :: evs) st =
  match do_ev ev0 st with (st', Ok _) => run evs st' | (st', Err er) => (st', Err er) end.
Proof. by []. Qed.

Lemma pass_unmeasured c i h w1 st : (i + c = N)%N -> reached i h -> run (filter_events (iota i c)) (h, w1) = (st, Ok tt) ->
  forall j, (j < N.-1)%N -> exists x, [/\ lookup st.1 j = Some x, n_meas x = as_factor n & flat_marg x].
Proof.
elim: c i h w1 => [|c IH] i h w1 hic hr.
  move=> -[<-] j hj; have hjN : (j < N)%N by apply: leq_trans hj _; exact: leq_pred.
  have [x [h1 h2 [h3 h4] h5]] := hr j hjN; exists x; split=> //.
  by move: h5; have -> : (j < i)%N by rewrite -[i]addn0 hic.
have hi : (i < N)%N by rewrite -hic -addSnnS leq_addr.
rewrite -[filter_events _]/(Fwd i :: Meas i :: filter_events (iota i.+1 c)) run_cons.
have hr0 := fwd_reached w1 hi hr; case: do_ev hr0 => -[h1 w2] [[]|?] hr0; last by [].
have {hr0}hr1 : reached i.+1 h1 := hr0; rewrite run_cons.
have [x [hx sx [z1 z2] fx]] := hr1 i hi; rewrite ltnSn in fx.
have [s1 [s2 s3 s4 s5] [s6 s7] [s8 s9 s10]] := sx.
have hm := meas_ev ic p0 d0 w2 hx s3 hh s9 s6 s7 z1 fx.
case: do_ev hm => -[h2 w3] [[]|?]; last by [].
case=> [/= ->|[f [mg /= [a1 a2 a3]]]].
  by apply: IH; rewrite ?addSnnS.
case: c hic {IH} => [|c] hic.
  move=> -[<-] j hj; have ei : N.-1 = i by rewrite -hic addn1.
  have nj : j != i by rewrite neq_ltn -ei hj.
  have [x' [h3 h4 [h5 h6] h7]] := hr1 j (leq_trans hj (leq_pred _)); exists x'; rewrite a3 //; split=> //.
  by move: h7; rewrite ltnS -ei (ltnW hj).
have hi1 : (i.+1 < N)%N by rewrite -hic addnS ltnS -addSnnS leq_addr.
have [x' [h3 [b1 [b2 _ _ _] [b6 _] [b8 _ _]] _ _]] := hr1 i.+1 hi1.
have ne : i.+1 != i by rewrite neq_ltn ltnSn orbT.
have l1 : lookup h2 i.+1 = Some x' by rewrite a3.
have [w' E] := fwd_reject ic p0 w3 a1 l1 b1 b2 (hrej hi1) b6 b8 z2 a2.
by rewrite -[filter_events _]/(Fwd i.+1 :: Meas i.+1 :: filter_events (iota i.+2 c)) run_cons E.
Qed.

Theorem forward_pass st : run (filter_events (iota 0 N)) built = (st, Ok tt) ->
  forall j, (j < N.-1)%N -> exists x, [/\ lookup st.1 j = Some x, n_meas x = as_factor n & flat_marg x].
Proof.
have [h [w0 E]] : exists h w0, built = (h, w0) by case: built => h w0; exists h, w0.
rewrite E; apply: pass_unmeasured; first by rewrite add0n.
move=> j hj; have [x [h1 h2 h3]] := built_fresh hj; rewrite E in h1; exists x; split=> //.
by case: h3.
Qed.
End Pass.

(** ** with transforms that succeed the pass stops at the second node *)
Section Abort.
Variable R : rcfType.
Variable illcond : forall n, 'M[R]_n -> bool.
Variable n : nat.
Hypothesis ic : forall A : 'M[R]_n, ~~ illcond A.
Hypothesis n0 : (0 < n)%N.
Variable W : Type.
Notation nd := (nd R).
Notation gauss := (gauss R).
Notation dfun := (dfun R).
Notation transform := (transform R W).
Notation heap := (heap gauss R dfun dfun nd W).
Notation flat_marg := (@flat_marg R illcond n W).
Notation wide_marg := (@wide_marg R illcond n W).
Notation do_ev := (@do_ev gauss R dfun dfun nd W (gmul illcond) (gdiv illcond) (gpow illcond)
  (gvalidate illcond) (@r_one_over R) (@r_one_minus R) (@r_sdiv R)).
Variables (tm mm : transform) (p dm : R) (k : nat) (Q : 'M[R]_n) (Rm : 'M[R]_k).
Hypothesis p0 : 0 < p.
Hypothesis d0 : 0 <= dm.
Hypothesis pQ : posdef Q.
Hypothesis pR : posdef Rm.
Let e := mk_estimator illcond tm mm (Nd2 Q) (Nd2 Rm) p dm.

Notation fwd_cavity := (@fwd_cavity gauss R dfun dfun nd W (gdiv illcond) (gpow illcond) (@r_one_over R)).
Lemma fwd_ok (h : heap) i w x F (r : rule R n n) (m : 'cV[R]_n) P g : lookup h i = Some x -> fwd_cavity x (h, w) = ((h, w), Ok g) ->
  momp illcond g m P -> posdef P -> n_trans x = Some F -> follows illcond tm F r -> proper r Q ->
  n_power x = Some p -> n_damp x = Some dm -> kwval (n_ufwd x) None = Some (e_trans e) ->
  n_fwd x = as_factor n -> n_marg x = as_marginal n ->
  exists f mg w', do_ev (Fwd i) (h, w) = ((update h i (set_fwd f mg), w'), Ok tt) /\ flat_marg (set_fwd f mg x).
Proof.
move=> hx hcav hg pP hF hT hr hp hd hu hf hmg.
have [w' [a [eT ha]]] := hT _ _ _ w hg pP.
have [pC' _] := hr m P pP; set C0 := r_cov r m P in eT pC'.
have pC : posdef (p^-1 *: (C0 + Q)) by apply: posdefZ; rewrite ?invr_gt0.
set C := (_ *: _) in pC; set s := gaussian (Nd1 (r_mean r m P)) (Nd2 C).
have sC0 : C0^T = C0 by apply: (addIr Q); have := pC'.1; rewrite linearD /= pQ.1.
have es : e_trans e (Some F) g w = (w', Ok s).
  rewrite /= /proj_trans /andthen eT /= bindE.
  by rewrite (time_stepE _ p0 sC0 pQ.1 pC ha).
have ns := nvs_mom ic (Flat (r_mean r m P)) pC; rewrite -[gaussian _ _]/s in ns.
have gs : gvalidate illcond s = Ok tt by rewrite /gvalidate bindE; apply/validate_covP => //; exact: pC.1.
have [f1 e1 v1] := nvs_pow ic (1 - dm) (nvs_factor ic); have [f2 e2 v2] := nvs_pow ic dm ns.
have [f e3 v3] := nvs_mul ic v1 v2; have [q e4 v4] := nvs_div ic v3 (nvs_factor ic).
have [qp e5 v5] := nvs_pow ic p^-1 v4; have [mg e6 v6] := nvs_mul ic (nvs_marginal ic) v5.
set L := (_ + _) in v6; have hb : big L.
  apply: big_add; first exact: big_base.
  rewrite scaler0 add0r subr0; apply: possemiZ; first by rewrite invr_ge0 ltW.
  by apply: possemiZ => //; apply: posdef_semi; exact: posdef_inv.
exists f, mg, w'; split; last by exists L; eexists; split; [exact: v6|].
move: es hu; move: (e_trans e) => pe es hu.
rewrite /= /call_fwd /mbind /get /= hx hu /fwd_update {1}/mbind /get /= hx {1}/mbind hcav.
rewrite /fwd_project /mtry /mbind /mworld /lift /ret hF.
rewrite -[(h, w).2]/w es gs hd hp /= hf hmg e1 e2 e3 e4 (over_p p0) e5 e6 (nvs_valid v6 hb).
by [].
Qed.

Lemma fwd0 (h : heap) w x F (r : rule R n n) (m : 'cV[R]_n) P g : lookup h 0 = Some x -> n_prev x = None -> n_prior x = Some g ->
  momp illcond g m P -> posdef P -> n_trans x = Some F -> follows illcond tm F r -> proper r Q ->
  n_power x = Some p -> n_damp x = Some dm -> kwval (n_ufwd x) None = Some (e_trans e) ->
  n_fwd x = as_factor n -> n_marg x = as_marginal n ->
  exists f mg w', do_ev (Fwd 0) (h, w) = ((update h 0 (set_fwd f mg), w'), Ok tt) /\ flat_marg (set_fwd f mg x).
Proof.
move=> hx hpv hpr; apply: fwd_ok => //.
by rewrite /Nodes.fwd_cavity /mtry /mbind /lift /= hpv hpr.
Qed.

Lemma meas0 (h : heap) w x H (r : rule R n k) ya (y : 'cV[R]_k) : lookup h 0 = Some x -> n_measf x = Some H ->
  follows illcond mm H r -> proper r (p^-1 *: Rm) -> n_y x = Some ya -> natleast1 ya = Nd1 y ->
  n_power x = Some p -> n_damp x = Some dm -> kwval (n_umeas x) None = Some (e_meas e) ->
  n_meas x = as_factor n -> flat_marg x ->
  exists f mg w', do_ev (Meas 0) (h, w) = ((update h 0 (set_meas f mg), w'), Ok tt) /\ wide_marg (set_meas f mg x).
Proof.
move=> hx hH hT hr hy ey hp hd hu hf [L [sv [nm bL]]].
have [g eg ng] := nvs_div ic nm (nvs_factor ic); rewrite subr0 in ng.
have [hm hP] := nvs_momf ng bL; set P := invmx L in hm hP; have pP : posdef P := posdef_inv bL.1.
pose m : 'cV[R]_n := P *m (sv - 0); have hg : momp illcond g m P by [].
have [w' [a [eT ha]]] := hT _ _ _ w hg pP.
have [pZ pC] := hr m P pP; set Z := _ + _ in pZ pC; set C := P - _ in pC.
have es : exists M : 'M[R]_n, e_meas e (Some H) g ya w = (w', Ok (gaussian (Nd2 M) (Nd2 C))).
  exists (outer_add m (r_cross r m P *m invmx Z *m (y - r_mean r m P))); rewrite /= /proj_meas hP bindE; have := np_cholesky_ok pP; case: np_cholesky => //= Lc _.
  rewrite /andthen eT /= bindE ey.
  by rewrite (meas_stepE _ y p0 hg.1 (or_introl erefl) hP pP.1 ha pZ).
have [M {}es] := es; set s := gaussian _ _ in es.
have ns := nvs_mom ic (Wide M) pC; rewrite -[gaussian _ _]/s in ns.
have gs : gvalidate illcond s = Ok tt by rewrite /gvalidate bindE; apply/validate_covP => //; exact: pC.1.
have [rr e1 v1] := nvs_div ic ns nm; have [rd e2 v2] := nvs_pow ic dm v1.
have [f e3 v3] := nvs_mul ic (nvs_factor ic) v2; have [rp e4 v4] := nvs_pow ic (dm / p) v1.
have [mg e5 v5] := nvs_mul ic nm v4; set L' := (_ + _) in v5.
have hb : big L'.
  apply: big_add => //; apply: possemiZ; first by rewrite divr_ge0 // ltW.
  have dV : possemi (P - C) by rewrite /C subKr; apply: possemi_congr; apply: posdef_semi; exact: posdef_inv.
  by have := inv_antitone pP pC dV; rewrite /P invmxK.
exists f, mg, w'; split; last by exists L'; eexists; split; [exact: v5|].
move: es hu; move: (e_meas e) => pe es hu.
rewrite /= /call_meas /mbind /get /= hx hu /meas_update /mbind /get /= hx /lift hf eg /mtry hy /= /mworld /= hH.
rewrite es gs /power_update /mbind /lift hd hp /= e1 e2 e3 (div_p _ p0) e4 e5 (nvs_valid v5 hb).
by [].
Qed.
End Abort.

(** ** the transforms of the repository *)
Section Transforms.
Variable R : rcfType.
Variable illcond : forall n, 'M[R]_n -> bool.
Variable W : Type.
Variables (n : nat).
Variable draw : forall size n, 'cV[R]_n -> 'M[R]_n -> W -> W * 'M[R]_(size, n).
Notation ut alpha beta kappa := (pure_transform (W := W) (ut_transform illcond n alpha beta kappa)).
Notation mc := (mc_map illcond draw).

Lemma follows_shaped T (F : dfun R) k (r : rule R n k) : follows (W := W) illcond T F r -> shaped illcond n T F k.
Proof.
move=> h g m P w w' mo hg pP; have [w1 [a [-> ha]]] := h g m P w hg pP => -[_ <-].
by exists a, (r_mean r m P), (r_cov r m P), (r_cross r m P).
Qed.
Lemma ut_rejects alpha beta kappa F k (phi : 'cV[R]_n -> 'cV[R]_k) : n != 1%N -> 0 < alpha ^+ 2 * (n%:R + kappa) ->
  rowwise F phi -> rejects illcond n (ut alpha beta kappa) F ValueErr.
Proof.
move=> n1 pos hF; split=> // g M P w hm hP pP; exists w.
by rewrite /pure_transform (ut_reject beta n1 _ hF hm hP pP) // nplE.
Qed.
Lemma mc_rejects sz F : rejects illcond n (mc sz) F ValueErr.
Proof.
by split=> // g M P w hm hP pP; exists w; rewrite /mc_map /g_sample hm bindE hP bindE.
Qed.
Lemma mc_shaped sz F k (phi : 'cV[R]_n -> 'cV[R]_k) : rowwise F phi -> shaped illcond n (mc sz) F k.
Proof.
move=> hF g m P w w' mo [hm hP] pP; rewrite /mc_map /g_sample hm bindE hP bindE !eqxx /=.
case: draw => w1 X; rewrite /mc_transform hF bindE /nmean_rows; case: eqP => // _; rewrite bindE /sample_covariance /= eqxx.
case: ifP => // _; rewrite !bindE => -[_ <-].
by do 4!eexists.
Qed.
End Transforms.

(** ** whole sweeps *)
Section Sweep.
Variable R : rcfType.
Variable illcond : forall n, 'M[R]_n -> bool.
Variable n : nat.
Hypothesis ic : forall A : 'M[R]_n, ~~ illcond A.
Hypothesis n0 : (0 < n)%N.
Variable W : Type.
Notation nd := (nd R).
Notation gauss := (gauss R).
Notation dfun := (dfun R).
Notation transform := (transform R W).
Notation flat_marg := (@flat_marg R illcond n W).
Notation wide_marg := (@wide_marg R illcond n W).
Notation do_ev := (@do_ev gauss R dfun dfun nd W (gmul illcond) (gdiv illcond) (gpow illcond)
  (gvalidate illcond) (@r_one_over R) (@r_one_minus R) (@r_sdiv R)).
Notation run := (@run gauss R dfun dfun nd W (gmul illcond) (gdiv illcond) (gpow illcond)
  (gvalidate illcond) (@r_one_over R) (@r_one_minus R) (@r_sdiv R)).

(** backward updates leave the measurement factors alone *)
Lemma back_keeps l st j x : lookup st.1 j = Some x ->
  exists2 x', lookup (run [seq Back i | i <- l] st).1.1 j = Some x' & n_meas x' = n_meas x.
Proof.
elim: l st x => [|i l IH] st x hx; first by exists x.
rewrite map_cons run_cons.
have [x1 h1 e1] : exists2 x1, lookup (do_ev (Back i) st).1.1 j = Some x1 & n_meas x1 = n_meas x.
  have := ev_outcome (gmul illcond) (gdiv illcond) (gpow illcond) (gvalidate illcond) (@r_one_over R) (@r_one_minus R) (@r_sdiv R) (Back i) st.
  case=> [->|[x2 [f [m [h1 _ -> _]]]]]; first by exists x.
  rewrite lookup_update; case: eqP => [ej|_]; last by exists x.
  rewrite -[ev_node _]/i in h1 *; subst j; rewrite hx; by eexists.
case: do_ev h1 => st' [[]|er] h1; last by exists x1.
by have [x' h2 e2] := IH _ _ h1; exists x'; rewrite // e2 e1.
Qed.

Variables (Kw T Y0 : Type) (t_zero : T) (tadd : T -> T -> T) (kw_tu0 : T -> Kw) (squeeze : Y0 -> nd).
Notation system := (system gauss dfun dfun Kw T).
Notation kw_at := (kw_at t_zero tadd kw_tu0).
Variables (tm mm : transform) (p dm : R) (k : nat) (Q : 'M[R]_n) (Rm : 'M[R]_k).
Variables (N : nat) (sy : system) (ys : seq Y0) (fa : option (seq Kw)) (kws : nat -> Kw) (y0 : Y0) (w : W).
Notation built := (built illcond t_zero tadd kw_tu0 squeeze tm mm p dm Q (Nd2 Rm) N sy ys fa w).
Hypothesis hN : (1 < N)%N.
Hypothesis hys : size ys = N.
Hypothesis hkw : forall i, (i < N)%N -> kw_at fa (sy_dt sy) i = Some (kws i).
Hypothesis p0 : 0 < p.
Hypothesis d0 : 0 <= dm.
Hypothesis pQ : posdef Q.
Variables (m0 : 'cV[R]_n) (P0 : 'M[R]_n) (y : 'cV[R]_k) (r : rule R n n) (rz : rule R n k) (er : err).
Hypothesis hinit : momp illcond (sy_init sy) m0 P0.
Hypothesis pP0 : posdef P0.
Hypothesis hf : follows illcond tm (sy_trans sy (kws 0%N)) r.
Hypothesis hh : follows illcond mm (sy_meas sy) rz.
Hypothesis hpr : proper r Q.
Hypothesis hpz : proper rz (p^-1 *: Rm).
Hypothesis hrej : rejects illcond n tm (sy_trans sy (kws 1%N)) er.
Hypothesis hy : natleast1 (squeeze (nth y0 ys 0)) = Nd1 y.

Theorem aborts : exists st, [/\ forall l, run ([:: Fwd 0; Meas 0; Fwd 1] ++ l) built = (st, Err er),
  exists2 x, lookup st.1 0 = Some x & wide_marg x & forall j, j != 0%N -> lookup st.1 j = lookup built.1 j].
Proof.
have [x [a1 [a2 [a3 a4 a5 a6] [a7 a8] [a9 a10 a11]] [b1 b2 b3 b4]]] := @built_fresh R illcond n W Kw T Y0 t_zero tadd kw_tu0 squeeze tm mm p dm Q (Nd2 Rm)
  N sy ys fa kws y0 w hN hys hkw 0%N (ltnW hN).
have [x' [c1 [c2 [c3 _ _ _] [c7 _] [c9 _ _]] _]] := @built_fresh R illcond n W Kw T Y0 t_zero tadd kw_tu0 squeeze tm mm p dm Q (Nd2 Rm)
  N sy ys fa kws y0 w hN hys hkw 1%N hN.
have [h [w0 E]] : exists h w0, built = (h, w0) by case: built => h w0; exists h, w0.
rewrite E -[(h, w0).1]/h; rewrite E -[(h, w0).1]/h in a1 c1.
have [f [mg [w1 [e1 u1]]]] := fwd0 ic n0 p0 d0 pQ w0 a1 a2 a6 hinit pP0 a3 hf hpr a7 a8 a9 b2 b1.
set h1 := update _ _ _ in e1; have l1 : lookup h1 0 = Some (set_fwd f mg x) by rewrite lookup_update eqxx a1.
have [f2 [mg2 [w2 [e2 u2]]]] := meas0 ic p0 d0 w1 l1 a4 hh hpz a5 hy a7 a8 a10 b3 u1.
set h2 := update _ _ _ in e2; have l2 : lookup h2 0 = Some (set_meas f2 mg2 (set_fwd f mg x)) by rewrite lookup_update eqxx l1.
have l3 : lookup h2 1 = Some x' by rewrite lookup_update /= lookup_update.
have [w3 e3] := fwd_reject ic p0 w2 l2 l3 c2 c3 hrej c7 c9 b4 u2.
exists (h2, w3); split.
- by move=> l; rewrite -[_ ++ l]/(Fwd 0 :: Meas 0 :: Fwd 1 :: l) run_cons e1 run_cons e2 run_cons e3.
- by eexists; [exact: l2|].
- by move=> j /negPf hj; rewrite /= lookup_update hj lookup_update hj.
Qed.
End Sweep.

(** ** a pass whose measurement transform always fails returns *)
Section Skip.
Variable R : rcfType.
Variable illcond : forall n, 'M[R]_n -> bool.
Variable n : nat.
Hypothesis ic : forall A : 'M[R]_n, ~~ illcond A.
Hypothesis n0 : (0 < n)%N.
Variable W : Type.
Notation nd := (nd R).
Notation gauss := (gauss R).
Notation dfun := (dfun R).
Notation transform := (transform R W).
Notation heap := (heap gauss R dfun dfun nd W).
Notation flat_marg := (@flat_marg R illcond n W).
Notation do_ev := (@do_ev gauss R dfun dfun nd W (gmul illcond) (gdiv illcond) (gpow illcond)
  (gvalidate illcond) (@r_one_over R) (@r_one_minus R) (@r_sdiv R)).
Notation run := (@run gauss R dfun dfun nd W (gmul illcond) (gdiv illcond) (gpow illcond)
  (gvalidate illcond) (@r_one_over R) (@r_one_minus R) (@r_sdiv R)).
Notation fwd_cavity := (@fwd_cavity gauss R dfun dfun nd W (gdiv illcond) (gpow illcond) (@r_one_over R)).
Variables (Kw T Y0 : Type) (t_zero : T) (tadd : T -> T -> T) (kw_tu0 : T -> Kw) (squeeze : Y0 -> nd).
Notation system := (system gauss dfun dfun Kw T).
Notation kw_at := (kw_at t_zero tadd kw_tu0).
Variables (tm mm : transform) (p dm : R) (k : nat) (Q : 'M[R]_n) (Rm : 'M[R]_k).
Let e := mk_estimator illcond tm mm (Nd2 Q) (Nd2 Rm) p dm.
Variables (N : nat) (sy : system) (ys : seq Y0) (fa : option (seq Kw)) (kws : nat -> Kw) (y0 : Y0) (w : W).
Notation built := (built illcond t_zero tadd kw_tu0 squeeze tm mm p dm Q (Nd2 Rm) N sy ys fa w).
Notation static := (static (n := n) illcond squeeze tm mm p dm Q (Nd2 Rm) sy ys kws y0).
Notation reached := (reached (n := n) illcond squeeze tm mm p dm Q (Nd2 Rm) N sy ys kws y0).
Hypothesis hN : (1 < N)%N.
Hypothesis hys : size ys = N.
Hypothesis hkw : forall i, (i < N)%N -> kw_at fa (sy_dt sy) i = Some (kws i).
Hypothesis p0 : 0 < p.
Hypothesis d0 : 0 <= dm.
Hypothesis pQ : posdef Q.
Variables (m0 : 'cV[R]_n) (P0 : 'M[R]_n) (r : nat -> rule R n n).
Hypothesis hinit : momp illcond (sy_init sy) m0 P0.
Hypothesis pP0 : posdef P0.
Hypothesis hf : forall i, follows illcond tm (sy_trans sy (kws i)) (r i).
Hypothesis hpr : forall i, proper (r i) Q.
Hypothesis hm : forall F g w, mm F g w = (w, Err LinAlgErr).

Lemma cav_reached i h x w1 : (i < N)%N -> reached i h -> lookup h i = Some x -> static i x ->
  exists c (m : 'cV[R]_n) P, [/\ fwd_cavity x (h, w1) = ((h, w1), Ok c), momp illcond c m P & posdef P].
Proof.
move=> hi hr hx [hpv [_ _ _ hpi] [hp _] _]; case: i hi hr hpv hpi hx => [|i] hi hr hpv hpi hx.
  by exists (sy_init sy), m0, P0; split=> //; rewrite /Nodes.fwd_cavity /mtry /mbind /lift /= hpv hpi.
have [x' [k1 _ [_ k4] k5]] := hr i (ltnW hi).
move: k5; rewrite ltnSn => -[L [v [nm bL]]].
have [b e1 v1] := nvs_pow ic p^-1 (nvs_factor ic); have [g e2 v2] := nvs_div ic nm v1.
rewrite scaler0 subr0 in v2; have [q1 q2] := nvs_momf v2 bL.
exists g; do 2!eexists; split; [|by split; [exact: q1|exact: q2]|exact: posdef_inv bL.1].
by rewrite /Nodes.fwd_cavity /mtry /mbind /lift /get /= hpv /= k1 hp /= (over_p p0) k4 e1 e2.
Qed.
Lemma meas_skip (h : heap) i w1 x : lookup h i = Some x -> static i x -> flat_marg x -> n_meas x = as_factor n ->
  do_ev (Meas i) (h, w1) = ((h, w1), Ok tt).
Proof.
move=> hx [_ [_ hH hy _] _ [_ hu _]] [L [sv [nm bL]]] hf'.
have [c i0 vc] := nvs_div ic nm (nvs_factor ic).
rewrite subr0 in vc; have [hmc hPc] := nvs_momf vc bL.
have es ya : e_meas e (Some (sy_meas sy)) c ya w1 = (w1, Err LinAlgErr).
  rewrite /= /proj_meas hPc bindE; have := np_cholesky_ok (posdef_inv bL.1); case: np_cholesky => //= Lc _.
  by rewrite /andthen hm.
move: es hu; rewrite -[mk_estimator _ _ _ _ _ _ _]/e; move: (e_meas e) => pe es hu.
by rewrite /= /call_meas /mbind /get /= hx hu /meas_update /mbind /get /= hx /lift hf' i0 /mtry hy /= /mworld /= hH es.
Qed.
Lemma skip_pass c i h w1 : (i + c = N)%N -> reached i h -> exists st, run (filter_events (iota i c)) (h, w1) = (st, Ok tt).
Proof.
elim: c i h w1 => [|c IH] i h w1 hic hr; first by eexists.
have hi : (i < N)%N by rewrite -hic -addSnnS leq_addr.
have [x [hx sx [z1 z2] fx]] := hr i hi; move: fx; rewrite ltnn => -[f1 f2 f3 f4].
have [s1 [s2 s3 s4 s5] [s6 s7] [s8 s9 s10]] := sx.
have [g [m [P [h1 h2 h3]]]] := cav_reached w1 hi hr hx sx.
have [f [mg [w2 [e1 u1]]]] := fwd_ok ic n0 p0 d0 pQ hx h1 h2 h3 s2 (hf i) (hpr i) s6 s7 s8 f2 f1.
rewrite -[filter_events _]/(Fwd i :: Meas i :: filter_events (iota i.+1 c)) run_cons e1.
set h' := update _ _ _; have lx : lookup h' i = Some (set_fwd f mg x) by rewrite lookup_update eqxx hx.
have sx' : static i (set_fwd f mg x) by [].
rewrite run_cons (meas_skip w2 lx sx') //; apply: IH; first by rewrite addSnnS.
move=> j hj; case: (eqVneq j i) => [->|ne]; first by exists (set_fwd f mg x); rewrite ltnSn; split.
have [x' [b1 b2 b3 b4]] := hr j hj; exists x'; split=> //; first by rewrite lookup_update (negPf ne).
by rewrite ltnS leq_eqVlt (negPf ne).
Qed.
Theorem skips : exists st, run (filter_events (iota 0 N)) built = (st, Ok tt).
Proof.
have [h [w0 E]] : exists h w0, built = (h, w0) by case: built => h w0; exists h, w0.
rewrite E; apply: skip_pass; first by rewrite add0n.
move=> j hj; have [x [h1 h2 h3]] := @built_fresh R illcond n W Kw T Y0 t_zero tadd kw_tu0 squeeze tm mm p dm Q (Nd2 Rm)
  N sy ys fa kws y0 w hN hys hkw j hj; rewrite E in h1; exists x; split=> //.
by case: h3.
Qed.
End Skip.
