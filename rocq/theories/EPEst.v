(** * The estimators of MomentMatching/Estimator.py installed in a chain of nodes *)
Set Warnings "-notation-overridden,-ambiguous-paths".
From mathcomp Require Import all_ssreflect all_algebra.
From Verif Require Import Base ND NDFacts PosDef LinAlg LinAlgFacts Gauss GaussFacts Nodes NodesFacts EPInv EPGauss
  Transforms TransformFacts Estimator EstimatorFacts.
Set Implicit Arguments.
Unset Strict Implicit.
Unset Printing Implicit Defensive.
Import GRing.Theory Num.Theory Order.Theory.
Local Open Scope ring_scope.

Section EPEst.
Variable R : rcfType.
Variable illcond : forall n, 'M[R]_n -> bool.
Variable W : Type.
Notation nd := (nd R).
Notation gauss := (gauss R).
Notation dfun := (dfun R).
Notation transform := (transform R W).
Notation estimator := (estimator gauss R dfun dfun nd W).

(** Nodes.py:137-150: the un-overloaded methods of class Node take no array, so calling them with one
    (and differentiating such a call) raises TypeError *)
Definition unset_fun : dfun := DFun (fun _ => Err TypeErr) (fun _ => Err TypeErr).
Definition fun_of (f : option dfun) : dfun := if f is Some F then F else unset_fun.

(** Estimator.py:34-107 as the object that node_estimator (Nodes.py:153-172) installs *)
Definition mk_estimator (tm mm : transform) (Q Rm : nd) (power damping : R) : estimator :=
  Estimator (fun f g w => proj_trans tm Q power (fun_of f) g w)
            (fun h g y w => proj_meas illcond mm Rm power (fun_of h) g y w)
            (fun f g c s w => proj_back illcond tm Q power (fun_of f) g c s w)
            (Some power) (Some damping).

Variable d : nat.
Notation dgauss := (dgauss illcond d).
Notation readg := (readg illcond).

(** an array of shape (d,) or (k,d) *)
Definition dlast (a : nd) : Prop := (exists v : 'cV[R]_d, a = Nd1 v) \/ exists k (M : 'M[R]_(k, d)), a = Nd2 M.
(** an array of shape (d,) or (d,d) *)
Definition dvec (a : nd) : Prop := (exists v : 'cV[R]_d, a = Nd1 v) \/ exists M : 'M[R]_d, a = Nd2 M.
Definition dmat (a : nd) : Prop := exists M : 'M[R]_d, a = Nd2 M.

Lemma dmat_sym a b : dmat a -> symmetrize a = Ok b -> dmat b.
Proof. by case=> M ->; rewrite symmetrizeE => -[<-]; eexists. Qed.
Lemma solve_shape (A : 'M[R]_d) b : (sp_solve_pos illcond (Nd2 A) (neye d)) = Ok b -> dmat b.
Proof.
rewrite /sp_solve_pos /= eqxx conform_mx_id rhs_solve_eye bindE; case: chol => // L; case: ifP => // _ [<-]; by eexists.
Qed.
Lemma solve_gen_shape (A : 'M[R]_d) b : (sp_solve_gen illcond (Nd2 A) (neye d)) = Ok b -> dmat b.
Proof.
rewrite /sp_solve_gen /= eqxx conform_mx_id rhs_solve_eye bindE; case: ifP => // _; case: ifP => // _ [<-]; by eexists.
Qed.
Lemma inverse_shape (A : 'M[R]_d) b : catch_any (sp_solve_pos illcond (Nd2 A) (neye d))
  (jittered_solve_pos illcond (Nd2 A) (neye d)) = Ok b -> dmat b.
Proof.
case E: sp_solve_pos => [c|e] /=; first by move=> [<-]; exact: solve_shape E.
rewrite /jittered_solve_pos jitter_matE bindE; case E1: sp_solve_pos => [c|e1] /=; first by move=> [<-]; exact: solve_shape E1.
exact: solve_gen_shape.
Qed.
Lemma nmatmul_dvec (A : 'M[R]_d) b c : nmatmul (Nd2 A) b = Ok c -> dlast b -> dvec c.
Proof.
move=> h [[v e]|[k [M e]]]; move: h; rewrite e.
  by rewrite nmatmulmv => -[<-]; left; eexists.
by rewrite /nmatmul; case: eqP => // _ [<-]; right; eexists.
Qed.
Lemma nmatmul_Nd1 (A : 'M[R]_d) k (v : 'cV[R]_k) c : nmatmul (Nd2 A) (Nd1 v) = Ok c -> dvec c.
Proof. by rewrite /nmatmul; case: eqP => // _ [<-]; left; eexists. Qed.

(** moments of a readable Gaussian over R^d *)
Lemma dgauss_mean g m : dgauss g -> g_mean illcond g = Ok m -> dvec m.
Proof.
case=> u /natvE [h1 h2 h3 [s h4 h5]]; case: g h1 h3 h4 => [a c|p s'] /=.
  move=> h1 [C ec] h4 [<-]; move: h1 h4; rewrite ec; case E: (moment_to_natural illcond a (Nd2 C)) => [[x y]|//].
  rewrite !bindE /= => -[ex] [ey]; subst x y.
  move: E; rewrite /moment_to_natural /= bindE; case E1: catch_any => [p0|//]; rewrite bindE; case: symmetrize => [q|//].
  rewrite bindE; case E2: nmatmul => [sh|//]; rewrite bindE => -[eq esh]; subst q sh; move: E2.
  case: a => [x|k v|k l A] //=; rewrite /nmatmul; case: eqP => // ed.
    by move=> _; left; case: k / ed v => v; exists v.
  move=> [es]; right; case: k / ed A es => A es.
  have el : l = d.
    by case: h5 => [[v e _]|e]; move: e; rewrite -es // => /(f_equal (fun z => if z is @Nd2 _ _ l _ then l else 0%N)).
  by case: d / el A {es}  => A; exists A.
move=> [->] _ [es]; rewrite /natural_to_moment /= bindE ntraceE bindE; case: ifP => _.
  by rewrite symmetrize_eye bindE /= => -[<-]; left; eexists.
case E: catch_any => [p0|//]; rewrite bindE; case E1: symmetrize => [q|//]; rewrite bindE.
have [Q eq] := dmat_sym (inverse_shape E) E1; rewrite eq; case E2: ndot => [y|//]; rewrite bindE bindE /= => -[<-].
case: h5 => [[v e _]|e]; move: E2; rewrite es e.
  by rewrite ndotmv => -[<-]; left; eexists.
by rewrite ndotmm => -[<-]; right; eexists.
Qed.
Lemma dgauss_cov g c : dgauss g -> g_cov illcond g = Ok c -> dmat c.
Proof.
case=> u [h1 h2 h3 _]; case: g h1 h3 => [a c'|p s'] /=; first by move=> _ [C ->] [<-]; exists C.
move=> [->] _; rewrite /natural_to_moment /= bindE ntraceE bindE; case: ifP => _.
  by rewrite symmetrize_eye bindE /= => -[<-]; eexists.
case E: catch_any => [p0|//]; rewrite bindE; case E1: symmetrize => [q|//]; rewrite bindE.
have [Q eq] := dmat_sym (inverse_shape E) E1; rewrite eq; case: ndot => [y|//]; rewrite bindE /= => -[<-]; by eexists.
Qed.

(** a Gaussian in moment form *)
Lemma mom_dgauss a c : dmat c -> (exists k (v : 'cV[R]_k), a = Nd1 v) \/ dlast a -> readg (Mom a c) -> dgauss (Mom a c).
Proof.
case=> C -> ha [p [s [/= h1 h2]]]; move: h1 h2.
case E: moment_to_natural => [[x y]|//]; rewrite !bindE /= => -[ex] [ey]; subst x y.
have := E; rewrite /moment_to_natural /= bindE; case E1: catch_any => [p0|//]; rewrite bindE.
have [M eM] := inverse_shape E1; rewrite eM symmetrizeE bindE.
case E2: nmatmul => [sh|//]; rewrite bindE => -[ep esh]; subst p sh.
have dv : dvec s by case: ha => [[k [v e]]|ha]; [move: E2; rewrite e; exact: nmatmul_Nd1|exact: nmatmul_dvec E2 ha].
have [S hS] : exists S : 'M[R]_d, shv s S.
  by case: dv => [[v ->]|[S ->]]; [exists (rowb v); left; exists v|exists S; right].
exists (sympart M, S); apply/natvE; rewrite /= E !bindE /=; split=> //; first exact: sympart_sym.
  by exists C.
by exists s.
Qed.
Lemma gaussian_dgauss a c : dmat c -> (exists k (v : 'cV[R]_k), natleast1 a = Nd1 v) \/ dlast a ->
  readg (gaussian a c) -> dgauss (gaussian a c).
Proof.
move=> hc ha; apply: mom_dgauss => //; case: ha => [|ha]; first by left.
by right; case: ha => [[v ->]|[k [M ->]]]; [left; exists v|right; exists k, M].
Qed.

(** shapes of sums *)
Lemma nadd_dmat a b c : dmat a -> dmat b -> nadd a b = Ok c -> dmat c.
Proof. by move=> [A ->] [B ->]; rewrite naddmm => -[<-]; eexists. Qed.
Lemma nsub_dmat a b c : dmat a -> dmat b -> nsub a b = Ok c -> dmat c.
Proof. by move=> [A ->] [B ->]; rewrite nsubmm => -[<-]; eexists. Qed.
Lemma bop_dvec op a b c : dvec a -> dvec b -> bop op a b = Ok c -> dvec c.
Proof.
move=> [[v ->]|[A ->]] [[w ->]|[B ->]].
- by rewrite bop_vv => -[<-]; left; eexists.
- by rewrite bop_vm => -[<-]; right; eexists.
- by rewrite bop_mv => -[<-]; right; eexists.
- by rewrite bop_mm => -[<-]; right; eexists.
Qed.
Lemma bop_col op a (w : 'cV[R]_d) c : dvec a -> bop op a (Nd2 w) = Ok c -> dvec c.
Proof.
case=> [[v ->]|[A ->]]; rewrite /bop /bop2 ?bdim1n ?bdimn1 ?bdimnn => -[<-]; right; by eexists.
Qed.

(** *** the projections keep Gaussians over R^d, for transforms with the right output shapes *)
Definition trans_shape (T : transform) (F : dfun) : Prop := forall g w w' a C X, dgauss g -> T F g w = (w', Ok (a, C, X)) ->
  [/\ exists v : 'cV[R]_d, natleast1 a = Nd1 v, dmat C & dmat X].
(** first axis of length d *)
Definition dfirst (a : nd) : Prop := (exists v : 'cV[R]_d, a = Nd1 v) \/ exists k (M : 'M[R]_(d, k)), a = Nd2 M.
Definition meas_shape (T : transform) (H : dfun) : Prop := forall g w w' a C X, dgauss g -> T H g w = (w', Ok (a, C, X)) -> dfirst X.

Lemma gain_shape zc X kt : dfirst X -> np_solve zc (ntr X) = Ok kt ->
  (exists v u : 'cV[R]_d, X = Nd1 v /\ ntr kt = Nd1 u) \/
  (exists k l (M : 'M[R]_(d, k)) (N : 'M[R]_(d, l)), X = Nd2 M /\ ntr kt = Nd2 N).
Proof.
case: zc => [z|k z|m n Z] //; rewrite /np_solve; case: eqP => // e.
case E: rhs_solve => [r|//]; rewrite bindE; case: ifP => // _ hX [<-].
case: hX E => [[v ->]|[k [M ->]]] /=; rewrite /rhs_solve; case: eqP => // en [<-] /=; [left|right].
  by case: n / en Z e => Z e; exists v; eexists.
by exists k, n, M; eexists.
Qed.

Lemma corr_shape gn dv c : dfirst gn -> nmatmul gn (nreshape_col dv) = Ok c ->
  (exists x, c = Nd1 (x : 'cV[R]_1)) \/ exists w : 'cV[R]_d, c = Nd2 w.
Proof.
have [q [v ->]] := nreshape_shape dv; case=> [[u ->]|[k [M ->]]]; rewrite /nmatmul; case: eqP => // _ [<-]; [left|right];
  by eexists.
Qed.
Lemma bop_one op a (x : 'cV[R]_1) c : dvec a -> bop op a (Nd1 x) = Ok c -> dvec c.
Proof.
case=> [[v ->]|[A ->]]; rewrite /bop /bop2 ?bdimn1 => -[<-]; [left|right]; by eexists.
Qed.

Lemma proj_trans_dgauss T Q p F g w w' s : trans_shape T F -> dgauss g -> proj_trans T Q p F g w = (w', Ok s) ->
  readg s -> dgauss s.
Proof.
move=> hT hg; rewrite /proj_trans; case E: (T F g w) => [w1 [[[a C] X]|//]]; rewrite /andthen /= => -[_].
have [[v hv] [M eC] _] := hT _ _ _ _ _ _ hg E; rewrite eC bindE /time_step.
case E1: niadd => [c1|//]; have [M1 ->] := niadd_shape E1; rewrite bindE /ndivs; case: ifP => // _; rewrite bindE.
rewrite symmetrizeE bindE; case: np_cholesky => [L|//]; rewrite bindE => -[<-].
by apply: gaussian_dgauss; [eexists|left; exists d, v].
Qed.

Lemma proj_meas_dgauss T Rm p H g y w w' s : meas_shape T H -> dgauss g ->
  proj_meas illcond T Rm p H g y w = (w', Ok s) -> readg s -> dgauss s.
Proof.
move=> hT hg; rewrite /proj_meas; case: (bind _ _) => // _; case E: (T H g w) => [w1 [[[a C] X]|//]]; rewrite /andthen /= => -[_].
have hX := hT _ _ _ _ _ _ hg E; rewrite bindE /meas_step.
case: ndivs => [r|//]; rewrite bindE; case: niadd => [c1|//]; rewrite bindE; case: symmetrize => [zc|//]; rewrite bindE.
case: np_cholesky => [L|//]; rewrite bindE; case E1: np_solve => [kt|//]; rewrite bindE.
have hk := gain_shape hX E1.
have hf : dfirst (ntr kt) by case: hk => [[v [u [_ ->]]]|[k [l [M [N [_ ->]]]]]]; [left; exists u|right; exists l, N].
 case E2: g_mean => [sm|//]; have hm := dgauss_mean hg E2; rewrite bindE.
case: nsub => [dv|//]; rewrite bindE; case E3: nmatmul => [co|//]; rewrite bindE; case E4: nadd => [me|//]; rewrite bindE.
case E5: g_cov => [sc|//]; have hc := dgauss_cov hg E5; rewrite bindE; case E6: nmatmul => [kx|//]; rewrite bindE.
case E7: nsub => [c2|//]; rewrite bindE; case E8: symmetrize => [cv|//]; rewrite bindE => -[<-].
apply: gaussian_dgauss.
  apply: dmat_sym E8; case: hc E7 => A ->; move: E6.
  case: hk => [[v [u [-> ->]]]|[k [l [M [N [-> ->]]]]]] /=; rewrite /nmatmul; case: eqP => // _ [<-].
    by rewrite /nsub /bop => -[<-]; eexists.
  by rewrite nsubmm => -[<-]; eexists.
right; have : dvec me; last by case=> [[v ->]|[M ->]]; [left; exists v|right; exists d, M].
by case: (corr_shape hf E3) E4 => [[x ->]|[u ->]]; [exact: bop_one|exact: bop_col].
Qed.

Lemma dvec_last a : dvec a -> dlast a.
Proof. by case=> [[v ->]|[M ->]]; [left; exists v|right; exists d, M]. Qed.
Lemma nsub_dvec a b c (v : 'cV[R]_d) : dvec a -> natleast1 b = Nd1 v -> nsub a b = Ok c -> dvec c.
Proof.
move=> ha /natleast1_cases [->|[x [-> _]]]; first by apply: bop_dvec => //; left; exists v.
by case: ha => [[u ->]|[A ->]] /=; rewrite /nsub /bop => -[<-]; [left|right]; eexists.
Qed.
Lemma ndot_dvec (A : 'M[R]_d) b c : dvec b -> ndot (Nd2 A) b = Ok c -> dvec c.
Proof. by case=> [[v ->]|[M ->]]; rewrite ?ndotmv ?ndotmm => -[<-]; [left|right]; eexists. Qed.
Lemma dgauss_mul a b c : dgauss a -> dgauss b -> gmul illcond a b = Ok c -> dgauss c.
Proof. by move=> [u hu] [v hv] h; exists (u + v); exact: gmul_natv h hu hv. Qed.
Lemma dgauss_pow a p c : dgauss a -> gpow illcond a p = Ok c -> dgauss c.
Proof. by move=> [u hu] h; exists (p *: u); exact: gpow_natv h hu. Qed.
Lemma gmul_readl a b c : gmul illcond a b = Ok c -> readg a.
Proof.
rewrite /gmul; case E: (g_precision illcond a) => [x|//]; rewrite bindE; case: (g_precision illcond b) => [x'|//]; rewrite bindE.
case: nadd => [p|//]; rewrite bindE; case: symmetrize => [q|//]; rewrite bindE; case E2: (g_shift illcond a) => [y|//] _.
by exists x, y.
Qed.

Lemma proj_back_dgauss T Q p F g c s0 w w' s : trans_shape T F -> dgauss g -> dgauss c ->
  (if s0 is Some t then dgauss t else True) -> proj_back illcond T Q p F g c s0 w = (w', Ok s) -> readg s -> dgauss s.
Proof.
move=> hT hg hc hs; rewrite /proj_back; case E: (T F g w) => [w1 [[[a C] X]|//]]; rewrite /andthen /= => -[_].
have [[v hv] [M eC] [N eX]] := hT _ _ _ _ _ _ hg E; rewrite eC eX bindE /back_step.
case: ndivs => [r|//]; rewrite bindE; case E1: niadd => [c1|//]; have [M1 ->] := niadd_shape E1; rewrite bindE symmetrizeE bindE.
case E2: np_solve => [jt|//]; rewrite (np_solve_shape E2) bindE /=; set J := (_ *m _)^T; clearbody J.
case E3: back_target => [[mu Sg]|//]; rewrite bindE.
have [h1 h2] : dvec mu /\ dmat Sg.
  have gen : (do c0 <- gpow illcond c p; do q <- gmul illcond (gaussian a (Nd2 (sympart M1))) c0; do mu0 <- g_mean illcond q;
    do Sg0 <- g_cov illcond q; Ok (mu0, Sg0)) = Ok (mu, Sg) -> dvec mu /\ dmat Sg.
    case P1: gpow => [cp|//]; rewrite bindE; case P2: gmul => [q|//]; rewrite bindE.
    have dq : dgauss q.
      apply: dgauss_mul (P2); last exact: dgauss_pow P1.
      by apply: gaussian_dgauss (gmul_readl P2); [eexists|left; exists d, v].
    case P3: g_mean => [m0|//]; rewrite bindE; case P4: g_cov => [S0|//]; rewrite bindE => -[<- <-]; split.
      exact: dgauss_mean dq P3.
    exact: dgauss_cov dq P4.
  move: E3; rewrite /back_target; case: ifP => _ //; case: s0 hs => [t|] // ht.
  case P3: g_mean => [m0|//]; rewrite bindE; case P4: g_cov => [S0|//]; rewrite bindE => -[<- <-]; split.
    exact: dgauss_mean ht P3.
  exact: dgauss_cov ht P4.
case E4: g_mean => [sm|//]; have hm := dgauss_mean hg E4; rewrite bindE; case E5: nsub => [dm|//]; rewrite bindE.
case E6: ndot => [jd|//]; rewrite bindE; case E7: nadd => [me|//]; rewrite bindE.
case E8: g_cov => [sc|//]; have [S eS] := dgauss_cov hg E8; rewrite bindE eS; case: h2 => S' ->; rewrite nsubmm bindE.
rewrite nmatmulmm bindE nmatmulmm bindE naddmm bindE symmetrizeE bindE => -[<-].
apply: gaussian_dgauss; first by eexists.
right; apply: dvec_last; apply: bop_dvec hm _ E7; apply: ndot_dvec E6; exact: nsub_dvec h1 hv E5.
Qed.

(** *** the unscented transform *)
Variables (alpha beta kappa : R).
Notation ut := (pure_transform (W := W) (ut_transform illcond d alpha beta kappa)).

Lemma chol_shape (A : 'M[R]_d) b : sp_cholesky false (Nd2 A) = Ok b -> dmat b.
Proof. by rewrite /sp_cholesky /= eqxx conform_mx_id; case: chol => // L [<-]; eexists. Qed.
Lemma sigma_shape m P S : dvec m -> dmat P -> ut_sigma_points d alpha kappa m P = Ok S -> exists k (M : 'M[R]_(k, d)), S = Nd2 M.
Proof.
move=> hm [A ->]; rewrite /ut_sigma_points; case: ifP => // _; rewrite symmetrizeE bindE.
case E: catch_any => [L|//]; rewrite bindE.
have [L' ->] : dmat L.
  move: E; case E1: sp_cholesky => [b|e] /=; first by move=> [<-]; exact: chol_shape E1.
  rewrite /jittered_chol jitter_matE bindE; exact: chol_shape.
rewrite /=; case E1: nadd => [p|//]; rewrite bindE; case E2: nsub => [q|//]; rewrite bindE.
have hL : dvec (Nd2 (Num.sqrt (ut_npl d alpha kappa) *: L')) by right; eexists.
have hp := bop_dvec hm hL E1; have hq := bop_dvec hm hL E2; rewrite /nvstack3.
have a2 a : dvec a -> exists k (M : 'M[R]_(k, d)), natleast2 a = Nd2 M by case=> [[v ->]|[M ->]]; do 2!eexists.
have [k1 [M1 ->]] := a2 _ hm; have [k2 [M2 ->]] := a2 _ hp; have [k3 [M3 ->]] := a2 _ hq.
by rewrite !eqxx /= => -[<-]; do 2!eexists.
Qed.

Lemma ut_inv F g w w' a C X : dgauss g -> ut F g w = (w', Ok (a, C, X)) ->
  exists k (S : 'M[R]_(k, d)) y, [/\ call F (Nd2 S) = Ok y, exists n (v : 'cV[R]_n), nmatmul (Nd1 v) y = Ok a,
    exists n (Wm : 'M[R]_n) t t2, [/\ nmatmul (ntr y) (Nd2 Wm) = Ok t, nmatmul t y = Ok t2 & symmetrize t2 = Ok C] &
    exists n (Wm : 'M[R]_n) t, nmatmul (Nd2 S^T) (Nd2 Wm) = Ok t /\ nmatmul t y = Ok X].
Proof.
move=> hg; rewrite /pure_transform => -[_]; rewrite /ut_transform.
have [h0|h0] := eqVneq (ut_npl d alpha kappa) 0; first by rewrite /ut_weights h0 eqxx.
rewrite ut_weightsE //.
rewrite bindE; case E1: g_mean => [m|//]; rewrite bindE; case E2: g_cov => [P|//]; rewrite bindE.
case E3: ut_sigma_points => [S|//]; rewrite bindE.
have [k [M eM]] := sigma_shape (dgauss_mean hg E1) (dgauss_cov hg E2) E3; rewrite eM.
case E4: (call F _) => [y|//]; rewrite bindE; case E5: nmatmul => [me|//]; rewrite bindE.
case E6: nmatmul => [t|//]; rewrite bindE; case E7: nmatmul => [t2|//]; rewrite bindE; case E8: symmetrize => [cv|//]; rewrite bindE.
case E9: nmatmul => [t3|//]; rewrite bindE; case E10: nmatmul => [xx|//]; rewrite bindE => -[<- <- <-].
exists k, M, y; split=> //; first by do 2!eexists; exact: E5.
  by do 4!eexists; split; eauto.
by do 3!eexists; split; eauto.
Qed.
Lemma ut_meas_shape H : meas_shape ut H.
Proof.
move=> g w w' a C X hg /(ut_inv hg) [k [S [y [_ [n [v hv]] _ [n' [Wm [t [h1 h2]]]]]]]].
move: h1; rewrite /nmatmul; case: eqP => // _ [et]; move: h2; rewrite -et.
case: y hv => [x|q u|q r U] //= _; rewrite /nmatmul; case: eqP => // _ [<-]; [left|right]; by do ?eexists.
Qed.
(** functions that map a batch of d-vectors, one per row, to such a batch *)
Definition batch_shape (F : dfun) : Prop := forall k (A : 'M[R]_(k, d)) y, call F (Nd2 A) = Ok y -> exists l (B : 'M[R]_(l, d)), y = Nd2 B.
Lemma ut_trans_shape F : batch_shape F -> trans_shape ut F.
Proof.
move=> hF g w w' a C X hg /(ut_inv hg) [k [S [y [hy [n [v hv]] [n1 [W1 [t1 [t2 [e1 e2 e3]]]]] [n' [Wm [t [h1 h2]]]]]]]].
have [l [B eB]] := hF _ _ _ hy; subst y; split.
- by move: hv; rewrite /nmatmul; case: eqP => // _ [<-]; eexists.
- move: e1; rewrite /= /nmatmul; case: eqP => // _ [et]; move: e2; rewrite -et /nmatmul; case: eqP => // _ [et2].
  by apply: dmat_sym e3; rewrite -et2; eexists.
- move: h1; rewrite /nmatmul; case: eqP => // _ [et]; move: h2; rewrite -et /nmatmul; case: eqP => // _ [<-]; by eexists.
Qed.
Lemma rowwise_batch F (Phi : 'cV[R]_d -> 'cV[R]_d) : rowwise F Phi -> batch_shape F.
Proof. by move=> h k A y; rewrite h => -[<-]; do 2!eexists. Qed.
Lemma unset_batch : batch_shape unset_fun. Proof. by []. Qed.

(** *** the Taylor transform: functions written for one state, which cannot be differentiated at a matrix *)
Notation tt := (pure_transform (W := W) (tt_transform illcond)).
Definition single_shape k (F : dfun) : Prop :=
  [/\ forall x : 'cV[R]_d, isOk (tt_jacobian F (Nd1 x)) -> exists J : 'M[R]_(k, d), tt_jacobian F (Nd1 x) = Ok (Nd2 J),
      forall (x : 'cV[R]_d) y, call F (Nd1 x) = Ok y -> exists v : 'cV[R]_k, natleast1 (nsqueeze y) = Nd1 v &
      forall M : 'M[R]_d, isOk (tt_jacobian F (Nd2 M)) = false].
Lemma tt_inv k F g w w' a C X : single_shape k F -> dgauss g -> tt F g w = (w', Ok (a, C, X)) ->
  [/\ exists v : 'cV[R]_k, natleast1 a = Nd1 v, exists Z : 'M[R]_k, C = Nd2 Z & exists Y : 'M[R]_(d, k), X = Nd2 Y].
Proof.
move=> [h1 h2 h3] hg; rewrite /pure_transform => -[_]; rewrite /tt_transform; case E1: g_mean => [m|//]; rewrite bindE.
case: (dgauss_mean hg E1) => [[x ->]|[M ->]]; last by have := h3 M; case: tt_jacobian.
case E2: tt_jacobian => [j|//]; have [J eJ] : exists J : 'M[R]_(k, d), j = Nd2 J.
  by have := h1 x; rewrite E2 => /(_ isT) [J [->]]; exists J.
rewrite eJ bindE; case E3: (call F _) => [y|//]; rewrite bindE /=; case E4: g_cov => [P|//]; rewrite bindE.
have [S ->] := dgauss_cov hg E4; rewrite nmatmulmm bindE nmatmulmm bindE nmatmulmm bindE => -[<- <- <-].
by split; [exact: h2 E3|eexists|eexists].
Qed.
Lemma tt_trans_shape F : single_shape d F -> trans_shape tt F.
Proof. by move=> h g w w' a C X hg /(tt_inv h hg). Qed.
Lemma tt_meas_shape k H : single_shape k H -> meas_shape tt H.
Proof. by move=> h g w w' a C X hg /(tt_inv h hg) [_ _ [Y ->]]; right; exists k, Y. Qed.

(** *** estimators *)
Lemma mk_good (tm mm : transform) Q Rm p dm (okf okh : option dfun -> Prop) :
  (forall f, okf f -> trans_shape tm (fun_of f)) -> (forall h, okh h -> meas_shape mm (fun_of h)) ->
  good_estimator illcond d okf okh (fun _ => True) (mk_estimator tm mm Q Rm p dm).
Proof.
move=> hf hh; split=> /=.
- by move=> f c w w' s /hf o hc; exact: proj_trans_dgauss.
- by move=> h c y w w' s /hh o _ hc; exact: proj_meas_dgauss.
- by move=> f c c' g w w' s /hf o hc hc' hg; exact: proj_back_dgauss.
Qed.
End EPEst.
