(** * One-dimensional Gaussians by value: arrays of shape (1,) and (1,1) hold the same number *)
Set Warnings "-notation-overridden,-ambiguous-paths".
From mathcomp Require Import all_ssreflect all_algebra.
From Verif Require Import Base ND NDFacts PosDef LinAlg LinAlgFacts Gauss GaussFacts Transforms TransformFacts
  Estimator EstimatorFacts EPGauss SpecAssumed.
Set Implicit Arguments.
Unset Strict Implicit.
Unset Printing Implicit Defensive.
Import GRing.Theory Num.Theory Order.Theory.
Local Open Scope ring_scope.

Section Value.
Variable R : rcfType.
Variable illcond : forall n, 'M[R]_n -> bool.
Notation nd := (nd R).
Notation gauss := (gauss R).
Notation V := ('M[R]_1 * 'M[R]_1)%type.
Notation natv := (natv illcond (d := 1)).

(** ** 1 x 1 matrices *)
Lemma mx11_eq (A B : 'M[R]_1) : A 0 0 = B 0 0 -> A = B.
Proof. by move=> h; apply/matrixP => i j; rewrite !ord1. Qed.
Lemma rowb1 (v : 'M[R]_1) : rowb v = v.
Proof. by apply: mx11_eq; rewrite mxE. Qed.
Lemma qf11 (A v : 'M[R]_1) : qf A v = A 0 0 * v 0 0 ^+ 2.
Proof. by rewrite /qf /bf !mxE big_ord1 !mxE big_ord1 !mxE mulrAC expr2 mulrC. Qed.
Lemma posdef11 (A : 'M[R]_1) : posdef A <-> 0 < A 0 0.
Proof.
split=> [[_ /(_ 1%:M)]|h]; first by rewrite qf11 !mxE expr1n mulr1; apply; rewrite oner_eq0.
split=> [|v v0]; first exact: tr11.
rewrite qf11 mulr_gt0 // lt_def sqr_ge0 andbT sqrf_eq0; apply: contra v0 => /eqP h0; apply/eqP.
by apply: mx11_eq; rewrite h0 mxE.
Qed.
Lemma possemi11 (A : 'M[R]_1) : possemi A <-> 0 <= A 0 0.
Proof.
split=> [[_ /(_ 1%:M)]|h]; first by rewrite qf11 !mxE expr1n mulr1.
by split=> [|v]; [exact: tr11 | rewrite qf11 mulr_ge0 ?sqr_ge0].
Qed.
Lemma inv11 (A : 'M[R]_1) : invmx A = ((A 0 0)^-1)%:M.
Proof. by rewrite {1}[A]mx11_scalar invmx_scalar. Qed.
Lemma inv11E (A : 'M[R]_1) : invmx A 0 0 = (A 0 0)^-1.
Proof. by rewrite inv11 mxE. Qed.
Lemma mul11 (A B : 'M[R]_1) : (A *m B) 0 0 = A 0 0 * B 0 0.
Proof. by rewrite mxE big_ord1. Qed.
Lemma mulC11 (A B : 'M[R]_1) : A *m B = B *m A.
Proof. by apply: mx11_eq; rewrite !mul11 mulrC. Qed.
Lemma trace11 (A : 'M[R]_1) : \tr A = A 0 0.
Proof. by rewrite /mxtrace big_ord1. Qed.

(** ** arrays holding one number as a vector of length one *)
Definition arr1 (a : nd) (v : 'M[R]_1) : Prop := a = Nd1 v \/ a = Nd2 v.
Lemma arr1_shv a v : arr1 a v <-> shv a v.
Proof.
split=> [[->|->]|[[w -> ->]|->]]; [by left; exists v; rewrite ?rowb1 | by right | by left; rewrite rowb1 | by right].
Qed.
Lemma arr1_vec a v : arr1 a v -> is_vec a v.
Proof. by case=> ->; [left|right; rewrite tr11]. Qed.
Lemma arr1_least a v : arr1 a v -> natleast1 a = a.
Proof. by case=> ->. Qed.
Lemma nadd_arr1 a b v w : arr1 a v -> arr1 b w -> exists2 r, nadd a b = Ok r & arr1 r (v + w).
Proof. by move=> /arr1_shv ha /arr1_shv hb; have [r h1 h2] := nadd_shv ha hb; exists r => //; apply/arr1_shv. Qed.
Lemma nsub_arr1 a b v w : arr1 a v -> arr1 b w -> exists2 r, nsub a b = Ok r & arr1 r (v - w).
Proof. by move=> /arr1_shv ha /arr1_shv hb; have [r h1 h2] := nsub_shv ha hb; exists r => //; apply/arr1_shv. Qed.
Lemma nsub_arr01 a b v (w : 'M[R]_1) : arr1 a v -> natleast1 b = Nd1 w -> exists2 r, nsub a b = Ok r & arr1 r (v - w).
Proof.
move=> ha /natleast1_cases [->|[x [-> /Nd1_inj <-]]]; first by apply: nsub_arr1 => //; left.
case: ha => ->; rewrite /nsub /bop; eexists; try reflexivity; [left; congr Nd1|right; congr Nd2]; by apply: mx11_eq; rewrite !mxE.
Qed.
Lemma ndot_arr1 (J : 'M[R]_1) a v : arr1 a v -> exists2 r, ndot (Nd2 J) a = Ok r & arr1 r (J *m v).
Proof. by case=> ->; rewrite ?ndotmv ?ndotmm; eexists; try reflexivity; [left|right]. Qed.
Lemma nmatmul_arr1 (J : 'M[R]_1) a v : arr1 a v -> exists2 r, nmatmul (Nd2 J) a = Ok r & arr1 r (J *m v).
Proof. by case=> ->; rewrite ?nmatmulmv ?nmatmulmm; eexists; try reflexivity; [left|right]. Qed.
Lemma nadd_arr1c a v (w : 'M[R]_1) : arr1 a v -> exists2 r, nadd a (Nd2 w) = Ok r & arr1 r (v + w).
Proof. by move=> h; apply: nadd_arr1 => //; right. Qed.

(** ** states by value *)
(** [g.mean] holds [m] and [g.cov] is [P] *)
Definition momv (g : gauss) (m P : 'M[R]_1) : Prop :=
  (exists2 a, g_mean illcond g = Ok a & arr1 a m) /\ g_cov illcond g = Ok (Nd2 P).
Lemma momp_momv g m P : momp illcond g m P -> momv g m P.
Proof. by case=> h1 h2; split=> //; exists (Nd1 m) => //; left. Qed.
Lemma momv_gaussian a (m P : 'M[R]_1) : arr1 a m -> momv (gaussian a (Nd2 P)) m P.
Proof. by move=> h; split=> //; exists a => //=; rewrite (arr1_least h). Qed.
Lemma momv_fun g m P m' P' : momv g m P -> momv g m' P' -> m = m' /\ P = P'.
Proof.
case=> -[a h1 h2] h3 [[a' h1' h2'] h3']; split; last by move: h3'; rewrite h3 => /Ok_inj/Nd2_inj.
move: h1'; rewrite h1 => /Ok_inj e; subst a'.
by case: h2 h2' => -> [] => [/Nd1_inj|//|//|/Nd2_inj].
Qed.
Lemma momv_valid g m P : momv g m P -> posdef P -> gvalidate illcond g = Ok tt.
Proof. by case=> _ h pP; rewrite /gvalidate h bindE; apply/validate_covP => //; exact: pP.1. Qed.

Hypothesis ic : forall A : 'M[R]_1, ~~ illcond A.
(** natural parameters [u], and moments whenever the precision is not below the threshold of
    Gaussian.py:36 *)
Definition nv (g : gauss) (u : V) : Prop :=
  natv g u /\ (trace_min R <= u.1 0 0 -> momv g (invmx u.1 *m u.2) (invmx u.1)).
Lemma trace_min_gt0 : 0 < trace_min R.
Proof. by rewrite /trace_min invr_gt0 exprn_gt0 // ltr0n. Qed.
Lemma nv_nat (L : 'M[R]_1) s (S : 'M[R]_1) : arr1 s S -> nv (Nat (Nd2 L) s) (L, S).
Proof.
move=> hs; split.
  by apply/natvE; split=> //; [exact: tr11 | exists s => //; apply/arr1_shv].
move=> /= hL; have pL : posdef L by apply/posdef11/(lt_le_trans trace_min_gt0).
have e : natural_to_moment illcond (Nd2 L) s = do mean <- ndot (Nd2 (invmx L)) s; Ok (mean, Nd2 (invmx L)).
  rewrite /natural_to_moment bindE ntraceE bindE trace11 ltNge hL /= sp_solve_pos_pd //= bindE symmetrize_inv ?pL.1 // bindE.
have [r h1 h2] := ndot_arr1 (invmx L) hs.
by rewrite /momv /= e h1 !bindE; split=> //; exists r.
Qed.
Lemma nv_mom a (m P : 'M[R]_1) : arr1 a m -> posdef P -> nv (gaussian a (Nd2 P)) (invmx P, invmx P *m m).
Proof.
move=> ha pP; split; last first.
  by move=> _ /=; rewrite invmxK mulmxA mulmxV ?mul1mx ?posdef_unit //; apply: momv_gaussian.
case: ha => ->; last exact: natv_mom2.
by have := natv_mom m pP (ic P); rewrite rowb1.
Qed.
Lemma nv_fun g u v : nv g u -> nv g v -> u = v.
Proof. by move=> [h _] [h' _]; apply: natv_fun h h'. Qed.
Lemma from_nat_nv (L : 'M[R]_1) s (S : 'M[R]_1) : shv s S -> nv (from_natural (Nd2 L) s) (L, S).
Proof. by move=> /arr1_shv h; rewrite /from_natural (arr1_least h); apply: nv_nat. Qed.
Lemma nv_mul a b u v : nv a u -> nv b v -> exists2 c, gmul illcond a b = Ok c & nv c (u + v).
Proof.
move=> [/natvE [pa sa _ [ta ha ha']] _] [/natvE [pb sb _ [tb hb hb']] _].
have [r hr hr'] := nadd_shv ha' hb'.
rewrite /gmul pa bindE pb bindE naddmm bindE symmetrize_sym ?tr11 // bindE ha bindE hb bindE hr bindE.
eexists; first reflexivity; exact: from_nat_nv.
Qed.
Lemma nv_div a b u v : nv a u -> nv b v -> exists2 c, gdiv illcond a b = Ok c & nv c (u - v).
Proof.
move=> [/natvE [pa sa _ [ta ha ha']] _] [/natvE [pb sb _ [tb hb hb']] _].
have [r hr hr'] := nsub_shv ha' hb'.
rewrite /gdiv pa bindE pb bindE nsubmm bindE ha bindE hb bindE hr bindE.
eexists; first reflexivity; exact: from_nat_nv.
Qed.
Lemma nv_pow a u p : nv a u -> exists2 c, gpow illcond a p = Ok c & nv c (p *: u).
Proof.
move=> [/natvE [pa sa _ [ta ha ha']] _]; rewrite /gpow pa bindE ha bindE.
eexists; first reflexivity; apply: from_nat_nv; exact: nscale_shv.
Qed.
Lemma nv_factor : nv (as_factor 1) 0.
Proof. by apply: nv_nat; left. Qed.
Lemma nv_marginal : nv (as_marginal 1) ((trace_min R)%:M, 0).
Proof.
have pL := posdefZ1 1 (large_gt0 R).
have h : nv (gaussian (Nd1 (0 : 'M[R]_1)) (Nd2 (large_num R *: 1%:M : 'M[R]_1))) (invmx (large_num R *: 1%:M : 'M[R]_1), invmx (large_num R *: 1%:M : 'M[R]_1) *m 0).
  by apply: nv_mom => //; left.
by move: h; rewrite mulmx0 scalemx1 invmx_scalar -[_^-1]/(trace_min R) -scalemx1.
Qed.

(** ** what a transform computes, by value *)
Variable W : Type.
Notation transform := (transform R W).
Notation rule := (rule R).
Definition acts (T : transform) (F : dfun R) k (r : rule 1 k) : Prop := forall g m P w, momv g m P -> posdef P ->
  exists w' a, T F g w = (w', Ok (a, Nd2 (r_cov r m P), Nd2 (r_cross r m P))) /\ natleast1 a = Nd1 (r_mean r m P).

Section Proj.
Variables (T : transform) (F : dfun R).
Lemma proj_trans_val (r : rule 1 1) (Q : 'M[R]_1) g m P w : acts T F r -> proper r Q -> momv g m P -> posdef P ->
  exists w', proj_trans T (Nd2 Q) 1 F g w = (w', Ok (gaussian (Nd1 (r_mean r m P)) (Nd2 (r_cov r m P + Q)))).
Proof.
move=> hT hr hg pP; have [w' [a [h1 h2]]] := hT g m P w hg pP; exists w'.
have [pC _] := hr m P pP.
rewrite /proj_trans h1 /andthen /= bindE (time_stepE _ ltr01 (tr11 _) (tr11 _) _ h2) ?invr1 ?scale1r //.
Qed.
Lemma proj_meas_val k (r : rule 1 k) (Rm : 'M[R]_k) g m P ya (y : 'cV[R]_k) w : acts T F r -> proper r Rm -> momv g m P -> posdef P ->
  natleast1 ya = Nd1 y ->
  let K := r_cross r m P *m invmx (r_cov r m P + Rm) in
  exists w', proj_meas illcond T (Nd2 Rm) 1 F g ya w =
    (w', Ok (gaussian (Nd2 (m + K *m (y - r_mean r m P))) (Nd2 (P - K *m (r_cross r m P)^T)))).
Proof.
move=> hT hr hg pP hy K; have [w' [a [h1 h2]]] := hT g m P w hg pP; exists w'.
have [pZ _] := hr m P pP; have [[ma hm vm] hP] := hg.
rewrite /proj_meas hP bindE; have := np_cholesky_ok pP; case: np_cholesky => //= L _.
rewrite h1 /andthen /= bindE hy (meas_stepE _ y ltr01 hm (arr1_vec vm) hP (tr11 _) h2); last by rewrite invr1 scale1r.
by rewrite invr1 scale1r outer_add1 tr11.
Qed.
Lemma proj_back_val (r : rule 1 1) (Q : 'M[R]_1) g m P cav s mu Sg w : acts T F r -> proper r Q -> momv g m P -> posdef P -> momv s mu Sg ->
  let J := r_cross r m P *m invmx (r_cov r m P + Q) in
  exists w' b, proj_back illcond T (Nd2 Q) 1 F g cav (Some s) w = (w', Ok (gaussian b (Nd2 (P + J *m (Sg - (r_cov r m P + Q)) *m J^T)))) /\
    arr1 b (m + J *m (mu - r_mean r m P)).
Proof.
move=> hT hr hg pP hs J; have [w' [a [h1 h2]]] := hT g m P w hg pP; exists w'.
have [pC _] := hr m P pP; have [[ma hm vm] hP] := hg; have [[ms hms vs] hS] := hs.
have [d1 e1 v1] := nsub_arr01 vs h2; have [d2 e2 v2] := ndot_arr1 J v1; have [d3 e3 v3] := nadd_arr1 vm v2.
exists d3; split=> //; rewrite /proj_back h1 /andthen /= bindE; congr (_, _).
rewrite /back_step ndivs_ok ?oner_eq0 // bindE invr1 /= scale1r niaddmm bindE symmetrize_sym ?tr11 // bindE.
rewrite np_solvemm ?posdef_unit // bindE /back_target eqxx hms bindE hS bindE bindE hm bindE e1 bindE /=.
have -> : (invmx (r_cov r m P + Q) *m r_cross r m P)^T = J by rewrite tr11 mulC11.
rewrite e2 bindE e3 bindE hP bindE nsubmm bindE nmatmulmm bindE nmatmulmm bindE naddmm bindE symmetrize_sym ?tr11 // bindE.
Qed.
End Proj.
End Value.
