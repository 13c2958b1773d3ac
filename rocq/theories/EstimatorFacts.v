(** * Facts about the projections of MomentMatching/Estimator.py *)
Set Warnings "-notation-overridden,-ambiguous-paths".
From mathcomp Require Import all_ssreflect all_algebra.
From Verif Require Import Base ND NDFacts PosDef LinAlg LinAlgFacts Gauss GaussFacts Transforms TransformFacts CondGauss Estimator EPGauss.
Set Implicit Arguments.
Unset Strict Implicit.
Unset Printing Implicit Defensive.
Import GRing.Theory Num.Theory Order.Theory.
Local Open Scope ring_scope.

Section Facts.
Variable R : rcfType.
Variable illcond : forall n, 'M[R]_n -> bool.
Variable W : Type.
Notation nd := (nd R).
Notation gauss := (gauss R).
Notation dfun := (dfun R).
Notation momp := (momp illcond).
Notation transform := (transform R W).

Lemma natleast1_cases (a : nd) n (v : 'cV[R]_n) : natleast1 a = Nd1 v ->
  a = Nd1 v \/ exists x, a = Nd0 x /\ (Nd1 (const_mx x : 'cV[R]_1)) = Nd1 v.
Proof. by case: a => [x|k u|k l A] //= e; [right; exists x|left; rewrite e]. Qed.

Lemma nsub_v1 n (y v : 'cV[R]_n) a : natleast1 a = Nd1 v -> nsub (Nd1 y) a = Ok (Nd1 (y - v)).
Proof.
case/natleast1_cases=> [->|[x [-> e]]]; first exact: nsubvv.
have en : 1%N = n := f_equal (fun b => if b is Nd1 k _ then k else 0%N) e.
case: n / en y v e => y v /Nd1_inj <-.
rewrite /nsub /bop; congr (Ok (Nd1 _)); apply/colP=> i; by rewrite !mxE.
Qed.
Lemma gaussian_v1 n (v : 'cV[R]_n) a c : natleast1 a = Nd1 v -> gaussian a c = Mom (Nd1 v) c.
Proof. by rewrite /gaussian => ->. Qed.

(** (n,) + (n,1): entry (i,j) is [v_j + w_i] *)
Definition outer_add n (v w : 'cV[R]_n) : 'M[R]_n := \matrix_(i, j) (v j 0 + w i 0).
Lemma bent_col n (w : 'cV[R]_n) (i : 'I_n) (j : nat) : bent w i j = w i 0.
Proof.
rewrite /bent eqxx; have -> : (if n == 1%N then 0%N else i) = i by case: eqP i {w j} => [->|//] i; rewrite (ord1 i).
by rewrite -[0%N]/(nat_of_ord (0 : 'I_1)) entE.
Qed.
Lemma nadd_outer n (v w : 'cV[R]_n) a : is_vec a v -> nadd a (Nd2 w) = Ok (Nd2 (outer_add v w)).
Proof.
case=> ->; rewrite /nadd /bop /bop2 bdim1n bdimn1; congr (Ok (Nd2 _)); apply/matrixP=> i j;
  by rewrite !mxE bent_row bent_col.
Qed.
Lemma outer_add1 (v w : 'cV[R]_1) : outer_add v w = (v + w)^T.
Proof. by apply/matrixP=> i j; rewrite !mxE !ord1. Qed.

Lemma ndivs_ok (a : nd) c : c != 0 -> ndivs a c = Ok (nscale c^-1 a).
Proof. by rewrite /ndivs => /negbTE ->. Qed.

Lemma time_stepE n (Q C : 'M[R]_n) p a (v : 'cV[R]_n) X : 0 < p -> C^T = C -> Q^T = Q -> posdef (p^-1 *: (C + Q)) ->
  natleast1 a = Nd1 v -> time_step (Nd2 Q) p (a, Nd2 C, X) = Ok (gaussian (Nd1 v) (Nd2 (p^-1 *: (C + Q)))).
Proof.
move=> p0 sC sQ pd ha; rewrite /time_step niaddmm bindE ndivs_ok ?gt_eqF // bindE /= symmetrize_sym ?pd.1 // bindE.
have := np_cholesky_ok pd; case: np_cholesky => //= L _.
by rewrite bindE /gaussian ha.
Qed.

Lemma meas_stepE n k (Rm Z : 'M[R]_k) (X : 'M[R]_(n, k)) p g ma (m : 'cV[R]_n) (P : 'M[R]_n) (y zv : 'cV[R]_k) za :
  0 < p -> g_mean illcond g = Ok ma -> is_vec ma m -> g_cov illcond g = Ok (Nd2 P) -> P^T = P ->
  natleast1 za = Nd1 zv -> posdef (Z + p^-1 *: Rm) ->
  let K := X *m invmx (Z + p^-1 *: Rm) in
  meas_step illcond (Nd2 Rm) p g (Nd1 y) (za, Nd2 Z, Nd2 X) =
  Ok (gaussian (Nd2 (outer_add m (K *m (y - zv)))) (Nd2 (P - K *m X^T))).
Proof.
move=> p0 hm vm hP sP hz pd K; rewrite /meas_step ndivs_ok ?gt_eqF // bindE /= niaddmm bindE.
rewrite symmetrize_sym ?pd.1 // bindE; set Zc := Z + _ in pd K *.
have := np_cholesky_ok pd; case: np_cholesky => //= L _; rewrite bindE.
rewrite np_solvemm ?posdef_unit // bindE hm bindE (nsub_v1 y hz) bindE /=.
have eK : (invmx Zc *m X^T)^T = K by rewrite trmx_mul trmxK (sym_inv pd.1).
rewrite eK nmatmulmm bindE (nadd_outer _ vm) bindE hP bindE nmatmulmm bindE nsubmm bindE.
rewrite symmetrize_sym ?bindE //.
have -> : (P - K *m X^T)^T = P^T - (K *m X^T)^T by rewrite linearB.
by rewrite sP /K !trmx_mul trmxK (sym_inv pd.1) mulmxA.
Qed.

(** smoothing step with target moments (mu, Sigma) *)
Lemma back_stepE n (Q C P Sg X : 'M[R]_n) p g cav nx (m mu v : 'cV[R]_n) a :
  0 < p -> momp g m P -> P^T = P -> Sg^T = Sg -> posdef (C + p^-1 *: Q) -> natleast1 a = Nd1 v ->
  back_target illcond p cav nx a (Nd2 (C + p^-1 *: Q)) = Ok (Nd1 mu, Nd2 Sg) ->
  let J := X *m invmx (C + p^-1 *: Q) in
  back_step illcond (Nd2 Q) p g cav nx (a, Nd2 C, Nd2 X) =
  Ok (gaussian (Nd1 (m + J *m (mu - v))) (Nd2 (P + J *m (Sg - (C + p^-1 *: Q)) *m J^T))).
Proof.
move=> p0 [hm hP] sP sS pd ha ht J; rewrite /back_step ndivs_ok ?gt_eqF // bindE /= niaddmm bindE.
rewrite symmetrize_sym ?pd.1 // bindE; set Zc := C + _ in pd J ht *.
rewrite np_solvemm ?posdef_unit // bindE /= ht bindE.
have eK : (invmx Zc *m X^T)^T = J by rewrite trmx_mul trmxK (sym_inv pd.1).
rewrite eK hm bindE (nsub_v1 mu ha) bindE ndotmv bindE naddvv bindE hP bindE nsubmm bindE nmatmulmm bindE nmatmulmm bindE naddmm bindE.
rewrite symmetrize_sym ?bindE //.
clearbody J.
have -> : (P + J *m (Sg - Zc) *m J^T)^T = P^T + (J *m (Sg - Zc) *m J^T)^T by rewrite linearD.
have -> : (J *m (Sg - Zc) *m J^T)^T = J *m (Sg - Zc)^T *m J^T by rewrite !trmx_mul trmxK mulmxA.
have -> : (Sg - Zc)^T = Sg^T - Zc^T by rewrite linearB.
by rewrite sP sS pd.1.
Qed.

(** *** exactness on affine functions *)
(** transform [T] computes the exact moments of [A x + b] for Gaussians with a vector mean *)
Definition exact_on (T : transform) (F : dfun) m n (A : 'M[R]_(m, n)) (b : 'cV[R]_m) : Prop :=
  forall g v P w, momp g v P -> posdef P ->
  exists w' c, T F g w = (w', Ok (c, Nd2 (A *m P *m A^T), Nd2 (P *m A^T))) /\ natleast1 c = Nd1 (A *m v + b).

(** ... for Gaussians with the given mean and covariance *)
Definition exact_at (T : transform) (F : dfun) m n (A : 'M[R]_(m, n)) (b : 'cV[R]_m) (v : 'cV[R]_n) (P : 'M[R]_n) : Prop :=
  forall g w, momp g v P ->
  exists w' c, T F g w = (w', Ok (c, Nd2 (A *m P *m A^T), Nd2 (P *m A^T))) /\ natleast1 c = Nd1 (A *m v + b).
Lemma exact_onat (T : transform) (F : dfun) m n (A : 'M[R]_(m, n)) (b : 'cV[R]_m) v P : exact_on T F A b -> posdef P -> exact_at T F A b v P.
Proof. by move=> h pP g w hg; exact: h. Qed.
Lemma tt_exact_at m n F (A : 'M[R]_(m, n)) b v P : style F v (A *m v + b) A -> exact_at (pure_transform (tt_transform illcond)) F A b v P.
Proof.
move=> hF g w [hm hP]; have [a h1 h2] := tt_style hF hm hP.
by exists w, a; rewrite /pure_transform h1.
Qed.

Lemma ut_exact m n alpha beta kappa F (A : 'M[R]_(m, n)) b : 0 < alpha ^+ 2 * (n%:R + kappa) ->
  rowwise F (fun x => A *m x + b) -> exact_on (pure_transform (ut_transform illcond n alpha beta kappa)) F A b.
Proof.
rewrite -nplE => h hF g v P w [hm hP] pP; exists w, (Nd1 (A *m v + b)); split=> //; rewrite /pure_transform; congr (_, _).
case: (ut_factor pP.1) => [[_ [L hL eL]]|[nP _ _]|[nJ _]] //; last by case: nJ; exact: posdef_jit.
rewrite (ut_affine beta h hF hm _ hP (sympart_id pP.1) hL (v := v)); first by rewrite eL.
by left.
Qed.
Lemma tt_exact m n F (A : 'M[R]_(m, n)) b : (forall x, style F x (A *m x + b) A) ->
  exact_on (pure_transform (tt_transform illcond)) F A b.
Proof.
move=> hF g v P w [hm hP] pP; have [a h1 h2] := tt_style (hF v) hm hP.
by exists w, a; rewrite /pure_transform h1.
Qed.

Section Exact.
Variables (T : transform).

Lemma proj_trans_exact n F (A : 'M[R]_n) b (Q : 'M[R]_n) p g m P w : exact_on T F A b -> 0 < p -> posdef Q ->
  momp g m P -> posdef P -> exists w',
  proj_trans T (Nd2 Q) p F g w = (w', Ok (gaussian (Nd1 (A *m m + b)) (Nd2 (p^-1 *: (A *m P *m A^T + Q))))).
Proof.
move=> hT p0 pQ hg pP; have [w' [c [h1 h2]]] := hT g m P w hg pP; exists w'.
rewrite /proj_trans h1 /andthen /= bindE.
have pC := possemi_congr A (posdef_semi pP).
by rewrite (time_stepE _ p0 pC.1 pQ.1 _ h2) //; apply: posdefZ; rewrite ?invr_gt0 //; exact: posdefDr.
Qed.

Lemma proj_meas_exact n k F (H : 'M[R]_(k, n)) c (Rm : 'M[R]_k) p g m P y w : exact_on T F H c -> 0 < p -> posdef Rm ->
  momp g m P -> posdef P -> exists w',
  let K := cnd_J P (p^-1 *: Rm) H in
  proj_meas illcond T (Nd2 Rm) p F g (Nd1 y) w =
  (w', Ok (gaussian (Nd2 (outer_add m (K *m (y - (H *m m + c))))) (Nd2 (cnd_S P (p^-1 *: Rm) H)))).
Proof.
move=> hT p0 pR hg pP; have [w' [a [h1 h2]]] := hT g m P w hg pP; exists w'.
rewrite /proj_meas hg.2 bindE; have := np_cholesky_ok pP; case: np_cholesky => //= L _.
rewrite h1 /andthen /= bindE.
have pR' : posdef (p^-1 *: Rm) by apply: posdefZ; rewrite ?invr_gt0.
have vm : is_vec (Nd1 m) m by left.
rewrite (meas_stepE (P *m H^T) y p0 hg.1 vm hg.2 pP.1 h2 (cnd_C_pd H pP pR')).
do 3!f_equal; congr Nd2; rewrite /cnd_S -/(cnd_C _ _ _); congr (_ - _).
by rewrite trmx_mul trmxK pP.1 mulmxA.
Qed.

(** the smoothing step with next state (mu, Sg) *)
Lemma proj_back_exact n F (A : 'M[R]_n) b (Q : 'M[R]_n) g cav s m P mu Sg w : exact_on T F A b -> posdef Q ->
  momp g m P -> posdef P -> momp s mu Sg -> Sg^T = Sg -> exists w',
  let J := cnd_J P Q A in
  proj_back illcond T (Nd2 Q) 1 F g cav (Some s) w =
  (w', Ok (gaussian (Nd1 (m + J *m (mu - (A *m m + b)))) (Nd2 (cnd_S P Q A + J *m Sg *m J^T)))).
Proof.
move=> hT pQ hg pP hs sS; have [w' [a [h1 h2]]] := hT g m P w hg pP; exists w'.
rewrite /proj_back h1 /andthen /= bindE.
have e1 : (1 : R)^-1 *: Q = Q by rewrite invr1 scale1r.
have ht : back_target illcond 1 cav (Some s) a (Nd2 (A *m P *m A^T + (1 : R)^-1 *: Q)) = Ok (Nd1 mu, Nd2 Sg).
  by rewrite /back_target eqxx hs.1 bindE hs.2 bindE.
rewrite (back_stepE (P *m A^T) ltr01 hg pP.1 sS _ h2 ht); last by rewrite e1; exact: cnd_C_pd.
rewrite e1 -/(cnd_C P Q A) -/(cnd_J P Q A); do 3!f_equal; congr Nd2.
by rewrite mulmxBr mulmxBl addrA addrAC -cnd_S_sub.
Qed.
End Exact.

(** shape of the measurement update for any transform with a (n,k) cross covariance *)
Lemma niadd_shape m n (A : 'M[R]_(m, n)) b r : niadd (Nd2 A) b = Ok r -> exists B : 'M[R]_(m, n), r = Nd2 B.
Proof.
rewrite /niadd; case: nadd => [x|] //; rewrite bindE; case: eqP => // e [<-]; case: x e => //= k l B [e1 e2].
by case: m / e1 A; case: n / e2 => A; exists B.
Qed.
Lemma nmatmul_shape m k (K : 'M[R]_(m, k)) p (v : 'cV[R]_p) r : nmatmul (Nd2 K) (Nd2 v) = Ok r ->
  exists w : 'cV[R]_m, r = Nd2 w.
Proof. by rewrite /nmatmul; case: eqP => // _ [<-]; eexists. Qed.
Lemma nreshape_shape a : exists k (v : 'cV[R]_k), nreshape_col a = Nd2 v.
Proof. by case: a => [x|k v|k l A]; do 2!eexists. Qed.

Lemma np_solve_shape k n (Z : 'M[R]_k) (X : 'M[R]_(n, k)) r : np_solve (Nd2 Z) (ntr (Nd2 X)) = Ok r ->
  r = Nd2 (invmx Z *m X^T).
Proof. by rewrite /np_solve /= eqxx conform_mx_id rhs_solvemm bindE; case: ifP => // _ [<-]. Qed.

Lemma meas_step_shape n k (Rm : nd) p g ma (m : 'cV[R]_n) (y za : nd) (Z : 'M[R]_k) (X : 'M[R]_(n, k)) s :
  g_mean illcond g = Ok ma -> is_vec ma m -> meas_step illcond Rm p g y (za, Nd2 Z, Nd2 X) = Ok s ->
  exists w : 'cV[R]_n, g_mean illcond s = Ok (Nd2 (outer_add m w)).
Proof.
move=> hm vm; rewrite /meas_step; case: ndivs => [r|] //; rewrite bindE.
case E1: niadd => [c1|] //; have [Z1 ->] := niadd_shape E1; rewrite bindE symmetrizeE bindE.
case: np_cholesky => [L|] //; rewrite bindE; case E2: np_solve => [kt|] //; rewrite (np_solve_shape E2) bindE hm bindE.
case: nsub => [dv|] //; rewrite bindE; have [q [v ->]] := nreshape_shape dv.
case E3: nmatmul => [u|] //; have [w ->] := nmatmul_shape E3; rewrite bindE (nadd_outer w vm) bindE.
case: g_cov => [P|] //; rewrite bindE; case: nmatmul => [t|] //; rewrite bindE; case: nsub => [t2|] //; rewrite bindE.
by case: symmetrize => [t3|] //; rewrite bindE => -[<-]; exists w.
Qed.

(** *** the two branches of the backward update *)
Lemma gmul_pred n a (v : 'cV[R]_n) (C L : 'M[R]_n) cav s : natleast1 a = Nd1 v -> posdef C -> ~~ illcond C ->
  natp illcond cav L s ->
  (do c <- gpow illcond cav 1; gmul illcond (gaussian a (Nd2 C)) c) =
  Ok (Nat (Nd2 (invmx C + L)) (Nd1 (invmx C *m v + s))).
Proof.
move=> ha pC ic hc; rewrite (gpow1 hc) bindE (gaussian_v1 _ ha).
have sL : L^T = L by case: hc.
by rewrite (gmulE (natp_mom v pC ic) (natp_nat illcond s sL)).
Qed.

Lemma natp_fun n g (L L' : 'M[R]_n) s s' : natp illcond g L s -> natp illcond g L' s' -> L = L' /\ s = s'.
Proof. by case=> h1 h2 _ [h3 h4 _]; move: h3 h4; rewrite h1 h2 => /Ok_inj/Nd2_inj -> /Ok_inj/Nd1_inj ->. Qed.

Lemma back_agree n a (v : 'cV[R]_n) (C L : 'M[R]_n) cav s sh : natleast1 a = Nd1 v -> posdef C -> ~~ illcond C ->
  natp illcond cav L sh -> natp illcond s (invmx C + L) (invmx C *m v + sh) ->
  (if s is Mom _ _ then exists (mu : 'cV[R]_n) (Sg : 'M[R]_n), [/\ s = Mom (Nd1 mu) (Nd2 Sg), posdef Sg, ~~ illcond Sg, ~~ illcond (invmx Sg) &
     trace_min R <= \tr (invmx Sg)] else True) ->
  back_target illcond 1 cav (Some s) a (Nd2 C) = back_target illcond 1 cav None a (Nd2 C).
Proof.
move=> ha pC ic hc hs hm; rewrite /back_target eqxx.
have -> (X : Type) (k : gauss -> res X) : (do c <- gpow illcond cav 1; do q <- gmul illcond (gaussian a (Nd2 C)) c; k q) =
    k (Nat (Nd2 (invmx C + L)) (Nd1 (invmx C *m v + sh))).
  by have := gmul_pred ha pC ic hc; case: gpow => [c|] //; rewrite !bindE => ->; rewrite bindE.
case: s hs hm => [m c|p t] hs; last by case: hs => /= -[->] [->] _.
case=> mu [Sg [e pS i1 i2 tr]]; rewrite e in hs *.
have [e1 e2] := natp_fun (natp_mom mu pS i1) hs; rewrite -e1 -e2.
have [L' [s' [h1 /(_ tr) h2 _ _]]] := round_trip mu pS i1 i2.
have [e3 e4] := natp_fun (natp_mom mu pS i1) h1; rewrite -e3 -e4 in h2.
by case: h2 => /= -> ->.
Qed.

(** the unscented transform rejects a (n,n) mean for n != 1 *)
Lemma ut_reject n m alpha beta kappa F (Phi : 'cV[R]_n -> 'cV[R]_m) g (M P : 'M[R]_n) : n != 1%N ->
  0 < ut_npl n alpha kappa -> rowwise F Phi -> g_mean illcond g = Ok (Nd2 M) -> g_cov illcond g = Ok (Nd2 P) -> posdef P ->
  ut_transform illcond n alpha beta kappa F g = Err ValueErr.
Proof.
move=> n1 h hF hm hP pP; have h0 : ut_npl n alpha kappa != 0 by exact: lt0r_neq0.
case: (ut_factor pP.1) => [[_ [L hL eL]]|[nP _ _]|[nJ _]] //; last by case: nJ; exact: posdef_jit.
rewrite /ut_transform ut_weightsE // bindE hm bindE hP bindE /ut_sigma_points ltNge (ltW h) /=.
rewrite symmetrize_sym ?pP.1 // bindE hL bindE /= naddmm bindE nsubmm bindE /nvstack3 /= eqxx /= bindE hF bindE.
rewrite /nmatmul; case: eqP => // e; have : (1 + n = n + n)%N.
  by apply/eqP; rewrite -(eqn_add2r n) e.
by move/eqP; rewrite eqn_add2r eq_sym (negbTE n1).
Qed.

End Facts.
