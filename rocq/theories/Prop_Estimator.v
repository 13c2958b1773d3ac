(** * Properties C15-C19 (MomentMatching/Estimator.py), exact arithmetic *)
Set Warnings "-notation-overridden,-ambiguous-paths".
From mathcomp Require Import all_ssreflect all_algebra.
From mathcomp Require Import real_closed.realalg.
From Verif Require Import Base ND NDFacts PosDef LinAlg LinAlgFacts Gauss GaussFacts Transforms TransformFacts CondGauss
  Estimator EstimatorFacts Prop_Transforms.
Set Implicit Arguments.
Unset Strict Implicit.
Unset Printing Implicit Defensive.
Import GRing.Theory Num.Theory Order.Theory.
Local Open Scope ring_scope.

(** twice the negative log density of N(m, P) at x, up to the normalising constant *)
Definition nll (R : rcfType) n (m : 'cV[R]_n) (P : 'M[R]_n) (x : 'cV[R]_n) : R := qf (invmx P) (x - m).

Section Props.
Variable R : rcfType.
Variable illcond : forall n, 'M[R]_n -> bool.
Variable W : Type.
Notation gauss := (gauss R).
Notation momp := (momp illcond).
Notation exact_on := (@exact_on R illcond W).
Notation transform := (transform R W).

(** the transforms that are exact on affine functions *)
Theorem C15_unscented_exact m n (alpha beta kappa : R) F (A : 'M[R]_(m, n)) b : 0 < alpha ^+ 2 * (n%:R + kappa) ->
  rowwise F (fun x => A *m x + b) -> exact_on (pure_transform (ut_transform illcond n alpha beta kappa)) F A b.
Proof. exact: ut_exact. Qed.
Theorem C15_taylor_exact m n F (A : 'M[R]_(m, n)) b : (forall x, style F x (A *m x + b) A) ->
  exact_on (pure_transform (tt_transform illcond)) F A b.
Proof. exact: tt_exact. Qed.

(** C15: prediction; the joint density of (x, x') is the predicted density of x' times a Gaussian
    density of x (energies and normalising determinants both split) *)
Theorem C15_predict (T : transform) n F (A : 'M[R]_n) b Q p g (m : 'cV[R]_n) P w :
  exact_on T F A b -> 0 < p -> posdef Q -> momp g m P -> posdef P ->
  exists w' C J S,
  [/\ proj_trans T (Nd2 Q) p F g w = (w', Ok (gaussian (Nd1 (A *m m + b)) (Nd2 (p^-1 *: C)))), posdef C, posdef S,
      forall x x', nll m P x + nll (A *m x + b) Q x' = nll (A *m m + b) C x' + nll (m + J *m (x' - (A *m m + b))) S x &
      \det P * \det Q = \det C * \det S].
Proof.
move=> hT p0 pQ hg pP; have [w' h] := proj_trans_exact w hT p0 pQ hg pP.
exists w', (cnd_C P Q A), (cnd_J P Q A), (cnd_S P Q A); split=> //.
- exact: cnd_C_pd.
- exact: cnd_S_pd.
- move=> x x'; rewrite /nll opprD addrA -cnd_energy //; congr (_ + qf _ _).
  exact: innov_split.
- exact: cnd_det.
Qed.

(** C16: the diagonal of the returned mean and the returned covariance are those of the Bayes
    posterior under the likelihood raised to the power p *)
Theorem C16_bayes (T : transform) n k F (H : 'M[R]_(k, n)) c Rm p g (m : 'cV[R]_n) P y w :
  exact_on T F H c -> 0 < p -> posdef Rm -> momp g m P -> posdef P ->
  exists w' M S (m' : 'cV[R]_n),
  [/\ proj_meas illcond T (Nd2 Rm) p F g (Nd1 y) w = (w', Ok (gaussian (Nd2 M) (Nd2 S))), posdef S,
      S *m (invmx P + p *: (H^T *m invmx Rm *m H)) = 1%:M, forall i, M i i = m' i 0 &
      exists z, forall x, nll m P x + p * nll (H *m x + c) Rm y = nll m' S x + z].
Proof.
move=> hT p0 pR hg pP; have [w' h] := proj_meas_exact y w hT p0 pR hg pP.
have pR' : posdef (p^-1 *: Rm) by apply: posdefZ; rewrite ?invr_gt0.
have iR : invmx (p^-1 *: Rm) = p *: invmx Rm.
  have up : p^-1 \is a GRing.unit by rewrite unitfE invr_eq0 gt_eqF.
  by rewrite invmxZ ?invrK // unitmxZ // posdef_unit.
set K := cnd_J P (p^-1 *: Rm) H in h; set r := y - (H *m m + c) in h.
exists w', (outer_add m (K *m r)), (cnd_S P (p^-1 *: Rm) H), (m + K *m r); split=> //.
- exact: cnd_S_pd.
- rewrite cnd_S_inv // iR -scalemxAr -scalemxAl mulVmx // posdef_unit //.
  by have := posdef_info H pP pR'; rewrite iR -scalemxAr -scalemxAl.
- by move=> i; rewrite !mxE.
- exists (qf (invmx (cnd_C P (p^-1 *: Rm) H)) r) => x; rewrite /nll opprD addrA [RHS]addrC -cnd_energy // iR qfZm.
  by congr (_ + _ * qf _ _); exact: innov_split.
Qed.
(** C16: for a one-dimensional state the mean has shape (1,1) and is the posterior mean *)
Theorem C16_scalar (T : transform) k F (H : 'M[R]_(k, 1)) c Rm p g (m : 'cV[R]_1) P y w :
  exact_on T F H c -> 0 < p -> posdef Rm -> momp g m P -> posdef P ->
  exists w' S m', [/\ proj_meas illcond T (Nd2 Rm) p F g (Nd1 y) w = (w', Ok (gaussian (Nd2 m'^T) (Nd2 S))), posdef S &
      exists z, forall x, nll m P x + p * nll (H *m x + c) Rm y = nll m' S x + z].
Proof.
move=> hT p0 pR hg pP; have [w' [M [S [m' [h1 h2 _ h3 h4]]]]] := C16_bayes y w hT p0 pR hg pP.
exists w', S, m'; split=> //; rewrite h1; congr (_, Ok (gaussian (Nd2 _) _)).
by apply/matrixP=> i j; rewrite !ord1 h3 mxE.
Qed.

(** C17: for any transform, noise, power and observation, if the update succeeds on a state with
    mean of shape (d,) its mean has shape (d,d) with entry (i,j) = m_j + correction_i *)
Theorem C17_shape (T : transform) n k F Rm p g (m : 'cV[R]_n) y w w' za (Z : 'M[R]_k) (X : 'M[R]_(n, k)) w1 s :
  g_mean illcond g = Ok (Nd1 m) -> T F g w = (w1, Ok (za, Nd2 Z, Nd2 X)) ->
  proj_meas illcond T Rm p F g y w = (w', Ok s) ->
  exists (M : 'M[R]_n) (u : 'cV[R]_n), g_mean illcond s = Ok (Nd2 M) /\ forall i j, M i j = m j 0 + u i 0.
Proof.
move=> hm hT; rewrite /proj_meas; case: (do sc <- _; _) => // L; rewrite hT /andthen /= => -[_].
case E: (bind _ _) => [s'|] // [<-]; move: E; rewrite bindE => E.
have vm : is_vec (Nd1 m) m by left.
have [u hu] := meas_step_shape hm vm E.
by exists (outer_add m u), u; split=> // i j; rewrite mxE.
Qed.
(** C17: such a state is not accepted by the unscented transform unless d = 1 *)
Theorem C17_rejected n m (alpha beta kappa : R) F (Phi : 'cV[R]_n -> 'cV[R]_m) g (M P : 'M[R]_n) : n != 1%N ->
  0 < alpha ^+ 2 * (n%:R + kappa) -> rowwise F Phi ->
  g_mean illcond g = Ok (Nd2 M) -> g_cov illcond g = Ok (Nd2 P) -> posdef P ->
  ut_transform illcond n alpha beta kappa F g = Err ValueErr.
Proof. by rewrite -nplE => n1 h; exact: ut_reject. Qed.

(** C18: J, S as in C15 (x given x' is N(m + J (x' - A m - b), S)); the result is the marginal of x
    when x' ~ N(mu, Sg) *)
Theorem C18_smooth (T : transform) n F (A : 'M[R]_n) b Q g cav s (m : 'cV[R]_n) P (mu : 'cV[R]_n) Sg w :
  exact_on T F A b -> posdef Q -> momp g m P -> posdef P -> momp s mu Sg -> possemi Sg ->
  exists w' ms Ps J S,
  [/\ proj_back illcond T (Nd2 Q) 1 F g cav (Some s) w = (w', Ok (gaussian (Nd1 ms) (Nd2 Ps))),
      posdef S /\ forall x x', nll m P x + nll (A *m x + b) Q x' =
        nll (A *m m + b) (A *m P *m A^T + Q) x' + nll (m + J *m (x' - (A *m m + b))) S x,
      ms = m + J *m (mu - (A *m m + b)) /\ Ps = S + J *m Sg *m J^T, posdef Ps &
      posdef Sg -> exists J' S', [/\ posdef S',
        forall x x', nll mu Sg x' + nll (m + J *m (x' - (A *m m + b))) S x = nll ms Ps x + nll (mu + J' *m (x - ms)) S' x' &
        \det Sg * \det S = \det Ps * \det S']].
Proof.
move=> hT pQ hg pP hs sS; have [w' h] := proj_back_exact cav w hT pQ hg pP hs sS.1.
set J := cnd_J P Q A in h; set S := cnd_S P Q A in h; set d := A *m m + b.
have pS : posdef S by exact: cnd_S_pd.
exists w', (m + J *m (mu - d)), (S + J *m Sg *m J^T), J, S; split=> //.
- split=> // x x'; rewrite /nll opprD addrA -cnd_energy //; congr (_ + qf _ _).
  exact: innov_split.
- exact: posdefD (possemi_congr _ sS).
- move=> pSg; exists (cnd_J Sg S J), (cnd_S Sg S J); split; first exact: cnd_S_pd.
    move=> x x'; rewrite [S + _]addrC -/(cnd_C Sg S J) /nll.
    have -> : x' - (mu + cnd_J Sg S J *m (x - (m + J *m (mu - d)))) = x' - mu - cnd_J Sg S J *m (x - (m + J *m (mu - d))).
      by rewrite opprD addrA.
    rewrite -cnd_energy //; congr (_ + qf _ _).
    have -> : x' - d = (mu - d) + (x' - mu) by rewrite [RHS]addrC addrA subrK.
    by rewrite mulmxDr addrA opprD addrA.
  by rewrite [S + _]addrC; exact: cnd_det.
Qed.

(** C19: at power 1, for any transform: if the next marginal [s] has the natural parameters of
    prediction times cavity, passing it or leaving it out gives the same result (a marginal stored
    in moment form must survive a round trip through natural parameters, as every committed marginal,
    stored in natural form, trivially does) *)
Theorem C19_branches (T : transform) n F Q g cav s w w' a (v : 'cV[R]_n) (C L : 'M[R]_n) X sh :
  T F g w = (w', Ok (a, Nd2 C, X)) -> natleast1 a = Nd1 v -> posdef (C + Q) -> ~~ illcond (C + Q) ->
  natp illcond cav L sh -> natp illcond s (invmx (C + Q) + L) (invmx (C + Q) *m v + sh) ->
  (if s is Mom _ _ then exists (mu : 'cV[R]_n) (Sg : 'M[R]_n), [/\ s = Mom (Nd1 mu) (Nd2 Sg), posdef Sg, ~~ illcond Sg,
     ~~ illcond (invmx Sg) & trace_min R <= \tr (invmx Sg)] else True) ->
  proj_back illcond T (Nd2 Q) 1 F g cav (Some s) w = proj_back illcond T (Nd2 Q) 1 F g cav None w.
Proof.
move=> hT ha pC ic hc hs hm; rewrite /proj_back hT /andthen /= !bindE /back_step ndivs_ok ?oner_eq0 // !bindE /=.
rewrite niaddmm !bindE invr1 scale1r symmetrize_sym ?pC.1 // !bindE; case: np_solve => [jt|] //; rewrite !bindE.
by rewrite (back_agree ha pC ic hc hs hm).
Qed.
End Props.
Print Assumptions C15_unscented_exact. Print Assumptions C15_taylor_exact. Print Assumptions C15_predict.
Print Assumptions C16_bayes. Print Assumptions C16_scalar. Print Assumptions C17_shape. Print Assumptions C17_rejected.
Print Assumptions C18_smooth. Print Assumptions C19_branches.

(** ** Non-vacuity: two-dimensional constant-velocity step observed through its position *)
Section Examples.
Let R := [rcfType of realalg].
Let ill (n : nat) (A : 'M[R]_n) := false.
Let A : 'M[R]_2 := 1%:M + delta_mx 0 1.
Let H : 'M[R]_(1, 2) := delta_mx 0 0.
Let I2 : 'M[R]_2 := 1%:M.
Let g := gaussian (Nd1 (const_mx 1 : 'cV[R]_2)) (Nd2 I2).
Let ut := pure_transform (W := unit) (ut_transform ill 2 1 2%:R 1).
Let npl : 0 < 1 ^+ 2 * (2%:R + 1) :> R. Proof. by rewrite expr1n mul1r addr_gt0 ?ltr0n ?ltr01. Qed.
Example C15_example : exact_on ill ut (affine_fun A 0) A 0 /\ momp ill g (const_mx 1) I2 /\ posdef I2.
Proof.
split; last by split=> //; exact: posdef1.
by apply: C15_unscented_exact => //; exact: affine_fun_rows.
Qed.
Example C16_example : exact_on ill (pure_transform (W := unit) (tt_transform ill)) (affine_fun H 0) H 0 /\
  posdef (1%:M : 'M[R]_1).
Proof.
by split; [apply: C15_taylor_exact => x; exact: affine_fun_vec|exact: posdef1].
Qed.
(** the hypotheses of C17 hold on a concrete successful update, whose mean is not a valid mean *)
Example C17_example : exists w' M S, proj_meas ill ut (Nd2 (1%:M : 'M[R]_1)) 1 (affine_fun H 0) g (Nd1 (const_mx 0 : 'cV[R]_1)) tt =
  (w', Ok (gaussian (Nd2 (M : 'M[R]_2)) (Nd2 (S : 'M[R]_2)))) /\ posdef S.
Proof.
have ex : exact_on ill ut (affine_fun H 0) H 0 by apply: C15_unscented_exact => //; exact: affine_fun_rows.
have mg : momp ill g (const_mx 1) I2 by [].
have [w' [M [S [m' [h1 h2 _ _ _]]]]] := C16_bayes (const_mx 0 : 'cV[R]_1) tt ex ltr01 (posdef1 _ 1) mg (posdef1 _ 2).
by exists w', M, S.
Qed.
Example C18_example : momp ill (gaussian (Nd1 (0 : 'cV[R]_2)) (Nd2 I2)) 0 I2 /\ possemi I2.
Proof. by split=> //; apply/posdef_semi/posdef1. Qed.
(** prediction with covariance A A^T + I, cavity with precision I and zero shift, next marginal in natural form *)
Example C19_example : let C := A *m I2 *m A^T in
  (exists w', ut (affine_fun A 0) g tt = (w', Ok (Nd1 (A *m const_mx 1 + 0), Nd2 C, Nd2 (I2 *m A^T)))) /\
  posdef (C + I2) /\ ~~ ill (C + I2) /\ natp ill (from_natural (Nd2 I2) (Nd1 (0 : 'cV[R]_2))) I2 0 /\
  natp ill (from_natural (Nd2 (invmx (C + I2) + I2)) (Nd1 (invmx (C + I2) *m (A *m const_mx 1 + 0) + 0)))
    (invmx (C + I2) + I2) (invmx (C + I2) *m (A *m const_mx 1 + 0) + 0).
Proof.
move=> C; have pC : posdef (C + I2) by apply: posdef_innov; [apply/posdef_semi/posdef1|exact: posdef1].
split; last first.
  split=> //; split=> //; split; apply: natp_nat; first by rewrite trmx1.
  by rewrite linearD /= trmx1 (sym_inv pC.1).
exists tt; rewrite /ut /pure_transform; congr (_, _).
apply: C12_affine => //; [exact: affine_fun_rows|by left|exact: posdef1].
Qed.
End Examples.
