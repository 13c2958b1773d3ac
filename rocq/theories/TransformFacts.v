(** * Facts about the transforms *)
Set Warnings "-notation-overridden,-ambiguous-paths".
From mathcomp Require Import all_ssreflect all_algebra.
From Verif Require Import Base ND NDFacts PosDef LinAlg LinAlgFacts Gauss GaussFacts EPGauss Transforms.
Set Implicit Arguments.
Unset Strict Implicit.
Unset Printing Implicit Defensive.
Import GRing.Theory Num.Theory Order.Theory.
Local Open Scope ring_scope.

Section Facts.
Variable R : rcfType.
Variable illcond : forall n, 'M[R]_n -> bool.
Notation nd := (nd R).
Notation gauss := (gauss R).
Notation dfun := (dfun R).

(** ** arrays *)
Lemma bop_vM op k d (v : 'cV[R]_d) (B : 'M[R]_(k, d)) :
  bop op (Nd1 v) (Nd2 B) = Ok (Nd2 (\matrix_(i, j) op (v j 0) (B i j))).
Proof.
rewrite /bop /bop2 bdim1n bdimnn; congr (Ok (Nd2 _)); apply/matrixP=> i j.
by rewrite !mxE bent_row bentE.
Qed.
Lemma bop_Mv op k d (v : 'cV[R]_d) (B : 'M[R]_(k, d)) :
  bop op (Nd2 B) (Nd1 v) = Ok (Nd2 (\matrix_(i, j) op (B i j) (v j 0))).
Proof.
rewrite /bop /bop2 bdimn1 bdimnn; congr (Ok (Nd2 _)); apply/matrixP=> i j.
by rewrite !mxE bent_row bentE.
Qed.

(** [k] rows equal to [v] *)
Definition rows k d (v : 'cV[R]_d) : 'M[R]_(k, d) := \matrix_(i, j) v j 0.
Lemma rowsE k d (v : 'cV[R]_d) : rows k v = const_mx 1 *m v^T.
Proof. by apply/matrixP=> i j; rewrite !mxE big_ord_recl big_ord0 !mxE mul1r addr0. Qed.
Lemma rows_mul k d e (v : 'cV[R]_d) (B : 'M[R]_(d, e)) : rows k v *m B = rows k (B^T *m v).
Proof. by rewrite !rowsE -mulmxA trmx_mul trmxK. Qed.
Lemma rowsD k d (v w : 'cV[R]_d) : rows k (v + w) = rows k v + rows k w.
Proof. by apply/matrixP=> i j; rewrite !mxE. Qed.

(** a mean of shape (d,) or (1,d) *)
Definition is_vec d (a : nd) (m : 'cV[R]_d) : Prop := a = Nd1 m \/ a = Nd2 m^T.

(** ** unscented transform *)
Section UT.
Variables (n : nat) (alpha beta kappa : R).
Notation pts := (1 + n + n)%N.
Notation lam := (ut_lambda n alpha kappa).
Notation npl := (ut_npl n alpha kappa).
Notation wm := (ut_wm n alpha kappa).
Notation wc := (ut_wc n alpha beta kappa).

Lemma nplE : npl = alpha ^+ 2 * (n%:R + kappa).
Proof. by rewrite /ut_npl /ut_lambda addrC subrK. Qed.

(** indices: the centre, the n points mean + column, the n points mean - column *)
Definition ic : 'I_pts := lshift n (lshift n 0).
Definition ip (j : 'I_n) : 'I_pts := lshift n (rshift 1 j).
Definition im (j : 'I_n) : 'I_pts := rshift (1 + n) j.
Lemma sum_pts (V : zmodType) (F : 'I_pts -> V) :
  \sum_i F i = F ic + \sum_j (F (ip j) + F (im j)).
Proof. by rewrite big_split_ord big_split_ord /= big_ord_recl big_ord0 addr0 big_split /= addrA. Qed.

Lemma wm_c : wm ic 0 = lam / npl. Proof. by rewrite mxE. Qed.
Lemma wm_p j : wm (ip j) 0 = (2%:R * npl)^-1. Proof. by rewrite mxE div1r. Qed.
Lemma wm_m j : wm (im j) 0 = (2%:R * npl)^-1. Proof. by rewrite mxE div1r. Qed.
Lemma wc_p j : wc (ip j) 0 = (2%:R * npl)^-1. Proof. by rewrite mxE div1r. Qed.
Lemma wc_m j : wc (im j) 0 = (2%:R * npl)^-1. Proof. by rewrite mxE div1r. Qed.

Lemma half2 (x : R) : (2%:R * x)^-1 + (2%:R * x)^-1 = x^-1.
Proof.
by rewrite invfM -mulrDl -mulr2n -[_ *+ 2]mulr_natl mulfV ?mul1r // pnatr_eq0.
Qed.

Hypothesis npl0 : npl != 0.

Lemma wm_sum : \sum_i wm i 0 = 1.
Proof.
rewrite sum_pts wm_c (eq_bigr (fun=> npl^-1)); last by move=> j _; rewrite wm_p wm_m half2.
by rewrite sumr_const card_ord -mulr_natl -mulrDl addrC mulfV.
Qed.

(** the centring matrix [I - 1 w_m^T] *)
Definition ctr : 'M[R]_pts := 1%:M - rows pts wm.
Lemma ctr_mul d (X : 'M[R]_(pts, d)) : ctr *m X = X - rows pts (X^T *m wm).
Proof. by rewrite mulmxBl mul1mx rows_mul. Qed.
Lemma ctr_rows d (v : 'cV[R]_d) : ctr *m rows pts v = 0.
Proof.
rewrite ctr_mul; apply/matrixP=> i j; rewrite !mxE.
rewrite (eq_bigr (fun k => v j 0 * wm k 0)); last by move=> k _; rewrite !mxE.
by rewrite -mulr_sumr wm_sum mulr1 subrr.
Qed.

Definition Wm : 'M[R]_pts := ctr^T *m diag_mx wc^T *m ctr.
Lemma Wm_sym : Wm^T = Wm.
Proof. by rewrite /Wm !trmx_mul tr_diag_mx trmxK mulmxA. Qed.

Lemma ut_weightsE : ut_weights n alpha beta kappa = Ok (Nd1 wm, Nd2 Wm).
Proof.
rewrite /ut_weights (negbTE npl0) /nsub /neye bop_Mv bindE.
have -> : \matrix_(i, j) ((1%:M : 'M[R]_pts) i j - wm j 0) = ctr.
  by apply/matrixP=> i j; rewrite !mxE.
rewrite /ntr nmatmulmm bindE nmatmulmm bindE symmetrize_sym ?bindE //; exact: Wm_sym.
Qed.

(** weighted moments in matrix form and as sums over the points *)
Lemma Wm_mul d e (X : 'M[R]_(pts, d)) (Y : 'M[R]_(pts, e)) :
  X^T *m Wm *m Y = (ctr *m X)^T *m diag_mx wc^T *m (ctr *m Y).
Proof. by rewrite /Wm trmx_mul !mulmxA. Qed.
Lemma diag_sum d e (X : 'M[R]_(pts, d)) (Y : 'M[R]_(pts, e)) :
  X^T *m diag_mx wc^T *m Y = \sum_i wc i 0 *: ((row i X)^T *m row i Y).
Proof.
apply/matrixP=> a b; rewrite summxE !mxE; apply: eq_bigr => i _.
by rewrite mul_mx_diag !mxE big_ord_recl big_ord0 addr0 !mxE mulrA [X i a * _]mulrC.
Qed.
End UT.

(** ** sigma points *)
Section Sigma.
Variables (n : nat) (alpha beta kappa : R).
Notation pts := (1 + n + n)%N.
Notation npl := (ut_npl n alpha kappa).
Hypothesis npl_gt0 : 0 < npl.

Definition spts (m : 'cV[R]_n) (L : 'M[R]_n) : 'M[R]_(pts, n) :=
  col_mx (col_mx m^T (rows n m + Num.sqrt npl *: L)) (rows n m - Num.sqrt npl *: L).

Lemma row_spts m L : [/\ row (ic n) (spts m L) = m^T,
  forall j, row (ip j) (spts m L) = m^T + Num.sqrt npl *: row j L &
  forall j, row (im j) (spts m L) = m^T - Num.sqrt npl *: row j L].
Proof.
split=> [|j|j].
- by apply/rowP=> k; rewrite !mxE (unsplitK (inl _)) mxE (unsplitK (inl _)) mxE.
- by apply/rowP=> k; rewrite !mxE (unsplitK (inl _)) mxE (unsplitK (inr _)) !mxE.
- by apply/rowP=> k; rewrite !mxE (unsplitK (inr _)) !mxE.
Qed.

Lemma sigma_of a m (S L : 'M[R]_n) : is_vec a m ->
  catch_any (sp_cholesky false (Nd2 S)) (jittered_chol false (Nd2 S)) = Ok (Nd2 L) ->
  forall P, sympart P = S -> ut_sigma_points n alpha kappa a (Nd2 P) = Ok (Nd2 (spts m L)).
Proof.
move=> ha hL P hP; rewrite /ut_sigma_points ltNge (ltW npl_gt0) /= symmetrizeE bindE hP hL bindE.
have e1 : nadd a (Nd2 (Num.sqrt npl *: L)) = Ok (Nd2 (rows n m + Num.sqrt npl *: L)).
  have -> : nadd a (Nd2 (Num.sqrt npl *: L)) = nadd (Nd1 m) (Nd2 (Num.sqrt npl *: L)) by case: ha => ->.
  by rewrite /nadd bop_vm; congr (Ok (Nd2 _)); apply/matrixP=> i j; rewrite !mxE.
have e2 : nsub a (Nd2 (Num.sqrt npl *: L)) = Ok (Nd2 (rows n m - Num.sqrt npl *: L)).
  have -> : nsub a (Nd2 (Num.sqrt npl *: L)) = nsub (Nd1 m) (Nd2 (Num.sqrt npl *: L)) by case: ha => ->.
  by rewrite /nsub bop_vm; congr (Ok (Nd2 _)); apply/matrixP=> i j; rewrite !mxE.
rewrite /= e1 bindE e2 bindE.
have -> b c : nvstack3 a b c = nvstack3 (Nd1 m) b c by case: ha => ->.
by rewrite /nvstack3 /= !eqxx /= !conform_mx_id.
Qed.

(** the factor used: [L^T L] is the symmetrised covariance, plus [1e-10 I] if that is not
    positive definite *)
Lemma chol_upper (S : 'M[R]_n) : posdef S -> exists2 L : 'M[R]_n, sp_cholesky false (Nd2 S) = Ok (Nd2 L) & L^T *m L = S.
Proof.
move=> pS; have [L hL] := chol_complete pS; exists L^T.
  by rewrite /sp_cholesky /= eqxx conform_mx_id pS.1 hL.
by rewrite trmxK; have [] := chol_sound pS.1 hL.
Qed.
Lemma ut_factor (S : 'M[R]_n) : S^T = S ->
  [\/ posdef S /\ exists2 L : 'M[R]_n, catch_any (sp_cholesky false (Nd2 S)) (jittered_chol false (Nd2 S)) = Ok (Nd2 L) &
        L^T *m L = S,
      [/\ ~ posdef S, posdef (S + jit *: 1%:M) & exists2 L : 'M[R]_n,
        catch_any (sp_cholesky false (Nd2 S)) (jittered_chol false (Nd2 S)) = Ok (Nd2 L) &
        L^T *m L = S + jit *: 1%:M] |
      ~ posdef (S + jit *: 1%:M) /\
        catch_any (sp_cholesky false (Nd2 S)) (jittered_chol false (Nd2 S)) = Err LinAlgErr].
Proof.
move=> sS; have sJ : (S + jit *: 1%:M)^T = S + jit *: 1%:M by rewrite linearD linearZ /= trmx1 sS.
have fl (T : 'M[R]_n) : T^T = T -> ~ posdef T -> sp_cholesky false (Nd2 T) = Err LinAlgErr.
  by move=> sT nT; rewrite /sp_cholesky /= eqxx conform_mx_id sT; have/(chol_none sT) -> := nT.
have jE : jittered_chol false (Nd2 S) = sp_cholesky false (Nd2 (S + jit *: 1%:M)).
  by rewrite /jittered_chol jitter_matE bindE sympart_id.
case h : (isSome (chol S)).
  have/(chol_posdef sS) pS := h; constructor 1; split=> //.
  by have [L hL hL'] := chol_upper pS; exists L; rewrite ?hL.
have nS : ~ posdef S by move/(chol_posdef sS); rewrite h.
rewrite (fl S sS nS) /= jE; case h' : (isSome (chol (S + jit *: 1%:M))).
  by have/(chol_posdef sJ) pJ := h'; constructor 2; split=> //; exact: chol_upper.
have nJ : ~ posdef (S + jit *: 1%:M) by move/(chol_posdef sJ); rewrite h'.
by constructor 3; split=> //; exact: fl.
Qed.

Hypothesis npl0 : npl != 0.

(** the points reproduce mean and covariance *)
Lemma sqr_npl : Num.sqrt npl * Num.sqrt npl = npl.
Proof. by rewrite -expr2 sqr_sqrtr // ltW. Qed.

Lemma spts_mean m L : (spts m L)^T *m ut_wm n alpha kappa = m.
Proof.
have [r0 rp rm] := row_spts m L.
have -> : (spts m L)^T *m ut_wm n alpha kappa = \sum_i ut_wm n alpha kappa i 0 *: (row i (spts m L))^T.
  apply/colP=> k; rewrite summxE !mxE; apply: eq_bigr => i _; by rewrite !mxE mulrC.
rewrite sum_pts r0 (eq_bigr (fun j => npl^-1 *: m)); last first.
  move=> j _; rewrite rp rm wm_p wm_m -scalerDr -linearD addrACA subrr addr0 -linearD /= trmxK.
  by rewrite -mulr2n -scaler_nat scalerA invfM mulrAC mulVf ?mul1r // pnatr_eq0.
rewrite trmxK wm_c sumr_const card_ord -scaler_nat scalerA -scalerDl -mulrDl addrC mulfV ?scale1r //.
Qed.

Lemma ctr_spts m L : ctr n alpha kappa *m spts m L =
  col_mx (col_mx 0 (Num.sqrt npl *: L)) (- (Num.sqrt npl *: L)).
Proof.
rewrite ctr_mul spts_mean; apply/row_matrixP=> i.
have [r0 rp rm] := row_spts m L.
have [r0' rp' rm'] : [/\ row (ic n) (col_mx (col_mx (0 : 'rV_n) (Num.sqrt npl *: L)) (- (Num.sqrt npl *: L))) = 0,
  forall j, row (ip j) (col_mx (col_mx (0 : 'rV_n) (Num.sqrt npl *: L)) (- (Num.sqrt npl *: L))) = Num.sqrt npl *: row j L &
  forall j, row (im j) (col_mx (col_mx (0 : 'rV_n) (Num.sqrt npl *: L)) (- (Num.sqrt npl *: L))) = - (Num.sqrt npl *: row j L)].
  split=> [|j|j].
  - by apply/rowP=> k; rewrite !mxE (unsplitK (inl _)) mxE (unsplitK (inl _)) mxE.
  - by apply/rowP=> k; rewrite !mxE (unsplitK (inl _)) mxE (unsplitK (inr _)) !mxE.
  - by apply/rowP=> k; rewrite !mxE (unsplitK (inr _)) !mxE.
have rr : row i (rows pts m) = m^T by apply/rowP=> k; rewrite !mxE.
rewrite linearB /= rr.
case: (splitP i) => [i'|j] hi.
  case: (splitP i') => [k|j] hk.
    have -> : i = ic n by apply: val_inj; rewrite /= hi hk (ord1 k).
    by rewrite r0 r0' subrr.
  have -> : i = ip j by apply: val_inj; rewrite /= hi hk.
  by rewrite rp rp' addrAC subrr add0r.
have -> : i = im j by apply: val_inj; rewrite /= hi.
by rewrite rm rm' addrAC subrr add0r.
Qed.

Lemma spts_cov m L : (spts m L)^T *m Wm n alpha beta kappa *m spts m L = L^T *m L.
Proof.
rewrite Wm_mul ctr_spts diag_sum sum_pts.
set X := col_mx _ _.
have [r0' rp' rm'] : [/\ row (ic n) X = 0,
  forall j, row (ip j) X = Num.sqrt npl *: row j L & forall j, row (im j) X = - (Num.sqrt npl *: row j L)].
  split=> [|j|j].
  - by apply/rowP=> k; rewrite !mxE (unsplitK (inl _)) mxE (unsplitK (inl _)) mxE.
  - by apply/rowP=> k; rewrite !mxE (unsplitK (inl _)) mxE (unsplitK (inr _)) !mxE.
  - by apply/rowP=> k; rewrite !mxE (unsplitK (inr _)) !mxE.
rewrite r0' mulmx0 scaler0 add0r.
transitivity (\sum_j (row j L)^T *m row j L).
  apply: eq_bigr => j _; rewrite rp' rm' wc_p wc_m -scalerDr.
  have -> : (- (Num.sqrt npl *: row j L))^T = - (Num.sqrt npl *: row j L)^T by rewrite linearN.
  have -> : (Num.sqrt npl *: row j L)^T = Num.sqrt npl *: (row j L)^T by rewrite linearZ.
  rewrite mulNmx mulmxN opprK -scalemxAl -scalemxAr scalerA sqr_npl -mulr2n -scaler_nat !scalerA.
  by rewrite -mulrA mulVf ?scale1r // mulf_neq0 ?pnatr_eq0.
by apply/matrixP=> a b; rewrite summxE !mxE; apply: eq_bigr => j _; rewrite !mxE big_ord_recl big_ord0 addr0 !mxE.
Qed.
Lemma spts_cov_wm m L : let x i := (row i (spts m L))^T in
  \sum_i ut_wm n alpha kappa i 0 *: ((x i - m) *m (x i - m)^T) = L^T *m L.
Proof.
move=> x; have [r0 rp rm] := row_spts m L.
have e0 : x (ic n) - m = 0 by rewrite /x r0 trmxK subrr.
have ep j : x (ip j) - m = Num.sqrt npl *: (row j L)^T.
  by rewrite /x rp linearD linearZ /= trmxK addrAC subrr add0r.
have em j : x (im j) - m = - (Num.sqrt npl *: (row j L)^T).
  by rewrite /x rm linearB linearZ /= trmxK addrAC subrr add0r.
rewrite sum_pts e0 mul0mx scaler0 add0r.
transitivity (\sum_j (row j L)^T *m row j L).
  apply: eq_bigr => j _; rewrite ep em wm_p wm_m -scalerDr.
  have -> : (- (Num.sqrt npl *: (row j L)^T))^T = - (Num.sqrt npl *: row j L) by rewrite linearN linearZ /= trmxK.
  have -> : (Num.sqrt npl *: (row j L)^T)^T = Num.sqrt npl *: row j L by rewrite linearZ /= trmxK.
  rewrite mulNmx mulmxN opprK -scalemxAl -scalemxAr scalerA sqr_npl -mulr2n -scaler_nat !scalerA.
  by rewrite -mulrA mulVf ?scale1r // mulf_neq0 ?pnatr_eq0.
by apply/matrixP=> a b; rewrite summxE !mxE; apply: eq_bigr => j _; rewrite !mxE big_ord_recl big_ord0 addr0 !mxE.
Qed.
End Sigma.

(** ** functions that act on the rows of an array, like every vectorised system function *)
Definition rowmap n m (Phi : 'cV[R]_n -> 'cV[R]_m) k (X : 'M[R]_(k, n)) : 'M[R]_(k, m) :=
  \matrix_(i, j) Phi (row i X)^T j 0.
Definition rowwise n m (F : dfun) (Phi : 'cV[R]_n -> 'cV[R]_m) : Prop :=
  forall k (X : 'M[R]_(k, n)), call F (Nd2 X) = Ok (Nd2 (rowmap Phi X)).
Definition aff n m (A : 'M[R]_(m, n)) (b : 'cV[R]_m) (x : 'cV[R]_n) : 'cV[R]_m := A *m x + b.

Lemma row_rowmap n m (Phi : 'cV[R]_n -> 'cV[R]_m) k (X : 'M[R]_(k, n)) i :
  row i (rowmap Phi X) = (Phi (row i X)^T)^T.
Proof. by apply/rowP=> j; rewrite !mxE. Qed.
Lemma rowmap_aff n m (A : 'M[R]_(m, n)) b k (X : 'M[R]_(k, n)) :
  rowmap (aff A b) X = X *m A^T + rows k b.
Proof.
apply/matrixP=> i j; rewrite !mxE; congr (_ + _); apply: eq_bigr => a _.
by rewrite !mxE mulrC.
Qed.

Section UTrans.
Variables (n m : nat) (alpha beta kappa : R).
Notation pts := (1 + n + n)%N.
Notation npl := (ut_npl n alpha kappa).
Notation wm := (ut_wm n alpha kappa).
Notation wc := (ut_wc n alpha beta kappa).
Notation Wm := (Wm n alpha beta kappa).
Notation ctr := (ctr n alpha kappa).
Hypothesis npl_gt0 : 0 < npl.
Let npl0 : npl != 0. Proof. exact: lt0r_neq0. Qed.

(** with sigma points [S] *)
Lemma ut_core (F : dfun) (Phi : 'cV[R]_n -> 'cV[R]_m) g a P (S : 'M[R]_(pts, n)) : rowwise F Phi ->
  g_mean illcond g = Ok a -> g_cov illcond g = Ok P -> ut_sigma_points n alpha kappa a P = Ok (Nd2 S) ->
  ut_transform illcond n alpha beta kappa F g =
  Ok (Nd1 ((rowmap Phi S)^T *m wm), Nd2 ((rowmap Phi S)^T *m Wm *m rowmap Phi S), Nd2 (S^T *m Wm *m rowmap Phi S)).
Proof.
move=> hF hm hP hS; rewrite /ut_transform ut_weightsE // bindE hm bindE hP bindE hS bindE hF bindE.
rewrite nmatmulvm bindE /ntr nmatmulmm bindE nmatmulmm bindE symmetrize_sym; last first.
  by rewrite trmx_mul [in X in _ *m X]trmx_mul trmxK Wm_sym mulmxA.
by rewrite bindE nmatmulmm bindE nmatmulmm bindE.
Qed.

Lemma ut_affine (F : dfun) (A : 'M[R]_(m, n)) b g a v (P S L : 'M[R]_n) : rowwise F (aff A b) ->
  g_mean illcond g = Ok a -> is_vec a v -> g_cov illcond g = Ok (Nd2 P) -> sympart P = S ->
  catch_any (sp_cholesky false (Nd2 S)) (jittered_chol false (Nd2 S)) = Ok (Nd2 L) ->
  ut_transform illcond n alpha beta kappa F g =
  Ok (Nd1 (A *m v + b), Nd2 (A *m (L^T *m L) *m A^T), Nd2 ((L^T *m L) *m A^T)).
Proof.
move=> hF hm ha hP hS hL; rewrite (ut_core hF hm hP (sigma_of npl_gt0 ha hL hS)).
set X := spts _ _ _ _; rewrite rowmap_aff.
have e d (Z : 'M[R]_(pts, d)) : Z^T *m Wm *m (X *m A^T + rows pts b) = Z^T *m Wm *m X *m A^T.
  by rewrite mulmxDr [X in _ + X]Wm_mul (ctr_rows npl0) mulmx0 addr0 (mulmxA (Z^T *m Wm)).
have e' : (X *m A^T + rows pts b)^T *m Wm *m X = A *m (X^T *m Wm *m X).
  have sW (U : 'M[R]_pts) d d' (Y : 'M[R]_(pts, d)) (Z : 'M[R]_(pts, d')) : U^T = U ->
      (Y^T *m U *m Z)^T = Z^T *m U *m Y by move=> h; rewrite !trmx_mul trmxK h mulmxA.
  by rewrite -[LHS]trmxK (sW Wm) ?Wm_sym // e trmx_mul trmxK (sW Wm) ?Wm_sym.
have em : (X *m A^T + rows pts b)^T *m wm = A *m v + b.
  have -> : (X *m A^T + rows pts b)^T = A *m X^T + (rows pts b)^T by rewrite linearD /= trmx_mul trmxK.
  rewrite mulmxDl -mulmxA (spts_mean npl0); congr (_ + _).
  apply/colP=> j; rewrite !mxE (eq_bigr (fun k => b j 0 * wm k 0)); last by move=> k _; rewrite !mxE.
  by rewrite -mulr_sumr wm_sum // mulr1.
by rewrite em !e e' (spts_cov beta npl_gt0 npl0).
Qed.

(** the transform as weighted sums over the points *)
Lemma ut_sums (F : dfun) (Phi : 'cV[R]_n -> 'cV[R]_m) g a v (P S L : 'M[R]_n) : rowwise F Phi ->
  g_mean illcond g = Ok a -> is_vec a v -> g_cov illcond g = Ok (Nd2 P) -> sympart P = S ->
  catch_any (sp_cholesky false (Nd2 S)) (jittered_chol false (Nd2 S)) = Ok (Nd2 L) ->
  let x i := (row i (spts alpha kappa v L))^T in
  let mu := \sum_i wm i 0 *: Phi (x i) in
  ut_transform illcond n alpha beta kappa F g =
  Ok (Nd1 mu, Nd2 (\sum_i wc i 0 *: ((Phi (x i) - mu) *m (Phi (x i) - mu)^T)),
      Nd2 (\sum_i wc i 0 *: ((x i - v) *m (Phi (x i) - mu)^T))).
Proof.
move=> hF hm ha hP hS hL x mu; rewrite (ut_core hF hm hP (sigma_of npl_gt0 ha hL hS)).
set X := spts _ _ _ _; set Y := rowmap Phi X.
have eY : Y^T *m wm = mu.
  apply/colP=> k; rewrite /mu summxE !mxE; apply: eq_bigr => i _; by rewrite !mxE mulrC.
have rY i : (row i (ctr *m Y))^T = Phi (x i) - mu.
  rewrite ctr_mul eY linearB /= row_rowmap linearB /= trmxK; congr (_ - _).
  by apply/colP=> k; rewrite !mxE.
have rX i : (row i (ctr *m X))^T = x i - v.
  rewrite ctr_mul (spts_mean npl0) linearB /= linearB /=; congr (_ - _).
  by apply/colP=> k; rewrite !mxE.
rewrite eY !Wm_mul !diag_sum; congr (Ok _); congr (_, _); first congr (_, _); congr (Nd2 _); apply: eq_bigr => i _.
  by rewrite rY -[row i _]trmxK rY.
by rewrite rX -[row i (ctr *m Y)]trmxK rY.
Qed.
End UTrans.

(** a weighted sum of outer products with non-negative weights is positive semidefinite *)
Lemma possemi_outer k d (w : 'I_k -> R) (y : 'I_k -> 'cV[R]_d) : (forall i, 0 <= w i) ->
  possemi (\sum_i w i *: (y i *m (y i)^T)).
Proof.
move=> w0; elim/big_ind: _ => [|A B|i _]; first exact: possemi0.
  exact: possemiD.
apply: possemiZ => //; have -> : y i *m (y i)^T = y i *m 1%:M *m (y i)^T by rewrite mulmx1.
apply: possemi_congr; exact: posdef_semi (posdef1 _ 1).
Qed.

(** ** Taylor transform *)
(** row-major entries *)
Definition flat m n (J : 'M[R]_(m, n)) : seq R := mkseq (fun k => ent J (k %/ n) (k %% n)) (m * n).
Lemma nth_flat m n (J : 'M[R]_(m, n)) (i : 'I_m) (j : 'I_n) : nth 0 (flat J) (i * n + j) = J i j.
Proof.
have n0 : (0 < n)%N by case: n j {J} => [|//] [].
rewrite nth_mkseq; last first.
  apply: (@leq_trans (i.+1 * n)%N); first by rewrite mulSn addnC ltn_add2r.
  by rewrite leq_mul2r ltn_ord orbT.
by rewrite divnMDl // divn_small // addn0 modnMDl modn_small // entE.
Qed.

(** the two shapes of system functions: a vector in and a vector out, or a batch of one row out *)
Definition vec_style m n (F : dfun) (x : 'cV[R]_n) (y : 'cV[R]_m) (J : 'M[R]_(m, n)) : Prop :=
  call F (Nd1 x) = Ok (Nd1 y) /\ jac F (Nd1 x) = Ok (JLow (Nd2 J)).
Definition row_style m n (F : dfun) (x : 'cV[R]_n) (y : 'cV[R]_m) (J : 'M[R]_(m, n)) : Prop :=
  call F (Nd1 x) = Ok (Nd2 y^T) /\ jac F (Nd1 x) = Ok (JHigh [:: 1; m; n]%N (flat J)).

Lemma tt_jac_row m n F x (y : 'cV[R]_m) (J : 'M[R]_(m, n)) : row_style F x y J -> m != 1%N -> n != 1%N ->
  tt_jacobian F (Nd1 x) = Ok (Nd2 J).
Proof.
move=> [_ h] m1 n1; rewrite /tt_jacobian h bindE /jsqueeze /= m1 n1 /=.
by congr (Ok (Nd2 _)); apply/matrixP=> i j; rewrite mxE nth_flat.
Qed.
Lemma squeeze_row m (y : 'cV[R]_m) : m != 1%N -> nsqueeze (Nd2 y^T) = Nd1 y.
Proof.
move=> m1; rewrite /nsqueeze eqxx (negbTE m1); congr Nd1; apply/colP=> i.
by rewrite !mxE -[0%N]/(nat_of_ord (0 : 'I_1)) entE mxE.
Qed.
Lemma squeeze_vec m (y : 'cV[R]_m) : natleast1 (nsqueeze (Nd1 y)) = Nd1 y.
Proof.
rewrite /nsqueeze; case: eqP => [m1|//]; move: y; rewrite m1 => y /=; congr Nd1.
by apply/colP=> i; rewrite !mxE (ord1 i) -[0%N]/(nat_of_ord (0 : 'I_1)) entE.
Qed.
Lemma squeeze_row1 m (y : 'cV[R]_m) : natleast1 (nsqueeze (Nd2 y^T)) = Nd1 y.
Proof.
case: (eqVneq m 1%N) => [m1|m1]; last by rewrite squeeze_row.
move: y; rewrite m1 => y; rewrite /nsqueeze eqxx /=; congr Nd1.
by apply/colP=> i; rewrite !mxE (ord1 i) -[0%N]/(nat_of_ord (0 : 'I_1)) entE mxE.
Qed.

(** what a first-order linearisation at [x] gives *)
Definition style m n (F : dfun) (x : 'cV[R]_n) (y : 'cV[R]_m) (J : 'M[R]_(m, n)) : Prop :=
  vec_style F x y J \/ [/\ row_style F x y J, m != 1%N & n != 1%N].
Lemma tt_style m n F x (y : 'cV[R]_m) (J : 'M[R]_(m, n)) g P : style F x y J ->
  g_mean illcond g = Ok (Nd1 x) -> g_cov illcond g = Ok (Nd2 P) ->
  exists2 a, tt_transform illcond F g = Ok (a, Nd2 (J *m P *m J^T), Nd2 (P *m J^T)) & natleast1 a = Nd1 y.
Proof.
case=> [[h1 h2]|[[h1 h2] m1 n1]] hm hP.
  exists (nsqueeze (Nd1 y)); last exact: squeeze_vec.
  by rewrite /tt_transform hm bindE /tt_jacobian h2 bindE bindE h1 bindE hP bindE /= nmatmulmm bindE nmatmulmm bindE
    nmatmulmm bindE.
exists (nsqueeze (Nd2 y^T)); last exact: squeeze_row1.
have hj := tt_jac_row (conj h1 h2) m1 n1.
by rewrite /tt_transform hm bindE hj bindE h1 bindE hP bindE /= nmatmulmm bindE nmatmulmm bindE nmatmulmm bindE.
Qed.

(** row style with one output or one input *)
Lemma tt_row_single_in m F (x : 'cV[R]_1) (y : 'cV[R]_m) (J : 'M[R]_(m, 1)) g (P : 'M[R]_1) : row_style F x y J ->
  g_mean illcond g = Ok (Nd1 x) -> g_cov illcond g = Ok (Nd2 P) ->
  tt_transform illcond F g = Err ValueErr.
Proof.
move=> [h1 h2] hm hP; rewrite /tt_transform hm bindE /tt_jacobian h2 bindE /jsqueeze /=.
case: (eqVneq m 1%N) => [m1|m1] /=; first by rewrite bindE h1 bindE hP bindE /nmatmul bindE.
by rewrite bindE h1 bindE hP bindE /nmatmul (negbTE m1) bindE.
Qed.
Lemma tt_row_single_out n F (x : 'cV[R]_n) (y : 'cV[R]_1) (J : 'M[R]_(1, n)) g P : row_style F x y J -> n != 1%N ->
  g_mean illcond g = Ok (Nd1 x) -> g_cov illcond g = Ok (Nd2 P) ->
  tt_transform illcond F g = Ok (Nd0 (y 0 0), Nd0 ((J *m P *m J^T) 0 0), Nd1 (P *m J^T)).
Proof.
move=> [h1 h2] n1 hm hP; rewrite /tt_transform hm bindE /tt_jacobian h2 bindE /jsqueeze /= n1 /=.
have -> : \col_(i < n) nth 0 (flat J) i = J^T.
  apply/colP=> i; rewrite !mxE; have := nth_flat J 0 i.
  by rewrite /= mul0n add0n.
rewrite bindE h1 bindE hP bindE nmatmulvm bindE nmatmulvv bindE nmatmulmv bindE /nsqueeze eqxx /=.
congr (Ok (Nd0 _, Nd0 _, _)); first by rewrite -[0%N]/(nat_of_ord (0 : 'I_1)) entE mxE.
by rewrite trmx_mul !trmxK.
Qed.

(** ** Monte Carlo transform *)
Definition smean k d (X : 'M[R]_(k, d)) : 'cV[R]_d := (k%:R)^-1 *: \sum_(i < k) (row i X)^T.
Definition scross k d e (X : 'M[R]_(k, d)) (Y : 'M[R]_(k, e)) : 'M[R]_(d, e) :=
  (k.-1%:R)^-1 *: \sum_(i < k) ((row i X)^T - smean X) *m ((row i Y)^T - smean Y)^T.

Lemma mc_moments n m k F (Phi : 'cV[R]_n -> 'cV[R]_m) (X : 'M[R]_(k, n)) : (1 < k)%N -> rowwise F Phi ->
  let Y := rowmap Phi X in
  mc_transform (Nd2 X) F = Ok (Nd1 (smean Y), Nd2 (scross Y Y), Nd2 (scross X Y)).
Proof.
move=> k1 hF Y; rewrite /mc_transform hF bindE /nmean_rows -/Y.
have -> : (k == 0%N) = false by case: k k1 {X Y}.
rewrite bindE /ntr /sample_covariance eqxx leqNgt k1 conform_mx_id /= bindE.
clearbody Y; set Z := col_mx _ _; set Zb := _ *: \sum_k0 col k0 Z; set D := \matrix_(_, _) _.
have zb : Zb = col_mx (smean X) (smean Y).
  apply/colP=> i; rewrite !mxE !summxE; case: splitP => j hj; rewrite !mxE; congr (_ * _);
    rewrite summxE; apply: eq_bigr => a _; rewrite !mxE.
    by case: splitP => j' hj'; rewrite ?mxE; [congr (X _ _); apply: val_inj; rewrite /= -hj -hj'|
      move: (ltn_ord j); rewrite -hj hj' ltnNge leq_addr].
  by case: splitP => j' hj'; rewrite ?mxE; [move: (ltn_ord j'); rewrite -hj' hj ltnNge leq_addr|
    congr (Y _ _); apply: val_inj; apply/eqP; rewrite -(eqn_add2l n) /= -hj -hj'].
have dE : D = col_mx (\matrix_(i, a) (X a i - smean X i 0)) (\matrix_(i, a) (Y a i - smean Y i 0)).
  rewrite /D zb; apply/matrixP=> i a; rewrite !mxE; case: splitP => j hj; by rewrite !mxE.
rewrite dE tr_col_mx mul_col_row scale_block_mx block_mxKdr block_mxKur.
have sc d e (U : 'M[R]_(k, d)) (V : 'M[R]_(k, e)) :
  (\matrix_(i, a) (U a i - smean U i 0)) *m (\matrix_(i, a) (V a i - smean V i 0))^T =
  \sum_(i < k) ((row i U)^T - smean U) *m ((row i V)^T - smean V)^T.
  apply/matrixP=> i j; rewrite summxE !mxE; apply: eq_bigr => a _.
  by rewrite !mxE big_ord_recl big_ord0 addr0 !mxE.
by rewrite !sc.
Qed.

Lemma smean_aff n m k (A : 'M[R]_(m, n)) b (X : 'M[R]_(k, n)) : (0 < k)%N ->
  smean (rowmap (aff A b) X) = A *m smean X + b.
Proof.
move=> k0; rewrite /smean -scalemxAr mulmx_sumr.
rewrite (eq_bigr (fun i => A *m (row i X)^T + b)); last by move=> i _; rewrite row_rowmap trmxK.
rewrite big_split /= sumr_const card_ord scalerDr -scaler_nat scalerA mulVf ?scale1r //.
by rewrite pnatr_eq0 -lt0n.
Qed.
Lemma scross_aff n m k (A : 'M[R]_(m, n)) b (X : 'M[R]_(k, n)) : (0 < k)%N ->
  scross X (rowmap (aff A b) X) = scross X X *m A^T /\
  scross (rowmap (aff A b) X) (rowmap (aff A b) X) = A *m scross X X *m A^T.
Proof.
move=> k0; have e i : (row i (rowmap (aff A b) X))^T - smean (rowmap (aff A b) X) = A *m ((row i X)^T - smean X).
  by rewrite smean_aff // row_rowmap trmxK /aff mulmxBr opprD addrACA subrr addr0.
split; rewrite /scross -?scalemxAr -!scalemxAl ?mulmx_sumr mulmx_suml; congr (_ *: _); apply: eq_bigr => i _.
  by rewrite e trmx_mul mulmxA.
by rewrite e trmx_mul !mulmxA.
Qed.
Lemma scross_psd d k (X : 'M[R]_(k, d)) : possemi (scross X X).
Proof.
apply: possemiZ; first by rewrite invr_ge0 ler0n.
have := @possemi_outer k d (fun=> 1) (fun i => (row i X)^T - smean X) (fun=> ler01).
by congr possemi; apply: eq_bigr => i _; rewrite scale1r.
Qed.

End Facts.
