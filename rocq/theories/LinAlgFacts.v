(** * Correctness of the linear-algebra model *)
Set Warnings "-notation-overridden,-ambiguous-paths".
From mathcomp Require Import all_ssreflect all_algebra.
From Verif Require Import Base ND NDFacts PosDef LinAlg.
Set Implicit Arguments.
Unset Strict Implicit.
Unset Printing Implicit Defensive.
Import GRing.Theory Num.Theory Order.Theory.
Local Open Scope ring_scope.

Section Facts.
Variable R : rcfType.

Lemma block_posdef k (a : 'M[R]_1) (b : 'M[R]_(1, k)) (c : 'M[R]_(k, 1)) (D : 'M[R]_k) :
  (block_mx a b c D)^T = block_mx a b c D -> [/\ a^T = a, b = c^T & D^T = D].
Proof.
rewrite tr_block_mx => /eq_block_mx [ha hc hb hD]; split=> //.
Qed.

(** quadratic form of a 2x2 block matrix *)
Lemma qf_block m k (A : 'M[R]_m) (B : 'M[R]_(m, k)) (C : 'M[R]_(k, m)) (D : 'M[R]_k) u w :
  qf (block_mx A B C D) (col_mx u w) = qf A u + bf B u w + bf C w u + qf D w.
Proof.
rewrite /qf /bf tr_col_mx mul_row_block mul_row_col !mulmxDl !mxE.
by rewrite -!addrA; congr (_ + _); rewrite addrCA.
Qed.

Lemma col_mx_eq0 m k (u : 'cV[R]_m) (w : 'cV[R]_k) : (col_mx u w == 0) = (u == 0) && (w == 0).
Proof.
apply/eqP/andP => [h|[/eqP-> /eqP->]]; last by rewrite col_mx0.
have : col_mx u w = col_mx 0 0 by rewrite h col_mx0.
by case/eq_col_mx=> -> ->.
Qed.

(** positive definiteness through the Schur complement of the upper-left block *)
Lemma posdef_schur m k (A : 'M[R]_m) (C : 'M[R]_(k, m)) (D : 'M[R]_k) :
  posdef (block_mx A C^T C D) <-> posdef A /\ posdef (D - C *m invmx A *m C^T).
Proof.
have qfE u w : posdef A ->
    qf (block_mx A C^T C D) (col_mx u w) =
    qf A (u + invmx A *m C^T *m w) + qf (D - C *m invmx A *m C^T) w.
  move=> pA; have uA := posdef_unit pA; have sA := pA.1.
  rewrite qf_block qfD // qfBm -!addrA; congr (_ + _).
  have -> : bf A u (invmx A *m C^T *m w) = bf C^T u w.
    by rewrite -bfMr !mulmxA mulmxV // mul1mx.
  have -> : qf A (invmx A *m C^T *m w) = qf (C *m invmx A *m C^T) w.
    rewrite -qf_congr !trmx_mul trmxK (sym_inv sA); congr qf.
    by rewrite -!mulmxA mulKVmx.
  rewrite [bf C w u]bfC [RHS]addrA mulr_natl mulr2n -!addrA; congr (_ + (_ + _)).
  by rewrite addrC addrNK.
split=> [[sM pM]|[pA pS]].
  have [sA _ sD] : [/\ A^T = A, True & D^T = D].
    by move: sM; rewrite tr_block_mx trmxK => /eq_block_mx [].
  have pA : posdef A.
    split=> // u u0; have := pM (col_mx u 0); rewrite col_mx_eq0 negb_and u0 => /(_ isT).
    by rewrite qf_block qf0 bf0l bf0r !addr0.
  split=> //; split.
    by rewrite linearB /= sD !trmx_mul trmxK (sym_inv sA) mulmxA.
  move=> w w0; have := pM (col_mx (- (invmx A *m C^T *m w)) w).
  by rewrite col_mx_eq0 negb_and w0 orbT => /(_ isT); rewrite qfE // addNr qf0 add0r.
have sA := pA.1; split.
  have sD : D^T = D.
    have := pS.1; rewrite linearB /= !trmx_mul trmxK (sym_inv sA) mulmxA.
    by move/addIr.
  by rewrite tr_block_mx trmxK sA sD.
move=> v; rewrite -(vsubmxK v) col_mx_eq0 negb_and qfE //.
set u := usubmx v; set w := dsubmx v.
have [->|w0 _] := eqVneq w 0.
  by rewrite orbF mulmx0 addr0 qf0 addr0 => /(pA.2).
by rewrite ltr_spaddr ?(posdef_semi pA).2 // pS.2.
Qed.

Lemma scalar11 (M : 'M[R]_1) : M = (M 0 0)%:M.
Proof. by apply/matrixP=> i j; rewrite !ord1 !mxE eqxx mulr1n. Qed.

Lemma posdef_scalar11 (a : R) : posdef (a%:M : 'M_1) <-> 0 < a.
Proof.
split=> [[_ /(_ 1%:M)]|a0].
  have -> : (1%:M : 'M[R]_1) != 0 by apply/eqP=> /matrixP/(_ 0 0)/eqP; rewrite !mxE oner_eq0.
  by move/(_ isT); rewrite /qf /bf trmx1 mul1mx mulmx1 mxE eqxx mulr1n.
split=> [|v v0]; first by rewrite tr_scalar_mx.
by rewrite -scalemx1 qfZm pmulr_rgt0 //; apply: (posdef1 R 1).2.
Qed.

Lemma posdef11 (M : 'M[R]_1) : posdef M <-> 0 < M 0 0.
Proof. by rewrite {1}[M]scalar11 posdef_scalar11. Qed.

Lemma invmx11 (a : R) : invmx (a%:M : 'M_1) = (a^-1)%:M.
Proof. by rewrite invmx_scalar. Qed.

(** spec of a Cholesky factor: lower triangular, positive diagonal *)
Definition chol_factor n (L : 'M[R]_n) :=
  (forall i j : 'I_n, (i < j)%N -> L i j = 0) /\ (forall i, 0 < L i i).

Lemma chol_sound n (A L : 'M[R]_n) : A^T = A -> chol A = Some L ->
  [/\ chol_factor L, L *m L^T = A & posdef A].
Proof.
elim: n A L => [|k IH] A L sA.
  case=> <-; split; first by split=> [[]|[]].
    by apply/matrixP=> [[]].
  by split=> // v; rewrite (flatmx0 v) eqxx.
rewrite /=; case: ifP => // a0; case E: (chol _) => [L'|] // [<-] {L}.
set a := A 0 0 in a0 E *; set s := Num.sqrt a in E *.
have s0 : 0 < s by rewrite sqrtr_gt0.
have ss : s ^+ 2 = a by rewrite sqr_sqrtr // ltW.
have haul : @ulsubmx _ 1 k 1 k A = a%:M.
  apply/matrixP=> i j; rewrite !ord1 !mxE eqxx mulr1n /a; congr (A _ _); exact: val_inj.
rewrite -[A](@submxK _ 1 k 1 k) in sA *; move: sA E haul.
move: (@ulsubmx _ 1 k 1 k A) (@ursubmx _ 1 k 1 k A) (@dlsubmx _ 1 k 1 k A) (@drsubmx _ 1 k 1 k A).
move=> ul ur dl dr sA E haul.
have [_ hur sdr] := block_posdef sA.
have sS : (dr - s^-1 *: dl *m (s^-1 *: dl)^T)^T = dr - s^-1 *: dl *m (s^-1 *: dl)^T.
  by rewrite linearB /= trmx_mul trmxK sdr.
have [[low dia] LL pS] := IH _ _ sS E.
have eLL : (block_mx s%:M 0 (s^-1 *: dl) L' : 'M_(1 + k)) *m
           (block_mx s%:M 0 (s^-1 *: dl) L')^T = block_mx ul ur dl dr.
  rewrite tr_block_mx mulmx_block !trmx0 !mulmx0 !mul0mx !addr0 tr_scalar_mx.
  rewrite LL haul hur -scalar_mxM -expr2 ss linearZ /= mul_scalar_mx mul_mx_scalar.
  by rewrite !scalerA mulfV ?mulVf ?gt_eqF // !scale1r addrC subrK.
rewrite block_mxKdl; split=> //.
- split.
    move=> i j; rewrite -[i](@splitK 1 k) -[j](@splitK 1 k).
    case: (@split 1 k i) => i'; case: (@split 1 k j) => j' /=.
    + by rewrite !ord1.
    + by rewrite (@block_mxEur _ 1 k 1 k) mxE.
    + by rewrite !ord1.
    + by rewrite (@block_mxEdr _ 1 k 1 k) ltn_add2l => /low.
  move=> i; rewrite -[i](@splitK 1 k); case: (@split 1 k i) => i' /=.
    by rewrite (@block_mxEul _ 1 k 1 k) !ord1 mxE eqxx mulr1n.
  by rewrite (@block_mxEdr _ 1 k 1 k).
- rewrite hur; apply: (proj2 (@posdef_schur 1 k _ _ _)); split.
    by apply/posdef11; rewrite haul mxE eqxx mulr1n.
  rewrite haul invmx11; move: pS; congr posdef; congr (_ - _).
  rewrite mul_mx_scalar -scalemxAl linearZ /= -scalemxAr scalerA -scalemxAl; congr (_ *: _).
  by rewrite -invfM -expr2 ss.
Qed.

Lemma chol_complete n (A : 'M[R]_n) : posdef A -> exists L, chol A = Some L.
Proof.
elim: n A => [|k IH] A pA; first by exists A.
rewrite /=; set a := A 0 0.
rewrite -[A](@submxK _ 1 k 1 k) in pA.
have sA := pA.1; have [_ hur _] := block_posdef sA.
have haul : @ulsubmx _ 1 k 1 k A = a%:M.
  apply/matrixP=> i j; rewrite !ord1 !mxE eqxx mulr1n /a; congr (A _ _); exact: val_inj.
move: pA; rewrite hur => /(proj1 (@posdef_schur 1 k _ _ _)) []; rewrite haul => /posdef11; rewrite mxE eqxx mulr1n => a0.
rewrite a0 invmx11.
set S := _ - _; set S' := _ - _ *m (_)^T => pS.
have <- : S = S'.
  rewrite /S /S'; congr (_ - _).
  rewrite mul_mx_scalar -!scalemxAl linearZ /= -scalemxAr scalerA; congr (_ *: _).
  by rewrite -invfM -expr2 sqr_sqrtr // ltW.
by have [L ->] := IH _ pS; eexists.
Qed.

Lemma chol_posdef n (A : 'M[R]_n) : A^T = A -> posdef A <-> isSome (chol A).
Proof.
move=> sA; split=> [/chol_complete [L ->] //|].
by case E: (chol A) => [L|] // _; have [] := chol_sound sA E.
Qed.

Lemma chol_none n (A : 'M[R]_n) : A^T = A -> chol A = None <-> ~ posdef A.
Proof.
move=> sA; have := chol_posdef sA; case: (chol A) => [L|] [h1 h2]; split=> //.
- by move=> np; case: np; apply: h2.
- by move=> _ /h1.
Qed.

Lemma np_choleskyE n (A : 'M[R]_n) :
  np_cholesky (Nd2 A) = if chol A is Some L then Ok (Nd2 L) else Err LinAlgErr.
Proof. by rewrite /np_cholesky eqxx conform_mx_id. Qed.

Lemma np_cholesky_ok n (A : 'M[R]_n) : posdef A -> isOk (np_cholesky (Nd2 A)).
Proof. by move=> /chol_complete [L h]; rewrite np_choleskyE h. Qed.

Lemma validate_covP n (A : 'M[R]_n) : A^T = A -> validate_cov (Nd2 A) = Ok tt <-> posdef A.
Proof.
move=> sA; rewrite /validate_cov np_choleskyE; have [h1 h2] := chol_posdef sA.
by case E: (chol A) h1 h2 => [L|] h1 h2 /=; split=> // h; [apply: h2|have := h1 h].
Qed.

Lemma validate_cov_fail n (A : 'M[R]_n) :
  validate_cov (Nd2 A) <> Ok tt -> validate_cov (Nd2 A) = Err LinAlgErr.
Proof. by rewrite /validate_cov np_choleskyE; case: (chol A). Qed.

Lemma upsym_id n (A : 'M[R]_n) : A^T = A -> upsym A = A.
Proof.
move=> sA; apply/matrixP=> i j; rewrite mxE; case: ifP => // _.
by rewrite -{1}sA mxE.
Qed.

Section Solve.
Variable illcond : forall n, 'M[R]_n -> bool.

Lemma rhs_solve_eye n (B : 'M[R]_n) : rhs_solve B (neye n) = Ok (Nd2 B).
Proof. by rewrite /rhs_solve /neye eqxx conform_mx_id mulmx1. Qed.

Lemma rhs_solvemm n p (B : 'M[R]_n) (X : 'M[R]_(n, p)) : rhs_solve B (Nd2 X) = Ok (Nd2 (B *m X)).
Proof. by rewrite /rhs_solve eqxx conform_mx_id. Qed.

Lemma np_solvemm n p (A : 'M[R]_n) (X : 'M[R]_(n, p)) : A \in unitmx ->
  np_solve (Nd2 A) (Nd2 X) = Ok (Nd2 (invmx A *m X)).
Proof. by move=> uA; rewrite /np_solve eqxx conform_mx_id rhs_solvemm bindE uA. Qed.

Lemma sp_solve_posE n (A : 'M[R]_n) : A^T = A ->
  sp_solve_pos illcond (Nd2 A) (neye n) =
  if chol A is Some _ then (if illcond A then Err LinAlgWarn else Ok (Nd2 (invmx A)))
  else Err LinAlgErr.
Proof.
move=> sA; rewrite /sp_solve_pos /= eqxx conform_mx_id rhs_solve_eye bindE sA.
by rewrite upsym_id.
Qed.

Lemma sp_solve_pos_pd n (A : 'M[R]_n) : posdef A -> ~~ illcond A ->
  sp_solve_pos illcond (Nd2 A) (neye n) = Ok (Nd2 (invmx A)).
Proof.
move=> pA /negbTE ic; rewrite sp_solve_posE ?pA.1 //.
by have [L ->] := chol_complete pA; rewrite ic.
Qed.

Lemma sp_solve_genE n (A : 'M[R]_n) :
  sp_solve_gen illcond (Nd2 A) (neye n) =
  if A \in unitmx then (if illcond A then Err LinAlgWarn else Ok (Nd2 (invmx A)))
  else Err LinAlgErr.
Proof. by rewrite /sp_solve_gen /= eqxx conform_mx_id rhs_solve_eye bindE. Qed.

Lemma jitter_matE n (A : 'M[R]_n) :
  jitter_mat (Nd2 A) = Ok (Nd2 (sympart A + jit *: 1%:M)).
Proof. by rewrite /jitter_mat symmetrizeE bindE /= bindE naddmm. Qed.

Lemma jit_gt0 : 0 < jit :> R.
Proof. by rewrite invr_gt0 exprn_gt0 // ltr0n. Qed.

Lemma jittered_solve_posE n (A : 'M[R]_n) : A^T = A ->
  jittered_solve_pos illcond (Nd2 A) (neye n) =
  let A' := A + jit *: 1%:M in
  if A' \in unitmx then
    (if illcond A' then Err LinAlgWarn else Ok (Nd2 (invmx A')))
  else Err LinAlgErr.
Proof.
move=> sA; rewrite /jittered_solve_pos jitter_matE bindE sympart_id //.
set A' := A + _; have sA' : A'^T = A' by rewrite /A' linearD /= linearZ /= trmx1 sA.
rewrite sp_solve_posE // sp_solve_genE; have [_ h] := chol_posdef sA'.
case E: (chol A') h => [L|] /= h; last by [].
by rewrite (posdef_unit (h isT)); case: ifP.
Qed.

Lemma symmetrize_inv n (A : 'M[R]_n) : A^T = A ->
  symmetrize (Nd2 (invmx A)) = Ok (Nd2 (invmx A)).
Proof. by move=> sA; rewrite symmetrize_sym // sym_inv. Qed.

End Solve.
End Facts.
