(** * Properties C07, C08 (Utils/linalg.py) *)
Set Warnings "-notation-overridden,-ambiguous-paths".
From mathcomp Require Import all_ssreflect all_algebra.
From mathcomp Require Import real_closed.realalg.
From Verif Require Import Base ND NDFacts PosDef LinAlg LinAlgFacts Gauss.
Set Implicit Arguments.
Unset Strict Implicit.
Unset Printing Implicit Defensive.
Import GRing.Theory Num.Theory Order.Theory.
Local Open Scope ring_scope.

(** C07: [validate_covariance(state)] with a symmetric covariance *)
Theorem C07_validate (R : rcfType) (illcond : forall n, 'M[R]_n -> bool) n (g : gauss R) (A : 'M[R]_n) :
  g_cov illcond g = Ok (Nd2 A) -> A^T = A ->
  (gvalidate illcond g = Ok tt <-> posdef A) /\ (~ posdef A -> gvalidate illcond g = Err LinAlgErr).
Proof.
move=> h sA; rewrite /gvalidate h bindE; split; first exact: validate_covP.
by move=> np; apply: validate_cov_fail => /validate_covP; auto.
Qed.
Print Assumptions C07_validate.

(** the factor that [np.linalg.cholesky] returns *)
Theorem C07_factor (R : rcfType) n (A : 'M[R]_n) (r : nd R) : A^T = A -> np_cholesky (Nd2 A) = Ok r ->
  exists L : 'M[R]_n,
    [/\ r = Nd2 L, forall i j : 'I_n, (i < j)%N -> L i j = 0, forall i, 0 < L i i & L *m L^T = A].
Proof.
move=> sA; rewrite np_choleskyE; case E: (chol A) => [L|] // [<-].
by have [[h1 h2] h3 _] := chol_sound sA E; exists L.
Qed.
Print Assumptions C07_factor.

(** both verdicts occur: 2 I is accepted, -I is rejected *)
Example C07_example (R := [rcfType of realalg]) (ill := fun n (_ : 'M[R]_n) => false) :
  let m : nd R := Nd1 (const_mx 1 : 'cV_2) in
  gvalidate ill (gaussian m (Nd2 (2%:R *: 1%:M : 'M_2))) = Ok tt /\
  gvalidate ill (gaussian m (Nd2 (- 1%:M : 'M_2))) = Err LinAlgErr.
Proof.
split.
  apply: (proj1 (C07_validate (A := 2%:R *: 1%:M) _ _)).2 => //; first by rewrite linearZ /= trmx1.
  by apply: posdefZ1; rewrite ltr0n.
apply: (C07_validate (A := - 1%:M) _ _).2 => //; first by rewrite linearN /= trmx1.
case=> _ /(_ (delta_mx 0 0)); rewrite -scaleN1r qfZm mulN1r.
have d0 : (delta_mx 0 0 : 'cV[R]_2) != 0.
  by apply/eqP=> /matrixP/(_ 0 0)/eqP; rewrite !mxE !eqxx oner_eq0.
move/(_ d0); rewrite oppr_gt0 => /(lt_trans ((posdef1 R 2).2 _ d0)).
by rewrite ltxx.
Qed.

(** C08 *)
Theorem C08_symmetrize (R : rcfType) n (A : 'M[R]_n) :
  exists S : 'M[R]_n,
  [/\ symmetrize (Nd2 A) = Ok (Nd2 S),
      S^T = S /\ (forall i j, S i j = (A i j + A j i) / 2%:R),
      A^T = A -> S = A & symmetrize (Nd2 S) = Ok (Nd2 S)].
Proof.
exists (sympart A); split.
- exact: symmetrizeE.
- split; first exact: sympart_sym.
  by move=> i j; rewrite !mxE mulrC.
- exact: sympart_id.
- by rewrite symmetrizeE sympart_id // sympart_sym.
Qed.
Print Assumptions C08_symmetrize.

(** a non-symmetric matrix is changed *)
Example C08_example (R := [rcfType of realalg]) :
  symmetrize (Nd2 (delta_mx 0 1 : 'M[R]_2)) <> Ok (Nd2 (delta_mx 0 1 : 'M[R]_2)).
Proof.
rewrite symmetrizeE => /Ok_inj/Nd2_inj/matrixP/(_ 1 0)/eqP.
by rewrite !mxE /= add0r mulr1 invr_eq0 pnatr_eq0.
Qed.
