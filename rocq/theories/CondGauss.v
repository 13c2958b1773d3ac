(** * Joint Gaussian of (x, A x + b + noise): one decomposition behind prediction, Bayes' rule and smoothing *)
Set Warnings "-notation-overridden,-ambiguous-paths".
From Coq Require Import Ring Field.
From mathcomp Require Import all_ssreflect all_algebra.
From Verif Require Import Base FieldTac PosDef.
Set Implicit Arguments.
Unset Strict Implicit.
Unset Printing Implicit Defensive.
Import GRing.Theory Num.Theory Order.Theory.
Local Open Scope ring_scope.

Section Cond.
Variable R : rcfType.
Add Field fieldR : (ffth R).

(** Sylvester's determinant identity *)
Lemma det_sylvester m n (X : 'M[R]_(m, n)) (Y : 'M[R]_(n, m)) : \det (1%:M + X *m Y) = \det (1%:M + Y *m X).
Proof.
have e : block_mx (1%:M + X *m Y) (- X) 0 (1%:M : 'M[R]_n) *m block_mx (1%:M : 'M[R]_m) 0 Y (1%:M : 'M[R]_n) =
         block_mx (1%:M : 'M[R]_m) 0 Y (1%:M : 'M[R]_n) *m block_mx (1%:M : 'M[R]_m) (- X) 0 (1%:M + Y *m X).
  by rewrite !mulmx_block !mul1mx !mulmx1 ?mul0mx ?mulmx0 ?addr0 ?add0r mulNmx mulmxN addrK [- _ + _]addrC addrK.
have := f_equal determinant e.
by rewrite !det_mulmx !det_ublock !det_lblock !det1 !mulr1 !mul1r.
Qed.

Variables (m n : nat) (P : 'M[R]_n) (Q : 'M[R]_m) (A : 'M[R]_(m, n)).
Hypotheses (pP : posdef P) (pQ : posdef Q).

(** covariance of A x + noise; regression gain; covariance of x given A x + noise *)
Definition cnd_C : 'M[R]_m := A *m P *m A^T + Q.
Definition cnd_J : 'M[R]_(n, m) := P *m A^T *m invmx cnd_C.
Definition cnd_S : 'M[R]_n := P - cnd_J *m A *m P.

Lemma cnd_C_pd : posdef cnd_C.
Proof. exact: posdef_innov (posdef_semi pP) pQ. Qed.
Lemma cnd_S_inv : cnd_S = invmx (invmx P + A^T *m invmx Q *m A).
Proof. by rewrite -woodbury_inv. Qed.
Lemma cnd_S_pd : posdef cnd_S.
Proof. by rewrite cnd_S_inv; apply/posdef_inv/posdef_info. Qed.
Lemma cnd_J_info : cnd_J = cnd_S *m A^T *m invmx Q.
Proof. by rewrite cnd_S_inv -gain_info. Qed.
Lemma cnd_S_sub : cnd_S = P - cnd_J *m cnd_C *m cnd_J^T.
Proof.
rewrite /cnd_S /cnd_J; congr (_ - _).
have sC : (invmx cnd_C)^T = invmx cnd_C by apply/sym_inv/cnd_C_pd.1.
by rewrite !trmx_mul trmxK sC pP.1 -[_ *m invmx cnd_C *m cnd_C]mulmxA mulVmx ?posdef_unit ?mulmx1 ?mulmxA //; exact: cnd_C_pd.
Qed.

Lemma cnd_energy (e : 'cV[R]_n) (r : 'cV[R]_m) :
  qf (invmx P) e + qf (invmx Q) (r - A *m e) = qf (invmx cnd_C) r + qf (invmx cnd_S) (e - cnd_J *m r).
Proof.
set L := invmx P + A^T *m invmx Q *m A.
have pL : posdef L by exact: posdef_info.
have eL : invmx cnd_S = L by rewrite cnd_S_inv invmxK.
have LJ : L *m cnd_J = A^T *m invmx Q.
  by rewrite cnd_J_info cnd_S_inv -/L !mulmxA mulmxV ?mul1mx // posdef_unit.
have sQ := (posdef_inv pQ).1.
rewrite eL (qfB _ _ sQ) (qfB _ _ pL.1).
have -> : qf L e = qf (invmx P) e + qf (invmx Q) (A *m e) by rewrite /L qfDm qf_congr.
have -> : bf L e (cnd_J *m r) = bf (invmx Q) r (A *m e).
  by rewrite -bfMr LJ bfMl bfC sQ.
have -> : qf L (cnd_J *m r) = bf (invmx Q) (A *m (cnd_J *m r)) r.
  by rewrite /qf -bfMr LJ bfMl.
have -> : qf (invmx Q) r = qf (invmx cnd_C) r + bf (invmx Q) (A *m (cnd_J *m r)) r.
  rewrite mulmxA -bfMl -[X in _ = _ + X]/(qf _ r) -qfDm; congr qf.
  have sC : (invmx cnd_C)^T = invmx cnd_C by apply/sym_inv/cnd_C_pd.1.
  rewrite /cnd_J !trmx_mul trmxK sC pP.1.
  have -> : invmx cnd_C *m (A *m P) *m A^T *m invmx Q = invmx cnd_C *m ((cnd_C - Q) *m invmx Q).
    by rewrite /cnd_C addrK !mulmxA.
  rewrite mulmxBl mulmxV ?posdef_unit // mulmxBr mulmxA mulVmx ?mul1mx ?mulmx1; last exact: posdef_unit cnd_C_pd.
  by rewrite addrC subrK //.
fnorm R; ring.
Qed.

Lemma cnd_det : \det P * \det Q = \det cnd_C * \det cnd_S.
Proof.
have uP := posdef_unit pP; have uQ := posdef_unit pQ.
have pL := posdef_info A pP pQ.
have hC : \det cnd_C = \det (1%:M + A *m P *m (A^T *m invmx Q)) * \det Q.
  by rewrite -det_mulmx mulmxDl mul1mx -!mulmxA mulVmx // mulmx1 addrC !mulmxA.
have hL : \det (1%:M + A^T *m invmx Q *m (A *m P)) = \det (invmx P + A^T *m invmx Q *m A) * \det P.
  by rewrite -det_mulmx mulmxDl mulVmx // !mulmxA.
rewrite hC det_sylvester hL cnd_S_inv det_inv.
rewrite [RHS]mulrC !mulrA mulVf ?mul1r // -unitfE -unitmxE; exact: posdef_unit.
Qed.

End Cond.

Lemma innov_split (R : ringType) n k (A : 'M[R]_(k, n)) (x m : 'cV[R]_n) (b y : 'cV[R]_k) :
  y - (A *m x + b) = y - (A *m m + b) - A *m (x - m).
Proof.
have -> : A *m x + b = A *m m + b + A *m (x - m) by rewrite mulmxBr addrAC [A *m m + _]addrC subrK addrC.
by rewrite opprD addrA.
Qed.
