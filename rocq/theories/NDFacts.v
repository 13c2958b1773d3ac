(** * Facts about the array model: on well-shaped operands the numpy operations are
    the usual matrix operations. *)
Set Warnings "-notation-overridden,-ambiguous-paths".
From mathcomp Require Import all_ssreflect all_algebra.
From Verif Require Import Base ND.
Set Implicit Arguments.
Unset Strict Implicit.
Unset Printing Implicit Defensive.
Import GRing.Theory Num.Theory.
Local Open Scope ring_scope.

Section Facts.
Variable R : rcfType.

Lemma entE m n (A : 'M[R]_(m, n)) (i : 'I_m) (j : 'I_n) : ent A i j = A i j.
Proof. by rewrite /ent !valK. Qed.

Lemma bentE m n (A : 'M[R]_(m, n)) (i : 'I_m) (j : 'I_n) : bent A i j = A i j.
Proof.
rewrite /bent.
have -> : (if m == 1%N then 0%N else i) = i by case: eqP i => [->|//] i; rewrite (ord1 i).
have -> : (if n == 1%N then 0%N else j) = j by case: eqP j => [->|//] j; rewrite (ord1 j).
exact: entE.
Qed.

Lemma bdimnn n : bdim n n = Some n.
Proof. by rewrite /bdim eqxx. Qed.

Lemma bdim1n n : bdim 1 n = Some n.
Proof. by rewrite /bdim; case: eqP => [<-|]. Qed.

Lemma bdimn1 n : bdim n 1 = Some n.
Proof. by rewrite /bdim; case: eqP => [->|]. Qed.

Lemma bdimC m n : bdim m n = bdim n m.
Proof.
rewrite /bdim eq_sym; case: (eqVneq n m) => [->//|nm].
by case: eqVneq => [->|]; case: eqVneq => // n1; rewrite n1 in nm *; case: eqVneq nm.
Qed.

Lemma bop_vv op n (v w : 'cV[R]_n) :
  bop op (Nd1 v) (Nd1 w) = Ok (Nd1 (\col_i op (v i 0) (w i 0))).
Proof.
rewrite /bop bdimnn; congr (Ok (Nd1 _)); apply/matrixP=> i j; rewrite !mxE.
by rewrite -[0%N]/(nat_of_ord (0 : 'I_1)) !bentE.
Qed.

Lemma bop_mm op m n (A B : 'M[R]_(m, n)) :
  bop op (Nd2 A) (Nd2 B) = Ok (Nd2 (\matrix_(i, j) op (A i j) (B i j))).
Proof.
rewrite /bop /bop2 !bdimnn; congr (Ok (Nd2 _)); apply/matrixP=> i j.
by rewrite !mxE !bentE.
Qed.

Lemma naddvv n (v w : 'cV[R]_n) : nadd (Nd1 v) (Nd1 w) = Ok (Nd1 (v + w)).
Proof. by rewrite /nadd bop_vv; congr (Ok (Nd1 _)); apply/colP=> i; rewrite !mxE. Qed.
Lemma nsubvv n (v w : 'cV[R]_n) : nsub (Nd1 v) (Nd1 w) = Ok (Nd1 (v - w)).
Proof. by rewrite /nsub bop_vv; congr (Ok (Nd1 _)); apply/colP=> i; rewrite !mxE. Qed.
Lemma naddmm m n (A B : 'M[R]_(m, n)) : nadd (Nd2 A) (Nd2 B) = Ok (Nd2 (A + B)).
Proof. by rewrite /nadd bop_mm; congr (Ok (Nd2 _)); apply/matrixP=> i j; rewrite !mxE. Qed.
Lemma nsubmm m n (A B : 'M[R]_(m, n)) : nsub (Nd2 A) (Nd2 B) = Ok (Nd2 (A - B)).
Proof. by rewrite /nsub bop_mm; congr (Ok (Nd2 _)); apply/matrixP=> i j; rewrite !mxE. Qed.

Lemma niaddmm m n (A B : 'M[R]_(m, n)) : niadd (Nd2 A) (Nd2 B) = Ok (Nd2 (A + B)).
Proof. by rewrite /niadd naddmm bindE /= eqxx. Qed.
Lemma niaddvv n (v w : 'cV[R]_n) : niadd (Nd1 v) (Nd1 w) = Ok (Nd1 (v + w)).
Proof. by rewrite /niadd naddvv bindE /= eqxx. Qed.

Lemma nmatmulmm m k n (A : 'M[R]_(m, k)) (B : 'M[R]_(k, n)) :
  nmatmul (Nd2 A) (Nd2 B) = Ok (Nd2 (A *m B)).
Proof. by rewrite /nmatmul eqxx conform_mx_id. Qed.
Lemma nmatmulmv m k (A : 'M[R]_(m, k)) (v : 'cV[R]_k) :
  nmatmul (Nd2 A) (Nd1 v) = Ok (Nd1 (A *m v)).
Proof. by rewrite /nmatmul eqxx conform_mx_id. Qed.
Lemma nmatmulvm k n (v : 'cV[R]_k) (B : 'M[R]_(k, n)) :
  nmatmul (Nd1 v) (Nd2 B) = Ok (Nd1 (B^T *m v)).
Proof. by rewrite /nmatmul eqxx conform_mx_id. Qed.
Lemma nmatmulvv k (v w : 'cV[R]_k) :
  nmatmul (Nd1 v) (Nd1 w) = Ok (Nd0 ((v^T *m w) 0 0)).
Proof. by rewrite /nmatmul eqxx conform_mx_id. Qed.
Lemma ndotmm m k n (A : 'M[R]_(m, k)) (B : 'M[R]_(k, n)) :
  ndot (Nd2 A) (Nd2 B) = Ok (Nd2 (A *m B)).
Proof. exact: nmatmulmm. Qed.
Lemma ndotmv m k (A : 'M[R]_(m, k)) (v : 'cV[R]_k) :
  ndot (Nd2 A) (Nd1 v) = Ok (Nd1 (A *m v)).
Proof. exact: nmatmulmv. Qed.

Lemma ntraceE n (A : 'M[R]_n) : ntrace (Nd2 A) = Ok (\tr A).
Proof.
rewrite /ntrace minnn; congr Ok; rewrite /mxtrace.
by apply: eq_bigr => i _; rewrite entE.
Qed.

(** symmetric part of a square matrix *)
Definition sympart n (A : 'M[R]_n) : 'M[R]_n := (2%:R)^-1 *: (A + A^T).

Lemma symmetrizeE n (A : 'M[R]_n) : symmetrize (Nd2 A) = Ok (Nd2 (sympart A)).
Proof. by rewrite /symmetrize /= naddmm bindE. Qed.

Lemma sympart_id n (A : 'M[R]_n) : A^T = A -> sympart A = A.
Proof.
move=> sA; rewrite /sympart sA -mulr2n -scaler_nat scalerA mulVf ?scale1r //.
by rewrite pnatr_eq0.
Qed.

Lemma sympart_sym n (A : 'M[R]_n) : (sympart A)^T = sympart A.
Proof. by rewrite /sympart linearZ /= linearD /= trmxK addrC. Qed.

Lemma symmetrize_sym n (A : 'M[R]_n) : A^T = A -> symmetrize (Nd2 A) = Ok (Nd2 A).
Proof. by move=> sA; rewrite symmetrizeE sympart_id. Qed.

Lemma Nd1_inj n (v w : 'cV[R]_n) : Nd1 v = Nd1 w -> v = w.
Proof.
case=> e; have := Eqdep_dec.inj_pair2_eq_dec _ (fun x y => decP (@eqP _ x y)) _ _ _ _ e.
by [].
Qed.

Lemma Nd2_inj m n (A B : 'M[R]_(m, n)) : Nd2 A = Nd2 B -> A = B.
Proof.
case=> e.
have e1 := Eqdep_dec.inj_pair2_eq_dec _ (fun x y => decP (@eqP _ x y)) _ _ _ _ e.
exact: (Eqdep_dec.inj_pair2_eq_dec _ (fun x y => decP (@eqP _ x y)) _ _ _ _ e1).
Qed.

End Facts.
