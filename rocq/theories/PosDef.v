(** * Positive definite matrices and quadratic energies over a real field *)
Set Warnings "-notation-overridden,-ambiguous-paths".
From mathcomp Require Import all_ssreflect all_algebra.
Set Implicit Arguments.
Unset Strict Implicit.
Unset Printing Implicit Defensive.
Import GRing.Theory Num.Theory Order.Theory.
Local Open Scope ring_scope.

Section PosDef.
Variable R : rcfType.

(** the scalar [u^T A v] *)
Definition bf m n (A : 'M[R]_(m, n)) (u : 'cV[R]_m) (v : 'cV[R]_n) : R := (u^T *m A *m v) 0 0.
(** the quadratic form [v^T A v] *)
Definition qf n (A : 'M[R]_n) (v : 'cV[R]_n) : R := bf A v v.

Definition posdef n (A : 'M[R]_n) : Prop := A^T = A /\ forall v, v != 0 -> 0 < qf A v.
Definition possemi n (A : 'M[R]_n) : Prop := A^T = A /\ forall v, 0 <= qf A v.

Lemma tr11 (M : 'M[R]_1) : M^T = M.
Proof. by apply/matrixP=> i j; rewrite !ord1 mxE. Qed.

Lemma bfC m n (A : 'M[R]_(m, n)) u v : bf A u v = bf A^T v u.
Proof. by rewrite /bf -[in LHS](tr11 (u^T *m A *m v)) !trmx_mul trmxK mulmxA. Qed.

Lemma bf0l m n (A : 'M[R]_(m, n)) v : bf A 0 v = 0.
Proof. by rewrite /bf trmx0 !mul0mx mxE. Qed.
Lemma bf0r m n (A : 'M[R]_(m, n)) u : bf A u 0 = 0.
Proof. by rewrite /bf mulmx0 mxE. Qed.
Lemma bfDl m n (A : 'M[R]_(m, n)) u u' v : bf A (u + u') v = bf A u v + bf A u' v.
Proof. by rewrite /bf linearD /= !mulmxDl mxE. Qed.
Lemma bfDr m n (A : 'M[R]_(m, n)) u v v' : bf A u (v + v') = bf A u v + bf A u v'.
Proof. by rewrite /bf mulmxDr mxE. Qed.
Lemma bfNl m n (A : 'M[R]_(m, n)) u v : bf A (- u) v = - bf A u v.
Proof. by rewrite /bf linearN /= !mulNmx mxE. Qed.
Lemma bfNr m n (A : 'M[R]_(m, n)) u v : bf A u (- v) = - bf A u v.
Proof. by rewrite /bf mulmxN mxE. Qed.
Lemma bfZl m n (A : 'M[R]_(m, n)) c u v : bf A (c *: u) v = c * bf A u v.
Proof. by rewrite /bf linearZ /= -!scalemxAl mxE. Qed.
Lemma bfZr m n (A : 'M[R]_(m, n)) c u v : bf A u (c *: v) = c * bf A u v.
Proof. by rewrite /bf -!scalemxAr mxE. Qed.
Lemma bfDm m n (A B : 'M[R]_(m, n)) u v : bf (A + B) u v = bf A u v + bf B u v.
Proof. by rewrite /bf mulmxDr mulmxDl mxE. Qed.
Lemma bfNm m n (A : 'M[R]_(m, n)) u v : bf (- A) u v = - bf A u v.
Proof. by rewrite /bf mulmxN mulNmx mxE. Qed.
Lemma bfBm m n (A B : 'M[R]_(m, n)) u v : bf (A - B) u v = bf A u v - bf B u v.
Proof. by rewrite bfDm bfNm. Qed.
Lemma bfZm m n (A : 'M[R]_(m, n)) c u v : bf (c *: A) u v = c * bf A u v.
Proof. by rewrite /bf -scalemxAr -scalemxAl mxE. Qed.
Lemma bf0m m n u v : bf (0 : 'M[R]_(m, n)) u v = 0.
Proof. by rewrite /bf mulmx0 mul0mx mxE. Qed.
Lemma bfMr m n p (A : 'M[R]_(m, n)) (B : 'M[R]_(n, p)) u v : bf (A *m B) u v = bf A u (B *m v).
Proof. by rewrite /bf !mulmxA. Qed.
Lemma bfMl m n p (A : 'M[R]_(m, n)) (B : 'M[R]_(m, p)) u v : bf (B^T *m A) u v = bf A (B *m u) v.
Proof. by rewrite /bf trmx_mul !mulmxA. Qed.
Lemma bfMl' m n p (A : 'M[R]_(m, n)) (B : 'M[R]_(p, m)) u v : bf (B *m A) u v = bf A (B^T *m u) v.
Proof. by rewrite -bfMl trmxK. Qed.

Lemma qf0 n (A : 'M[R]_n) : qf A 0 = 0. Proof. exact: bf0l. Qed.
Lemma qf0m n (v : 'cV[R]_n) : qf 0 v = 0. Proof. exact: bf0m. Qed.
Lemma qfN n (A : 'M[R]_n) v : qf A (- v) = qf A v.
Proof. by rewrite /qf bfNl bfNr opprK. Qed.
Lemma qfZ n (A : 'M[R]_n) c v : qf A (c *: v) = c ^+ 2 * qf A v.
Proof. by rewrite /qf bfZl bfZr mulrA expr2. Qed.
Lemma qfD n (A : 'M[R]_n) u v : A^T = A -> qf A (u + v) = qf A u + 2%:R * bf A u v + qf A v.
Proof.
move=> sA; rewrite /qf bfDl !bfDr [bf A v u]bfC sA mulr_natl mulr2n.
by rewrite !addrA.
Qed.
Lemma qfB n (A : 'M[R]_n) u v : A^T = A -> qf A (u - v) = qf A u - 2%:R * bf A u v + qf A v.
Proof. by move=> sA; rewrite qfD // bfNr qfN mulrN. Qed.
Lemma qfDm n (A B : 'M[R]_n) v : qf (A + B) v = qf A v + qf B v.
Proof. exact: bfDm. Qed.
Lemma qfBm n (A B : 'M[R]_n) v : qf (A - B) v = qf A v - qf B v.
Proof. exact: bfBm. Qed.
Lemma qfZm n (A : 'M[R]_n) c v : qf (c *: A) v = c * qf A v.
Proof. exact: bfZm. Qed.
Lemma qf_congr m n (A : 'M[R]_n) (B : 'M[R]_(n, m)) v : qf (B^T *m A *m B) v = qf A (B *m v).
Proof. by rewrite /qf bfMr bfMl. Qed.
Lemma qf_congr' m n (A : 'M[R]_n) (B : 'M[R]_(m, n)) v : qf (B *m A *m B^T) v = qf A (B^T *m v).
Proof. by rewrite -qf_congr trmxK. Qed.
Lemma qf_tr n (A : 'M[R]_n) v : qf A^T v = qf A v.
Proof. by rewrite /qf bfC trmxK. Qed.

Lemma bfE m n (A : 'M[R]_(m, n)) u v : bf A u v = \sum_i \sum_j u i 0 * A i j * v j 0.
Proof.
rewrite /bf mxE exchange_big /=; apply: eq_bigr => j _.
by rewrite mxE mulr_suml; apply: eq_bigr => i _; rewrite mxE.
Qed.

Lemma qf1 n (v : 'cV[R]_n) : qf 1%:M v = \sum_i (v i 0) ^+ 2.
Proof. by rewrite /qf /bf mulmx1 mxE; apply: eq_bigr => i _; rewrite mxE expr2. Qed.

Lemma qf1_ge0 n (v : 'cV[R]_n) : 0 <= qf 1%:M v.
Proof. by rewrite qf1 sumr_ge0 // => i _; rewrite sqr_ge0. Qed.

Lemma qf1_eq0 n (v : 'cV[R]_n) : (qf 1%:M v == 0) = (v == 0).
Proof.
apply/eqP/eqP => [|->]; last exact: qf0.
rewrite qf1 => h; apply/colP=> i; rewrite mxE.
move/eqP: h; rewrite psumr_eq0 => [/allP h|j _]; last exact: sqr_ge0.
by apply/eqP; have := h i (mem_index_enum _); rewrite sqrf_eq0.
Qed.

Lemma posdef1 n : posdef (1%:M : 'M[R]_n).
Proof. by split=> [|v v0]; rewrite ?trmx1 // lt_def qf1_ge0 qf1_eq0 v0. Qed.

Lemma posdef_semi n (A : 'M[R]_n) : posdef A -> possemi A.
Proof.
case=> sA pA; split=> // v; have [->|/pA/ltW//] := eqVneq v 0; by rewrite qf0.
Qed.

Lemma possemi0 n : possemi (0 : 'M[R]_n).
Proof. by split=> [|v]; rewrite ?trmx0 // qf0m. Qed.

Lemma posdefD n (A B : 'M[R]_n) : posdef A -> possemi B -> posdef (A + B).
Proof.
case=> sA pA [sB pB]; split; first by rewrite linearD /= sA sB.
by move=> v v0; rewrite qfDm ltr_spaddl ?pA.
Qed.
Lemma posdefDr n (A B : 'M[R]_n) : possemi A -> posdef B -> posdef (A + B).
Proof. by rewrite addrC => *; apply: posdefD. Qed.
Lemma posdefDD n (A B : 'M[R]_n) : posdef A -> posdef B -> posdef (A + B).
Proof. by move=> pA /posdef_semi; apply: posdefD. Qed.
Lemma possemiD n (A B : 'M[R]_n) : possemi A -> possemi B -> possemi (A + B).
Proof.
case=> sA pA [sB pB]; split; first by rewrite linearD /= sA sB.
by move=> v; rewrite qfDm addr_ge0.
Qed.
Lemma posdefZ n (A : 'M[R]_n) c : 0 < c -> posdef A -> posdef (c *: A).
Proof.
move=> c0 [sA pA]; split; first by rewrite linearZ /= sA.
by move=> v v0; rewrite qfZm mulr_gt0 ?pA.
Qed.
Lemma possemiZ n (A : 'M[R]_n) c : 0 <= c -> possemi A -> possemi (c *: A).
Proof.
move=> c0 [sA pA]; split; first by rewrite linearZ /= sA.
by move=> v; rewrite qfZm mulr_ge0.
Qed.
Lemma posdefZ1 n c : 0 < c -> posdef (c *: 1%:M : 'M[R]_n).
Proof. by move=> c0; apply: posdefZ => //; exact: posdef1. Qed.

Lemma possemi_congr m n (A : 'M[R]_n) (B : 'M[R]_(m, n)) : possemi A -> possemi (B *m A *m B^T).
Proof.
case=> sA pA; split; first by rewrite !trmx_mul trmxK sA mulmxA.
by move=> v; rewrite qf_congr'.
Qed.
Lemma possemi_congrT m n (A : 'M[R]_n) (B : 'M[R]_(n, m)) : possemi A -> possemi (B^T *m A *m B).
Proof. by move=> pA; have := possemi_congr B^T pA; rewrite trmxK. Qed.

Lemma unitmx_inj n (A : 'M[R]_n) : (forall v : 'cV[R]_n, A *m v = 0 -> v = 0) -> A \in unitmx.
Proof.
move=> inj; rewrite -unitmx_tr -row_free_unit -kermx_eq0; apply/eqP/row_matrixP=> i.
rewrite row0; have : row i (kermx A^T) *m A^T = 0 by rewrite -row_mul mulmx_ker row0.
move/(congr1 trmx); rewrite trmx_mul trmxK trmx0 => /inj /(congr1 trmx).
by rewrite trmxK trmx0.
Qed.

Lemma posdef_unit n (A : 'M[R]_n) : posdef A -> A \in unitmx.
Proof.
case=> sA pA; apply: unitmx_inj => v Av; apply/eqP/negPn/negP => /pA.
by rewrite /qf /bf -mulmxA Av mulmx0 mxE ltxx.
Qed.

Lemma sym_inv n (A : 'M[R]_n) : A^T = A -> (invmx A)^T = invmx A.
Proof. by move=> sA; rewrite trmx_inv sA. Qed.

Lemma qf_inv n (A : 'M[R]_n) v : A \in unitmx -> A^T = A -> qf (invmx A) v = qf A (invmx A *m v).
Proof.
move=> uA sA; rewrite -qf_congr (sym_inv sA) mulVmx // mul1mx //.
Qed.

Lemma posdef_inv n (A : 'M[R]_n) : posdef A -> posdef (invmx A).
Proof.
move=> pA; have uA := posdef_unit pA; case: pA => sA pA.
split=> [|v v0]; first exact: sym_inv.
rewrite qf_inv // pA //; apply: contraNneq v0 => h.
by rewrite -[v]mul1mx -(mulmxV uA) -mulmxA h mulmx0.
Qed.

Lemma posdef_invE n (A : 'M[R]_n) : A \in unitmx -> posdef (invmx A) -> posdef A.
Proof. by move=> uA /posdef_inv; rewrite invmxK. Qed.

Lemma posdef_congr_unit n (A B : 'M[R]_n) : B \in unitmx -> posdef A -> posdef (B *m A *m B^T).
Proof.
move=> uB [sA pA]; split; first by rewrite !trmx_mul trmxK sA mulmxA.
move=> v v0; rewrite qf_congr' pA //; apply: contraNneq v0 => h.
have uBT : B^T \in unitmx by rewrite unitmx_tr.
by rewrite -[v]mul1mx -(mulVmx uBT) -mulmxA h mulmx0.
Qed.

(** qf determines a symmetric matrix *)
Lemma qf_inj n (A B : 'M[R]_n) : A^T = A -> B^T = B -> (forall v, qf A v = qf B v) -> A = B.
Proof.
move=> sA sB h.
have hb u v : bf A u v = bf B u v.
  have := h (u + v); rewrite !qfD // !h => /addIr /addrI /mulfI.
  by apply; rewrite pnatr_eq0.
apply/matrixP=> i j; have := hb (delta_mx i 0) (delta_mx j 0).
rewrite /bf !trmx_delta -!rowE -!colE !mxE //.
Qed.

(** Woodbury identity *)
Lemma woodbury m n (P : 'M[R]_n) (Rm : 'M[R]_m) (H : 'M[R]_(m, n)) :
  P \in unitmx -> Rm \in unitmx -> H *m P *m H^T + Rm \in unitmx ->
  (P - P *m H^T *m invmx (H *m P *m H^T + Rm) *m H *m P) *m
  (invmx P + H^T *m invmx Rm *m H) = 1%:M.
Proof.
move=> uP uR uS; set S := H *m P *m H^T + Rm in uS *.
rewrite mulmxBl !mulmxDr mulmxV //.
have -> : P *m H^T *m invmx S *m H *m P *m invmx P = P *m H^T *m invmx S *m H.
  by rewrite -!mulmxA mulmxV // mulmx1.
have -> : P *m H^T *m invmx S *m H *m P *m (H^T *m invmx Rm *m H) =
          P *m H^T *m invmx S *m (S - Rm) *m invmx Rm *m H.
  by rewrite /S addrK !mulmxA.
rewrite mulmxBr -[P *m H^T *m invmx S *m S]mulmxA mulVmx // mulmx1.
rewrite !mulmxBl -[_ *m invmx S *m Rm *m invmx Rm]mulmxA mulmxV // mulmx1.
by rewrite !mulmxA [_ + (_ - _)]addrC subrK addrK.
Qed.

Lemma mulmx1_inv n (A B : 'M[R]_n) : A *m B = 1%:M -> A = invmx B.
Proof.
move=> h; have [uA uB] := mulmx1_unit h.
by rewrite -[A]mulmx1 -(mulmxV uB) mulmxA h mul1mx.
Qed.

Lemma posdef_innov m n (P : 'M[R]_n) (Rm : 'M[R]_m) (H : 'M[R]_(m, n)) :
  possemi P -> posdef Rm -> posdef (H *m P *m H^T + Rm).
Proof. by move=> pP pR; apply: posdefDr => //; exact: possemi_congr. Qed.

Lemma woodbury_inv m n (P : 'M[R]_n) (Rm : 'M[R]_m) (H : 'M[R]_(m, n)) :
  posdef P -> posdef Rm ->
  P - P *m H^T *m invmx (H *m P *m H^T + Rm) *m H *m P =
  invmx (invmx P + H^T *m invmx Rm *m H).
Proof.
move=> pP pR; apply: mulmx1_inv; apply: woodbury; try exact: posdef_unit.
by apply/posdef_unit/posdef_innov => //; exact: posdef_semi.
Qed.

Lemma posdef_info m n (P : 'M[R]_n) (Rm : 'M[R]_m) (H : 'M[R]_(m, n)) :
  posdef P -> posdef Rm -> posdef (invmx P + H^T *m invmx Rm *m H).
Proof.
move=> pP pR; apply: posdefD; first exact: posdef_inv.
exact: (possemi_congrT _ (posdef_semi (posdef_inv pR))).
Qed.

(** gain identity: [P H^T S^-1 = (P^-1 + H^T R^-1 H)^-1 H^T R^-1] *)
Lemma gain_info m n (P : 'M[R]_n) (Rm : 'M[R]_m) (H : 'M[R]_(m, n)) :
  posdef P -> posdef Rm ->
  P *m H^T *m invmx (H *m P *m H^T + Rm) =
  invmx (invmx P + H^T *m invmx Rm *m H) *m H^T *m invmx Rm.
Proof.
move=> pP pR; have pS := posdef_innov H (posdef_semi pP) pR.
have pL := posdef_info H pP pR.
set S := H *m P *m H^T + Rm in pS *; set L := invmx P + _ in pL *.
have key : L *m P *m H^T = H^T *m invmx Rm *m S.
  rewrite /L !mulmxDl mulVmx ?posdef_unit // mul1mx /S mulmxDr -!mulmxA mulVmx ?posdef_unit //.
  by rewrite mulmx1 addrC.
rewrite -[LHS]mul1mx -(mulVmx (posdef_unit pL)) -!mulmxA; congr (_ *m _).
rewrite !mulmxA key -!mulmxA mulmxV ?posdef_unit // mulmx1 //.
Qed.

End PosDef.
