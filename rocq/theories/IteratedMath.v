(** * The sign-flipped relinearisation of KalmanFilter.py:139 on affine measurements (linear algebra) *)
Set Warnings "-notation-overridden,-ambiguous-paths".
From Coq Require Import Ring Field.
From mathcomp Require Import all_ssreflect all_algebra.
From Verif Require Import Base FieldTac PosDef CondGauss.
Set Implicit Arguments.
Unset Strict Implicit.
Unset Printing Implicit Defensive.
Import GRing.Theory Num.Theory Order.Theory.
Local Open Scope ring_scope.

Section Dev.
Variables (R : rcfType) (n k : nat) (P : 'M[R]_n) (Rm : 'M[R]_k) (H : 'M[R]_(k, n)) (r : 'cV[R]_k).
Hypotheses (pP : posdef P) (pR : posdef Rm).
Let K := cnd_J P Rm H.
Let C := cnd_C P Rm H.
Let pC : posdef C. Proof. exact: cnd_C_pd. Qed.

(** deviation of the i-th iterate from the predicted mean *)
Fixpoint dev (i : nat) : 'cV[R]_n := if i is j.+1 then K *m (r - 2%:R *: (H *m dev j)) else 0.
Let M2 (v : 'cV[R]_n) : 'cV[R]_n := 2%:R *: (K *m (H *m v)).

Lemma dev1 : dev 1 = K *m r. Proof. by rewrite /= mulmx0 scaler0 subr0. Qed.
Lemma devS i : dev i.+1 = K *m r - M2 (dev i).
Proof. by rewrite /= mulmxBr -scalemxAr. Qed.
Lemma M2D u v : M2 (u + v) = M2 u + M2 v. Proof. by rewrite /M2 !mulmxDr scalerDr. Qed.
Lemma M2N u : M2 (- u) = - M2 u. Proof. by rewrite /M2 !mulmxN scalerN. Qed.
Lemma M20 : M2 0 = 0. Proof. by rewrite /M2 !mulmx0 scaler0. Qed.
Lemma M2Z c u : M2 (c *: u) = c *: M2 u. Proof. by rewrite /M2 -!scalemxAr !scalerA mulrC. Qed.

Lemma dev_diff i : dev i.+1 - dev i = (-1) ^+ i *: iter i M2 (K *m r).
Proof.
elim: i => [|i IH]; first by rewrite dev1 /= subr0 expr0 scale1r.
have -> : dev i.+2 - dev i.+1 = - M2 (dev i.+1 - dev i).
  rewrite (devS i.+1) [in X in _ - X](devS i) M2D M2N; move: (K *m r) (M2 _) (M2 _) => a b c.
  by rewrite !opprB addrC addrA subrK.
by rewrite IH M2Z exprS mulN1r scaleNr.
Qed.

Lemma iter_M2D i u v : iter i M2 (u + v) = iter i M2 u + iter i M2 v.
Proof. by elim: i => //= i ->; rewrite M2D. Qed.

(** (1 + 2 K H) dev i = v - (-2 K H)^i v *)
Lemma dev_closed i : dev i + M2 (dev i) = K *m r - (-1) ^+ i *: iter i M2 (K *m r).
Proof.
elim: i => [|i IH]; first by rewrite /= /M2 !mulmx0 scaler0 addr0 expr0 scale1r subrr.
rewrite devS M2D M2N; set v := K *m r in IH *.
have -> : v - M2 (dev i) + (M2 v - M2 (M2 (dev i))) = v + M2 v - M2 (dev i + M2 (dev i)).
  by rewrite M2D opprD addrACA.
by rewrite IH M2D M2N M2Z /= exprS mulN1r scaleNr opprK opprB addrA addrAC addrK.
Qed.

Let B (u v : 'cV[R]_n) := bf (invmx P) u v.
Let G := H^T *m invmx C *m H.
Let sG : G^T = G. Proof. by rewrite /G !trmx_mul trmxK (sym_inv pC.1) mulmxA. Qed.
Lemma B_M2 u v : B u (M2 v) = 2%:R * bf G u v.
Proof.
rewrite /B /M2 bfZr -!bfMr; congr (_ * bf _ u v).
by rewrite /K /cnd_J -/C !mulmxA mulVmx ?posdef_unit // mul1mx.
Qed.
Lemma B_sym u v : B u v = B v u.
Proof. by rewrite /B bfC (sym_inv pP.1). Qed.
Lemma M2_adj u v : B u (M2 v) = B (M2 u) v.
Proof. by rewrite B_M2 B_sym B_M2 bfC sG. Qed.
Lemma iter_adj i u v : B u (iter i M2 v) = B (iter i M2 u) v.
Proof. by elim: i u v => //= i IH u v; rewrite M2_adj IH -iterSr. Qed.

Lemma gain_ker : H *m (K *m r) = 0 -> K *m r = 0.
Proof.
move=> h; suff e : H^T *m (invmx C *m r) = 0 by rewrite /K /cnd_J -/C -!mulmxA e mulmx0.
apply/eqP; have [_ hp] := pP; case: (eqVneq (H^T *m (invmx C *m r)) 0) => // ne; have := hp _ ne.
rewrite /qf; set x := H^T *m (invmx C *m r); rewrite {1}/x -bfMl' -[H *m P]mul1mx bfMr {}/x.
have -> : (H *m P) *m (H^T *m (invmx C *m r)) = 0 by rewrite -h /K /cnd_J -/C !mulmxA.
by rewrite ?bf0r ltxx.
Qed.

Lemma dev_even i : dev i.+2 = K *m r -> ~~ odd i -> K *m r = 0.
Proof.
set v := K *m r => e oi; apply: gain_ker; rewrite -/v.
have m0 : M2 (dev i.+1) = 0 by move: e; rewrite devS -/v => /eqP; rewrite -subr_eq0 addrAC subrr sub0r oppr_eq0 => /eqP.
have z : M2 v + M2 (iter i.+1 M2 v) = 0.
  have := congr1 M2 (dev_closed i.+1); rewrite M2D m0 M20 addr0 -/v.
  by rewrite exprS -signr_odd (negbTE oi) expr0 mulr1 scaleN1r opprK M2D => <-.
have := congr1 (B v) z; rewrite -[M2 (iter _ _ _)]/(iter i.+2 M2 v) {2}/B bf0r /B bfDr -/(B v (M2 v)) -/(B v (iter i.+2 M2 v)).
have -> : B v (iter i.+2 M2 v) = qf (invmx P) (iter (i.+2)./2 M2 v).
  have ei : i.+2 = ((i.+2)./2 + (i.+2)./2)%N by rewrite addnn -{1}(odd_double_half i.+2) /= negbK (negbTE oi).
  by rewrite {1}ei iterD iter_adj.
have [_ hq] := posdef_semi (posdef_inv pP); have q0 := hq (iter (i.+2)./2 M2 v).
have pCi := posdef_inv pC.
have eG : B v (M2 v) = 2%:R * qf (invmx C) (H *m v) by rewrite B_M2 /G -[bf _ v v]/(qf _ v) qf_congr.
have [_ hc] := posdef_semi pCi; have c0 := hc (H *m v).
rewrite eG => /eqP; rewrite paddr_eq0 ?mulr_ge0 ?ler0n // => /andP[/eqP h1 _].
case: (eqVneq (H *m v) 0) => // ne; have [_ /(_ _ ne)] := pCi; move: h1 => /eqP; rewrite mulf_eq0 pnatr_eq0 /= => /eqP ->.
by rewrite ltxx.
Qed.
End Dev.

(** one state, one measurement: 2 K H is the number 2 h^2 p / (h^2 p + r) *)
Section Scalar.
Variables (R : rcfType) (P Rm H : 'M[R]_1) (r : 'cV[R]_1).
Add Field fieldR : (ffth R).
Hypotheses (pP : posdef P) (pR : posdef Rm).
Lemma dev_scalar i : let q := 2%:R * (H 0 0 ^+ 2 * P 0 0 / (H 0 0 ^+ 2 * P 0 0 + Rm 0 0)) in
  `|(dev P Rm H r i.+1 - dev P Rm H r i) 0 0| = q ^+ i * `|(cnd_J P Rm H *m r) 0 0|.
Proof.
move=> q.
have s1 (A B : 'M[R]_1) : (A *m B) 0 0 = A 0 0 * B 0 0 by rewrite mxE big_ord1.
have pC := cnd_C_pd H pP pR; have uC := posdef_unit pC.
have i1 (A : 'M[R]_1) : A \in unitmx -> (invmx A) 0 0 = (A 0 0)^-1.
  move=> uA; have := congr1 (fun X : 'M[R]_1 => X 0 0) (mulmxV uA); rewrite s1 !mxE /= => e.
  have nz : A 0 0 != 0 by apply/eqP => z; move: e; rewrite z mul0r => /esym/eqP; rewrite oner_eq0.
  by apply: (mulfI nz); rewrite e divff.
have e0 : cnd_C P Rm H 0 0 = H 0 0 ^+ 2 * P 0 0 + Rm 0 0.
  by rewrite /cnd_C mxE !s1 mxE expr2 mulrAC.
have eq : 2%:R * (cnd_J P Rm H 0 0 * H 0 0) = q.
  rewrite /q /cnd_J !s1 mxE i1 // e0; congr (_ * _); move: (H 0 0) (P 0 0) (_^-1) => a b c.
  by fnorm R; ring.
have p0 (A : 'M[R]_1) : posdef A -> 0 < A 0 0.
  move=> [_ /(_ 1%:M)]; rewrite -[qf _ _]/((_ : 'M[R]_1) 0 0) ?s1 !mxE /= ?mul1r ?mulr1 => -> //.
  by apply/eqP => /matrixP /(_ 0 0); rewrite !mxE; apply/eqP/oner_neq0.
have q0 : 0 <= q.
  have g1 : 0 <= H 0 0 ^+ 2 * P 0 0 by apply: mulr_ge0; [exact: sqr_ge0|exact: ltW (p0 _ pP)].
  apply: mulr_ge0; first exact: ler0n.
  by apply: divr_ge0 => //; apply: addr_ge0 => //; exact: ltW (p0 _ pR).
rewrite dev_diff mxE normrM normrX normrN normr1 expr1n mul1r.
elim: i => [|i IH]; first by rewrite expr0 mul1r.
rewrite /= mxE; move: IH; move: (iter i _ _) (`|(cnd_J P Rm H *m r) 0 0|) => X a IH.
have -> : 2%:R * (cnd_J P Rm H *m (H *m X)) 0 0 = q * X 0 0 by rewrite -eq (s1 (cnd_J P Rm H)) (s1 H) !mulrA.
by rewrite normrM IH (ger0_norm q0) exprS mulrA.
Qed.
End Scalar.

(** fixed points of the iteration against stationary points of the posterior energy *)
Section Fix.
Variables (R : rcfType) (n k : nat) (P : 'M[R]_n) (Rm : 'M[R]_k) (H : 'M[R]_(k, n)) (e : 'cV[R]_k) (d : 'cV[R]_n).
Hypotheses (pP : posdef P) (pR : posdef Rm).
Lemma posdef_eq0 q (A : 'M[R]_q) v : posdef A -> qf A v = 0 -> v = 0.
Proof. by move=> [_ h] e0; apply/eqP/negbNE/negP=> /h; rewrite e0 ltxx. Qed.
Lemma fix_stationary : d = cnd_J P Rm H *m (e - H *m d) ->
  invmx P *m d = H^T *m (invmx Rm *m e) <-> d = 0.
Proof.
move=> hd; have pC := cnd_C_pd H pP pR.
set s := invmx (cnd_C P Rm H) *m (e - H *m d).
have d1 : d = P *m (H^T *m s) by rewrite {1}hd /cnd_J /s !mulmxA.
have d2 : e - H *m d = H *m d + Rm *m s.
  have : cnd_C P Rm H *m s = e - H *m d by rewrite /s mulmxA mulmxV ?posdef_unit // mul1mx.
  by move=> <-; rewrite /cnd_C mulmxDl; congr (_ + _); rewrite [in RHS]d1 !mulmxA.
have k0 : H *m d = 0 -> d = 0.
  move=> z; have q0 : qf P (H^T *m s) = 0.
    by rewrite /qf -bfMl' -[H *m P]mul1mx bfMr -mulmxA -d1 z bf0r.
  by rewrite d1 (posdef_eq0 pP q0) mulmx0.
have Pd : invmx P *m d = H^T *m s by rewrite {1}d1 [LHS]mulmxA mulVmx ?posdef_unit // mul1mx.
have es : Rm *m s = e - 2%:R *: (H *m d).
  by rewrite scaler_nat mulr2n opprD addrA d2 addrAC subrr add0r.
have s1 : s = invmx Rm *m e - 2%:R *: (invmx Rm *m (H *m d)).
  by have := congr1 (mulmx (invmx Rm)) es; rewrite mulmxA mulVmx ?posdef_unit // mul1mx mulmxBr -scalemxAr.
split=> [hs|d0].
  apply: k0; apply: (posdef_eq0 (posdef_inv pR)).
  have : H^T *m (invmx Rm *m (H *m d)) = 0.
    have : 2%:R *: (H^T *m (invmx Rm *m (H *m d))) = 0.
      have := hs; rewrite Pd s1 mulmxBr -scalemxAr => /eqP; rewrite -subr_eq0 addrAC subrr sub0r oppr_eq0 => /eqP //.
    by move/eqP; rewrite scaler_eq0 pnatr_eq0 /= => /eqP.
  by move=> z; rewrite -qf_congr /qf bfMr bfMr /bf -mulmxA z mulmx0 mxE.
have se : Rm *m s = e by rewrite es d0 mulmx0 scaler0 subr0.
by rewrite Pd -se (mulmxA (invmx Rm)) mulVmx ?posdef_unit // mul1mx.
Qed.
End Fix.
