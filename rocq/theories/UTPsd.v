(** * When the unscented covariance is positive semidefinite *)
Set Warnings "-notation-overridden,-ambiguous-paths".
From Coq Require Import Ring Field.
From mathcomp Require Import all_ssreflect all_algebra.
From Verif Require Import Base FieldTac ND NDFacts PosDef LinAlg LinAlgFacts Gauss Transforms TransformFacts.
Set Implicit Arguments.
Unset Strict Implicit.
Unset Printing Implicit Defensive.
Import GRing.Theory Num.Theory Order.Theory.
Local Open Scope ring_scope.

Section Psd.
Variable R : rcfType.
Add Field fieldR : (ffth R).

(** (sum s)^2 <= K sum s^2 *)
Lemma cauchy_const k (s : 'I_k -> R) : (\sum_i s i) ^+ 2 <= k%:R * \sum_i (s i) ^+ 2.
Proof.
case: k s => [|k] s; first by rewrite !big_ord0 mulr0 expr0n.
set T := \sum_i _; set Q := \sum_i _; set K := k.+1%:R : R.
have K0 : 0 < K by rewrite ltr0n.
have : 0 <= \sum_i (K * s i - T) ^+ 2 by apply: sumr_ge0 => i _; exact: sqr_ge0.
have -> : \sum_i (K * s i - T) ^+ 2 = K * (K * Q - T ^+ 2).
  rewrite (eq_bigr (fun i => K ^+ 2 * (s i) ^+ 2 - (2%:R * K * T) * s i + T ^+ 2)); last first.
    by move=> i _; fnorm R; ring.
  rewrite big_split /= sumr_const card_ord sumrB -!mulr_sumr -/T -/Q -(mulr_natl (T ^+ 2)) -/K; clearbody K T Q; fnorm R; ring.
by rewrite pmulr_rge0 // subr_ge0.
Qed.

Variables (n : nat) (alpha beta kappa : R).
Notation pts := (1 + n + n)%N.
Notation npl := (ut_npl n alpha kappa).
Notation lam := (ut_lambda n alpha kappa).
Notation wm := (ut_wm n alpha kappa).
Notation wc := (ut_wc n alpha beta kappa).
Hypothesis npl_gt0 : 0 < npl.
Let npl0 : npl != 0. Proof. exact: lt0r_neq0. Qed.

Definition T_of (s : 'I_pts -> R) := \sum_j ((s (ip j) - s (ic n)) + (s (im j) - s (ic n))).
Definition Q_of (s : 'I_pts -> R) := \sum_j ((s (ip j) - s (ic n)) ^+ 2 + (s (im j) - s (ic n)) ^+ 2).

Lemma T_Q s : (T_of s) ^+ 2 <= (2 * n)%:R * Q_of s.
Proof.
pose s' (i : 'I_(n + n)) : R := match split i with inl j => s (ip j) - s (ic n) | inr j => s (im j) - s (ic n) end.
have := cauchy_const s'; rewrite !big_split_ord /= addnn -mul2n.
rewrite -!big_split /=; congr (_ <= _).
  by congr (_ ^+ 2); apply: eq_bigr => i _; rewrite /s' ?(unsplitK (inl _)) ?(unsplitK (inr _)).
by congr (_ * _); apply: eq_bigr => i _; rewrite /s' ?(unsplitK (inl _)) ?(unsplitK (inr _)).
Qed.

(** the weighted scalar variance *)
Lemma wvarE s : let mu := \sum_i wm i 0 * s i in
  \sum_i wc i 0 * (s i - mu) ^+ 2 =
  (2%:R * npl)^-1 * (Q_of s + (2%:R * npl)^-1 * (T_of s) ^+ 2 * (wc (ic n) 0 - 2%:R + n%:R / npl)).
Proof.
move=> mu; set t := s (ic n); set c := (2%:R * npl)^-1.
have two0 : (2%:R : R) <> 0 by apply/eqP; rewrite pnatr_eq0.
have mE : mu - t = c * T_of s.
  have : mu - t = \sum_i wm i 0 * (s i - t).
    by rewrite (eq_bigr (fun i => wm i 0 * s i - wm i 0 * t)) => [|i _]; rewrite ?mulrBr // sumrB -mulr_suml wm_sum // mul1r.
  rewrite sum_pts subrr mulr0 add0r => ->; rewrite /T_of mulr_sumr; apply: eq_bigr => j _.
  by rewrite wm_p wm_m -mulrDr.
have e i : s i - mu = (s i - t) - (mu - t) by rewrite opprB addrA subrK.
rewrite sum_pts e mE subrr sub0r sqrrN.
transitivity (wc (ic n) 0 * (c * T_of s) ^+ 2 + \sum_j (c * (((s (ip j) - t) ^+ 2 + (s (im j) - t) ^+ 2)) -
   2%:R * c * (c * T_of s) * ((s (ip j) - t) + (s (im j) - t)) + 2%:R * c * (c * T_of s) ^+ 2)).
  congr (_ + _); apply: eq_bigr => j _; rewrite wc_p wc_m -/c !e mE; fnorm R; ring.
rewrite big_split /= sumr_const card_ord sumrB -!mulr_sumr -/(T_of s) -/(Q_of s) -(mulr_natl (2%:R * c * (c * T_of s) ^+ 2)) /c.
have p0 : npl <> 0 by apply/eqP.
by fnorm R; field.
Qed.

Lemma wvar_coef : (0 < n)%N ->
  (2%:R * npl)^-1 * (wc (ic n) 0 - 2%:R + n%:R / npl) + ((2 * n)%:R)^-1 =
  (alpha ^+ 2 * kappa + n%:R * beta) / (2%:R * n%:R * npl).
Proof.
move=> n0; have n0' : (n%:R : R) <> 0 by apply/eqP; rewrite pnatr_eq0 -lt0n.
have two0 : (2%:R : R) <> 0 by apply/eqP; rewrite pnatr_eq0.
have p0 : npl <> 0 by apply/eqP.
have -> : alpha ^+ 2 * kappa = npl - alpha ^+ 2 * n%:R by rewrite nplE mulrDr addrC addKr.
rewrite mxE /= natrM.
have -> : lam = npl - n%:R by rewrite /ut_npl addrC addKr.
move: n0' p0; generalize (ut_npl n alpha kappa) => K N0 K0.
by fnorm R; field.
Qed.

Lemma wvar_ge0 s : (0 < n)%N -> 0 <= alpha ^+ 2 * kappa + n%:R * beta ->
  0 <= \sum_i wc i 0 * (s i - \sum_i wm i 0 * s i) ^+ 2.
Proof.
move=> n0 h; have n0' : 0 < n%:R :> R by rewrite ltr0n.
have n2 : 0 < (2 * n)%:R :> R by rewrite ltr0n muln_gt0.
rewrite wvarE; apply: mulr_ge0; first by rewrite invr_ge0 mulr_ge0 ?ler0n ?ltW.
have hq : ((2 * n)%:R)^-1 * T_of s ^+ 2 <= Q_of s by rewrite ler_pdivr_mull // T_Q.
apply: le_trans (ler_add hq (lexx _)).
rewrite [X in _ + X]mulrAC -mulrDl [X in X * _]addrC wvar_coef // mulr_ge0 ?sqr_ge0 //.
by rewrite divr_ge0 // !mulr_ge0 ?ler0n ?ltW.
Qed.

Lemma wvar_lt0 s (q : R) : (0 < n)%N -> alpha ^+ 2 * kappa + n%:R * beta < 0 -> q != 0 ->
  (forall j, s (ip j) = s (ic n) + q) -> (forall j, s (im j) = s (ic n) + q) ->
  \sum_i wc i 0 * (s i - \sum_i wm i 0 * s i) ^+ 2 < 0.
Proof.
move=> n0 h q0 hp hm; have n0' : 0 < n%:R :> R by rewrite ltr0n.
have n2 : 0 < (2 * n)%:R :> R by rewrite ltr0n muln_gt0.
have dq (t : R) : t + q - t = q by rewrite addrAC subrr add0r.
have eT : T_of s = (2 * n)%:R * q.
  rewrite /T_of (eq_bigr (fun=> 2%:R * q)) => [|j _]; last first.
    by rewrite hp hm !dq -mulr2n mulr_natl.
  by rewrite sumr_const card_ord -mulr_natl natrM mulrA [n%:R * _]mulrC.
have eQ : Q_of s = ((2 * n)%:R)^-1 * T_of s ^+ 2.
  rewrite eT /Q_of (eq_bigr (fun=> 2%:R * q ^+ 2)) => [|j _]; last first.
    by rewrite hp hm !dq -mulr2n mulr_natl.
  rewrite sumr_const card_ord -mulr_natl exprMn expr2 !mulrA mulVf ?mul1r ?lt0r_neq0 //.
  by rewrite natrM [n%:R * _]mulrC.
have T0 : 0 < T_of s ^+ 2 by rewrite exprn_even_gt0 //= eT mulf_neq0 // lt0r_neq0.
rewrite wvarE eQ pmulr_rlt0 ?invr_gt0 ?mulr_gt0 ?ltr0n //.
rewrite [X in _ + X]mulrAC -mulrDl [X in X * _]addrC wvar_coef // pmulr_llt0 //.
by rewrite pmulr_llt0 // invr_gt0 !mulr_gt0 ?ltr0n.
Qed.

(** matrices *)
Lemma qf_outer k m (w : 'I_k -> R) (y : 'I_k -> 'cV[R]_m) v :
  qf (\sum_i w i *: (y i *m (y i)^T)) v = \sum_i w i * ((v^T *m y i) 0 0) ^+ 2.
Proof.
rewrite /qf /bf mulmx_sumr mulmx_suml summxE; apply: eq_bigr => i _.
rewrite -scalemxAr -scalemxAl mxE; congr (_ * _); rewrite mulmxA -(mulmxA (v^T *m y i)).
have -> : (y i)^T *m v = v^T *m y i by rewrite -[RHS]tr11 trmx_mul trmxK.
by rewrite mxE big_ord_recl big_ord0 addr0 expr2.
Qed.

Lemma ut_psd m (y : 'I_pts -> 'cV[R]_m) : (0 < n)%N -> 0 <= alpha ^+ 2 * kappa + n%:R * beta ->
  let mu := \sum_i wm i 0 *: y i in
  possemi (\sum_i wc i 0 *: ((y i - mu) *m (y i - mu)^T)).
Proof.
move=> n0 h mu; split.
  by rewrite linear_sum; apply: eq_bigr => i _; rewrite linearZ /= trmx_mul trmxK.
move=> v; rewrite qf_outer.
have := wvar_ge0 (fun i => (v^T *m y i) 0 0) n0 h; congr (_ <= _); apply: eq_bigr => i _; congr (_ * _ ^+ 2).
have -> : (v^T *m (y i - mu)) 0 0 = (v^T *m y i) 0 0 - (v^T *m mu) 0 0.
  by rewrite mulmxBr mxE [in X in _ + X]mxE.
congr (_ - _); rewrite /mu mulmx_sumr summxE.
by apply: eq_bigr => k _; rewrite -scalemxAr [RHS]mxE.
Qed.


(** a quadratic function that makes the variance negative: value 0 at the mean, [npl] at the other points *)
Definition mahal (m : 'cV[R]_n) (P : 'M[R]_n) (x : 'cV[R]_n) : 'cV[R]_1 := const_mx (qf (invmx P) (x - m)).

Lemma mahal_pts m P (L : 'M[R]_n) : P \in unitmx -> L^T *m L = P ->
  let x i := (row i (spts alpha kappa m L))^T in
  [/\ mahal m P (x (ic n)) = 0, forall j, mahal m P (x (ip j)) = const_mx npl &
      forall j, mahal m P (x (im j)) = const_mx npl].
Proof.
move=> uP eP x; have [r0 rp rm] := row_spts alpha kappa m L.
have uL : L \in unitmx by move: uP; rewrite -eP unitmx_mul unitmx_tr andbb.
have LP : L *m invmx P *m L^T = 1%:M.
  rewrite -eP; have -> : invmx (L^T *m L) = invmx L *m invmx L^T.
    apply/esym/mulmx1_inv; rewrite mulmxA -[in X in X *m L]mulmxA mulVmx ?unitmx_tr // mulmx1 mulVmx //.
  by rewrite mulmxA mulmxV // mul1mx mulVmx // unitmx_tr.
have qj j : qf (invmx P) (row j L)^T = 1.
  rewrite /qf /bf trmxK.
  have -> : row j L *m invmx P *m (row j L)^T = row j (col j (L *m invmx P *m L^T)).
    by rewrite tr_row !colE !row_mul mulmxA.
  by rewrite LP !mxE eqxx.
have sq : Num.sqrt npl ^+ 2 = npl by rewrite sqr_sqrtr // ltW.
split=> [|j|j]; rewrite /mahal /x ?r0 ?rp ?rm ?linearD ?linearN ?linearZ /= trmxK.
- by rewrite subrr qf0; apply/colP=> i; rewrite !mxE.
- by rewrite addrAC subrr add0r qfZ qj sq mulr1.
- by rewrite addrAC subrr add0r qfZ qfN qj sq mulr1.
Qed.

Lemma mahal_neg m P (L : 'M[R]_n) : P \in unitmx -> L^T *m L = P -> (0 < n)%N ->
  alpha ^+ 2 * kappa + n%:R * beta < 0 ->
  forall x mu, x = (fun i => (row i (spts alpha kappa m L))^T) ->
  mu = \sum_i wm i 0 *: mahal m P (x i) ->
  (\sum_i wc i 0 *: ((mahal m P (x i) - mu) *m (mahal m P (x i) - mu)^T)) 0 0 < 0.
Proof.
move=> uP eP n0 h x mu ex emu; have [h0 hp hm] := mahal_pts m uP eP.
have e1 j : mahal m P (x (ip j)) 0 0 = mahal m P (x (ic n)) 0 0 + npl by rewrite ex hp h0 !mxE add0r.
have e2 j : mahal m P (x (im j)) 0 0 = mahal m P (x (ic n)) 0 0 + npl by rewrite ex hm h0 !mxE add0r.
have := @wvar_lt0 (fun i => mahal m P (x i) 0 0) npl n0 h npl0 e1 e2.
congr (_ < _); rewrite summxE; apply: eq_bigr => i _; rewrite [RHS]mxE; congr (_ * _).
have -> (M : 'M[R]_1) : (M *m M^T) 0 0 = M 0 0 * M^T 0 0 by rewrite mxE big_ord_recl big_ord0 addr0.
rewrite expr2.
have -> : (mahal m P (x i) - mu)^T 0 0 = (mahal m P (x i) - mu) 0 0 by rewrite mxE.
have -> : (mahal m P (x i) - mu) 0 0 = mahal m P (x i) 0 0 - mu 0 0 by rewrite mxE [in X in _ + X]mxE.
have -> // : \sum_i wm i 0 * mahal m P (x i) 0 0 = mu 0 0.
by rewrite emu summxE; apply: eq_bigr => k _; rewrite [RHS]mxE.
Qed.
End Psd.
