(** * Facts about the Kalman filter/smoother on affine models *)
Set Warnings "-notation-overridden,-ambiguous-paths".
From mathcomp Require Import all_ssreflect all_algebra.
From Verif Require Import Base ND NDFacts PosDef LinAlg LinAlgFacts Gauss GaussFacts Transforms TransformFacts CondGauss
  Estimator EstimatorFacts SpecGauss KalmanMath KalmanLoop KalmanLoopFacts Kalman.
Set Implicit Arguments.
Unset Strict Implicit.
Unset Printing Implicit Defensive.
Import GRing.Theory Num.Theory Order.Theory.
Local Open Scope ring_scope.

Section Facts.
Variable R : rcfType.
Variable illcond : forall n, 'M[R]_n -> bool.
Variables W U : Type.
Notation nd := (nd R).
Notation gauss := (gauss R).
Notation momp := (momp illcond).
Notation exact_on := (@exact_on R illcond W).
Notation exact_at := (@exact_at R illcond W).
Notation transform := (transform R W).

Lemma squeeze_11 (M : 'M[R]_1) : natleast1 (nsqueeze (Nd2 M)) = Nd1 M.
Proof.
rewrite /nsqueeze /=; congr Nd1; apply/matrixP=> i j.
by rewrite mxE -[0%N]/(nat_of_ord (0 : 'I_1)) entE !ord1.
Qed.
Lemma squeeze_1 (v : 'cV[R]_1) : natleast1 (nsqueeze (Nd1 v)) = Nd1 v.
Proof.
rewrite /nsqueeze /=; congr Nd1; apply/matrixP=> i j.
by rewrite mxE -[0%N]/(nat_of_ord (0 : 'I_1)) entE !ord1.
Qed.
Lemma momp_gaussian n (v : 'cV[R]_n) (P : 'M[R]_n) : momp (gaussian (Nd1 v) (Nd2 P)) v P.
Proof. by []. Qed.

Lemma correct_stepE n k (Rm Z : 'M[R]_k) (X : 'M[R]_(n, k)) g (m : 'cV[R]_n) (P : 'M[R]_n) (y zv : 'cV[R]_k) za ya :
  momp g m P -> natleast1 za = Nd1 zv -> natleast1 ya = Nd1 y -> Z + Rm \in unitmx -> (Z + Rm)^T = Z + Rm ->
  let K := X *m invmx (Z + Rm) in
  correct_step illcond (Nd2 Rm) g ya (za, Nd2 Z, Nd2 X) =
  Ok (gaussian (Nd1 (m + K *m (y - zv))) (Nd2 (P - K *m X^T))).
Proof.
move=> [hm hP] hz hy uZ sZ K; rewrite /correct_step niaddmm bindE np_solvemm // bindE hm bindE hy (nsub_v1 y hz) bindE /=.
have -> : (invmx (Z + Rm) *m X^T)^T = K by rewrite trmx_mul trmxK (sym_inv sZ).
by rewrite ndotmv bindE naddvv bindE hP bindE ndotmm bindE nsubmm bindE.
Qed.

Lemma smooth_stepE n (Q C P Sg X : 'M[R]_n) g s (m mu v : 'cV[R]_n) a :
  momp g m P -> momp s mu Sg -> natleast1 a = Nd1 v -> C + Q \in unitmx -> (C + Q)^T = C + Q ->
  let J := X *m invmx (C + Q) in
  smooth_step illcond (Nd2 Q) g s (a, Nd2 C, Nd2 X) =
  Ok (gaussian (Nd1 (m + J *m (mu - v))) (Nd2 (P + J *m (Sg - (C + Q)) *m J^T))).
Proof.
move=> [hm hP] [hmu hS] ha uZ sZ J; rewrite /smooth_step niaddmm bindE np_solvemm // bindE hm bindE hmu bindE (nsub_v1 mu ha) bindE /=.
have -> : (invmx (C + Q) *m X^T)^T = J by rewrite trmx_mul trmxK (sym_inv sZ).
by rewrite ndotmv bindE naddvv bindE hP bindE hS bindE nsubmm bindE nmatmulmm bindE nmatmulmm bindE naddmm bindE.
Qed.

Variables (T Tz : transform) (transition measurement : R -> U -> dfun R).
Variables (n k : nat) (S : lgssm R n k) (y : nat -> 'cV[R]_k).
Notation A := (s_A S). Notation b := (s_b S). Notation Q := (s_Q S).
Notation H := (s_H S). Notation c := (s_c S). Notation Rm := (s_R S).
Hypothesis ok : noise_ok S.

Lemma predict_exact g m P j t u w : exact_at T (transition t u) (A j) (b j) m P -> momp g m P -> posdef P ->
  exists w', predict T transition (Nd2 Q) t u g w = (w', Ok (gaussian (Nd1 (A j *m m + b j)) (Nd2 (cnd_C P Q (A j))))).
Proof.
move=> hT hg pP; have [w' [a [h1 h2]]] := hT g w hg; exists w'.
by rewrite /predict h1 /andthen /= bindE /predict_step niaddmm bindE /gaussian h2.
Qed.

Lemma correct_exact g m P j t u w ya : exact_at Tz (measurement t u) (H j) (c j) m P -> momp g m P -> posdef P -> natleast1 ya = Nd1 (y j) ->
  exists w', correct illcond Tz measurement (Nd2 Rm) t u g ya w =
   (w', Ok (gaussian (Nd1 (m + cnd_J P Rm (H j) *m (y j - (H j *m m + c j)))) (Nd2 (cnd_S P Rm (H j))))).
Proof.
move=> hT hg pP hy; have [w' [a [h1 h2]]] := hT g w hg; exists w'.
have [_ _ pR] := ok; have pC := cnd_C_pd (H j) pP pR.
rewrite /correct h1 /andthen /= bindE (correct_stepE _ hg h2 hy (posdef_unit pC) pC.1) -/(cnd_C P Rm (H j)) -/(cnd_J P Rm (H j)).
by do 3!f_equal; congr Nd2; rewrite /cnd_S trmx_mul trmxK pP.1 mulmxA.
Qed.

Lemma smooth_exact g m P s mu Sg j t u w : exact_at T (transition t u) (A j) (b j) m P -> momp g m P -> posdef P -> momp s mu Sg ->
  exists w', smooth illcond T transition (Nd2 Q) t u g s w =
   (w', Ok (gaussian (Nd1 (m + cnd_J P Q (A j) *m (mu - (A j *m m + b j)))) (Nd2 (cnd_S P Q (A j) + cnd_J P Q (A j) *m Sg *m (cnd_J P Q (A j))^T)))).
Proof.
move=> hT hg pP hs; have [w' [a [h1 h2]]] := hT g w hg; exists w'.
have [_ pQ _] := ok; have pC := cnd_C_pd (A j) pP pQ.
rewrite /smooth h1 /andthen /= bindE (smooth_stepE _ hg hs h2 (posdef_unit pC) pC.1) -/(cnd_C P Q (A j)) -/(cnd_J P Q (A j)).
by do 3!f_equal; congr Nd2; rewrite mulmxBr mulmxBl addrA addrAC -cnd_S_sub.
Qed.

(** the states returned: a Gaussian with vector mean and matrix covariance *)
Definition gv (g : 'cV[R]_n * 'M[R]_n) : gauss := gaussian (Nd1 g.1) (Nd2 g.2).
Arguments gv : simpl never.
Variable dt : R.
Variable u : U.
(** measurements: any of the shapes that squeeze to the vector y_j *)
Definition reads (ys : seq nd) := forall j, (j < size ys)%N -> natleast1 (nsqueeze (nth (Nd0 0) ys j)) = Nd1 (y j).

Lemma filter_loop_exact ys t j0 g w :
  (forall i, (i < size ys)%N -> exact_at T (transition (t + dt *+ i) u) (A (j0 + i)) (b (j0 + i)) (kf S y (j0 + i)).1 (kf S y (j0 + i)).2) ->
  (forall i, (i < size ys)%N -> exact_at Tz (measurement (t + dt *+ i) u) (H (j0 + i)) (c (j0 + i)) (pm S y (j0 + i)) (pC S y (j0 + i))) ->
  (forall i, (i < size ys)%N -> natleast1 (nsqueeze (nth (Nd0 0) ys i)) = Nd1 (y (j0 + i)%N)) ->
  momp g (kf S y j0).1 (kf S y j0).2 ->
  exists w', filter_loop (@nsqueeze R) (predict T transition (Nd2 Q)) (correct illcond Tz measurement (Nd2 Rm)) dt ys t u g w =
   (w', Ok (mkseq (fun i => gv (kf S y (j0 + i.+1))) (size ys))).
Proof.
elim: ys t j0 g w => [|y0 ys IH] t j0 g w hA hH hy hg; first by exists w.
have hA0 := hA 0%N isT; have hH0 := hH 0%N isT; have hy0 := hy 0%N isT; rewrite mulr0n addr0 addn0 in hA0 hH0 hy0.
have [w1 h1] := predict_exact w hA0 hg (kf_pd y ok j0).
have [w2 h2] := correct_exact w1 hH0 (momp_gaussian (pm S y j0) (pC S y j0)) (pC_pd y ok j0) hy0.
have [i hi|i hi|i hi||w3 h3] := IH (t + dt) j0.+1 (gv (kf S y j0.+1)) w2; last (exists w3).
- by have := hA i.+1 hi; rewrite mulrS addrA addnS.
- by have := hH i.+1 hi; rewrite mulrS addrA addnS.
- by have := hy i.+1 hi; rewrite addnS.
- exact: momp_gaussian.
rewrite /= h1 wbindE h2 wbindE h3 wbindE; do 2!f_equal; rewrite /mkseq /= addn1; congr (_ :: _).
rewrite (iotaDl 1 0) -map_comp; apply: eq_map => i /=; by rewrite addnS addSn.
Qed.

(** *** filter and smoother started at time 0 *)
Variables (ys : seq nd) (g0 : gauss).
Lemma filter_exact_at t0 w :
  (forall j, (j < size ys)%N -> exact_at T (transition (t0 + dt *+ j) u) (A j) (b j) (kf S y j).1 (kf S y j).2) ->
  (forall j, (j < size ys)%N -> exact_at Tz (measurement (t0 + dt *+ j) u) (H j) (c j) (pm S y j) (pC S y j)) ->
  reads ys -> momp g0 (s_m0 S) (s_P0 S) ->
  exists w', filter_run illcond T Tz transition measurement (Nd2 Q) (Nd2 Rm) g0 dt ys None t0 u w =
  (w', Ok (mkseq (fun i => gv (kf S y i.+1)) (size ys))).
Proof. by move=> hA hH hy hg; have [w' h] := @filter_loop_exact ys t0 0%N g0 w hA hH hy hg; exists w'. Qed.
Lemma filter_exact_from t0 w :
  (forall j, (j < size ys)%N -> exact_on T (transition (t0 + dt *+ j) u) (A j) (b j)) ->
  (forall j, (j < size ys)%N -> exact_on Tz (measurement (t0 + dt *+ j) u) (H j) (c j)) ->
  reads ys -> momp g0 (s_m0 S) (s_P0 S) ->
  exists w', filter_run illcond T Tz transition measurement (Nd2 Q) (Nd2 Rm) g0 dt ys None t0 u w =
  (w', Ok (mkseq (fun i => gv (kf S y i.+1)) (size ys))).
Proof.
move=> hA hH hy hg; apply: filter_exact_at => // j hj; apply: exact_onat; [exact: hA|exact: kf_pd|exact: hH|exact: pC_pd].
Qed.
Hypothesis hA : forall j, (j < size ys)%N -> exact_on T (transition (dt *+ j) u) (A j) (b j).
Hypothesis hH : forall j, (j < size ys)%N -> exact_on Tz (measurement (dt *+ j) u) (H j) (c j).
Hypothesis hy : reads ys.
Hypothesis hg : momp g0 (s_m0 S) (s_P0 S).

Lemma filter_exact w : exists w', filter_run illcond T Tz transition measurement (Nd2 Q) (Nd2 Rm) g0 dt ys None 0 u w =
  (w', Ok (mkseq (fun i => gv (kf S y i.+1)) (size ys))).
Proof.
by apply: filter_exact_from => // j hj; rewrite add0r; [exact: hA|exact: hH].
Qed.

Lemma gv_copy g : g_copy (gv g) = gv g. Proof. by []. Qed.

Section At.
Hypothesis hAt : forall j, (j < size ys)%N -> exact_at T (transition (dt *+ j) u) (A j) (b j) (kf S y j).1 (kf S y j).2.
Lemma smoother_loop_exact N w : (0 < N <= size ys)%N -> forall j, (j < N)%N ->
  exists w', smoother_loop (@g_copy R) (smooth illcond T transition (Nd2 Q)) dt (rev (mkseq (fun i => gv (kf S y i.+1)) j)) (dt *+ j) u (gv (ks S y N j.+1)) w =
   (w', Ok (rev (mkseq (fun i => gv (ks S y N i.+1)) j))).
Proof.
move=> /andP[N0 hN] j; elim: j w => [|j IH] w hj; first by exists w.
have ej : (j.+1 < size ys)%N by exact: leq_trans hj hN.
have [w1 h1] := smooth_exact w (hAt ej) (momp_gaussian (kf S y j.+1).1 (kf S y j.+1).2) (kf_pd y ok j.+1)
  (momp_gaussian (ks S y N j.+2).1 (ks S y N j.+2).2).
have [w2 h2] := IH w1 (ltnW hj); exists w2.
rewrite [mkseq (fun i => gv (kf S y i.+1)) _]mkseqS rev_rcons /= h1 wbindE.
have -> : g_copy (gaussian (Nd1 ((kf S y j.+1).1 + cnd_J (kf S y j.+1).2 Q (A j.+1) *m ((ks S y N j.+2).1 - (A j.+1 *m (kf S y j.+1).1 + b j.+1))))
     (Nd2 (cnd_S (kf S y j.+1).2 Q (A j.+1) + cnd_J (kf S y j.+1).2 Q (A j.+1) *m (ks S y N j.+2).2 *m (cnd_J (kf S y j.+1).2 Q (A j.+1))^T)))
    = gv (ks S y N j.+1) by rewrite (ks_step S y hj).
have -> : dt *+ j.+1 - dt = dt *+ j by rewrite mulrSr addrK.
rewrite h2 wbindE; do 2!f_equal.
rewrite [in RHS]mkseqS rev_rcons; congr (_ :: _); by rewrite (ks_step S y hj).
Qed.
Lemma smoother_exact_at w : (0 < size ys)%N -> exists w',
  smoother_run illcond T transition (Nd2 Q) dt (mkseq (fun i => gv (kf S y i.+1)) (size ys)) u w =
  (w', Ok (mkseq (fun i => gv (ks S y (size ys) i.+1)) (size ys))).
Proof.
case E: (size ys) => [//|N] _; have hN : (0 < N.+1 <= size ys)%N by rewrite E leqnn.
have [w' h] := smoother_loop_exact w hN (ltnSn N); exists w'.
rewrite /smoother_run /kalman_smoother size_mkseq mkseqS rev_rcons [(N.+1).-1]/=.
have -> : g_copy (gv (kf S y N.+1)) = gv (kf S y N.+1) by [].
have eN : gv (kf S y N.+1) = gv (ks S y N.+1 N.+1) by rewrite ks_last.
by rewrite eN h wbindE rev_cons revK mkseqS.
Qed.
End At.
Lemma smoother_exact w : (0 < size ys)%N -> exists w',
  smoother_run illcond T transition (Nd2 Q) dt (mkseq (fun i => gv (kf S y i.+1)) (size ys)) u w =
  (w', Ok (mkseq (fun i => gv (ks S y (size ys) i.+1)) (size ys))).
Proof. by apply: smoother_exact_at => j hj; apply: exact_onat; [exact: hA|exact: kf_pd]. Qed.

End Facts.
