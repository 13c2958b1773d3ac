(** * The Kalman filter and smoother with any moment-matching rule; proper rules *)
Set Warnings "-notation-overridden,-ambiguous-paths".
From mathcomp Require Import all_ssreflect all_algebra.
From Verif Require Import Base ND NDFacts PosDef LinAlg LinAlgFacts Gauss GaussFacts Transforms TransformFacts CondGauss
  Estimator EstimatorFacts SpecGauss SpecAssumed KalmanLoop KalmanLoopFacts Kalman KalmanFacts.
Set Implicit Arguments.
Unset Strict Implicit.
Unset Printing Implicit Defensive.
Import GRing.Theory Num.Theory Order.Theory.
Local Open Scope ring_scope.

(** ** joint distributions *)
Section Joint.
Variable R : rcfType.
(** a joint covariance that is positive semidefinite makes the conditional covariance positive definite *)
Lemma schur_pd n k (P : 'M[R]_n) (C V : 'M[R]_k) (X : 'M[R]_(n, k)) : posdef P -> posdef V -> C^T = C ->
  (forall (v : 'cV[R]_n) (u : 'cV[R]_k), 0 <= qf P v - 2%:R * bf X v u + qf C u) ->
  posdef (C + V) /\ posdef (P - X *m invmx (C + V) *m X^T).
Proof.
move=> pP pV sC hj; have pC : possemi C.
  by split=> // u; have := hj 0 u; rewrite qf0 bf0l mulr0 subr0 add0r.
have pS : posdef (C + V) by exact: posdefDr.
split=> //; split.
  by rewrite linearB /= pP.1 trmx_mul trmxK trmx_mul (sym_inv pS.1) mulmxA.
move=> v v0; rewrite qfBm; set S := C + V in pS *; set u := invmx S *m (X^T *m v).
have uS : S \in unitmx by exact: posdef_unit.
have eu : X^T *m v = S *m u by rewrite /u mulKVmx.
have e1 : qf (X *m invmx S *m X^T) v = qf S u by rewrite qf_congr' qf_inv ?pS.1 // -/u.
have e2 : bf X v u = qf S u by rewrite bfC /bf -mulmxA eu mulmxA.
have eS : qf S u = qf C u + qf V u by rewrite /S qfDm.
rewrite e1; have := hj v u; rewrite e2 => h.
case: (u =P 0) => [u0|/eqP u0]; first by rewrite u0 qf0 subr0; apply: pP.2.
have vu := pV.2 _ u0.
have -> : qf P v - qf S u = (qf P v - 2%:R * qf S u + qf C u) + qf V u.
  by rewrite -addrA -eS mulr_natl mulr2n opprD addrA addrNK.
exact: ltr_paddl h vu.
Qed.
End Joint.

(** ** transforms that compute a rule *)
Section Follow.
Variable R : rcfType.
Variable illcond : forall n, 'M[R]_n -> bool.
Variables W U : Type.
Notation gauss := (gauss R).
Notation momp := (momp illcond).
Notation transform := (transform R W).

(** on Gaussians with a vector mean the transform returns the numbers of the rule *)
Definition follows (T : transform) (F : dfun R) n k (r : rule R n k) : Prop := forall g m P w, momp g m P -> posdef P ->
  exists w' a, T F g w = (w', Ok (a, Nd2 (r_cov r m P), Nd2 (r_cross r m P))) /\ natleast1 a = Nd1 (r_mean r m P).

Variables (T Tz : transform) (transition measurement : R -> U -> dfun R).
Variables (n k : nat) (A : approx R n k) (y : nat -> 'cV[R]_k).
Notation mom := ('cV[R]_n * 'M[R]_n)%type.
Variables (dt : R) (u : U) (ys : seq (nd R)) (g0 : gauss).
Notation N := (size ys).
Hypothesis hf : forall j, (j < N)%N -> follows T (transition (dt *+ j) u) (a_f A j).
Hypothesis hh : forall j, (j < N)%N -> follows Tz (measurement (dt *+ j) u) (a_h A j).
Hypothesis hp : proper_model A N.
Hypothesis hy : reads y ys.
Hypothesis hg : momp g0 (a_m0 A) (a_P0 A).
Notation fl := (a_filt A y 0).
Notation sm := (a_smooth A y 0 N).

Lemma tempered0 (g : mom) : posdef g.2 -> tempered 0 g = g.
Proof.
case: g => m P /= pP; rewrite /tempered /moments_of /natural /= scale0r addr0 invmxK mulKVmx //; exact: posdef_unit.
Qed.
Lemma a_pred_pd j (g : mom) : (j < N)%N -> posdef g.2 -> posdef (a_pred A j g).2.
Proof. by move=> hj pg; have [/(_ _ hj) [hF _] _] := hp; have [] := hF g.1 g.2 pg. Qed.
Lemma a_corr_pd j (g : mom) : (j < N)%N -> posdef g.2 -> posdef (a_corr A y j g).2.
Proof. by move=> hj pg; have [/(_ _ hj) [_ hH] _] := hp; have [] := hH g.1 g.2 pg. Qed.
Lemma fl_pd j : (j <= N)%N -> posdef (fl j).2.
Proof.
elim: j => [|j IH] hj; first by have [] := hp.
have pp := a_pred_pd hj (IH (ltnW hj)).
by rewrite [fl _]/= (tempered0 pp); apply: a_corr_pd.
Qed.
Lemma flS j : (j < N)%N -> fl j.+1 = a_corr A y j (a_pred A j (fl j)).
Proof. by move=> hj; rewrite [LHS]/= tempered0 //; apply: a_pred_pd => //; apply: fl_pd; exact: ltnW. Qed.

Lemma predict_rule g (m : mom) j w : (j < N)%N -> momp g m.1 m.2 -> posdef m.2 ->
  exists w', predict T transition (Nd2 (a_Q A)) (dt *+ j) u g w = (w', Ok (gv (a_pred A j m))).
Proof.
move=> hj gm pm; have [w' [a [h1 h2]]] := hf hj w gm pm; exists w'.
by rewrite /predict h1 /andthen /= bindE /predict_step niaddmm bindE /gaussian h2.
Qed.
Lemma correct_rule g (m : mom) j ya w : (j < N)%N -> momp g m.1 m.2 -> posdef m.2 -> natleast1 ya = Nd1 (y j) ->
  exists w', correct illcond Tz measurement (Nd2 (a_R A)) (dt *+ j) u g ya w = (w', Ok (gv (a_corr A y j m))).
Proof.
move=> hj gm pm ey; have [w' [a [h1 h2]]] := hh hj w gm pm; exists w'.
have [/(_ _ hj) [_ hH] _] := hp; have [pS _] := hH m.1 m.2 pm.
by rewrite /correct h1 /andthen /= bindE (correct_stepE _ gm h2 ey (posdef_unit pS) pS.1).
Qed.
Lemma smooth_rule g s (m nx : mom) j w : (j < N)%N -> momp g m.1 m.2 -> posdef m.2 -> momp s nx.1 nx.2 ->
  exists w', smooth illcond T transition (Nd2 (a_Q A)) (dt *+ j) u g s w = (w', Ok (gv (a_back A j m nx))).
Proof.
move=> hj gm pm gs; have [w' [a [h1 h2]]] := hf hj w gm pm; exists w'.
have [/(_ _ hj) [hF _] _] := hp; have [pS _] := hF m.1 m.2 pm.
by rewrite /smooth h1 /andthen /= bindE (smooth_stepE _ gm gs h2 (posdef_unit pS) pS.1).
Qed.

Lemma filter_loop_rule l j0 g w : (j0 + size l = N)%N -> l = drop j0 ys -> momp g (fl j0).1 (fl j0).2 ->
  exists w', filter_loop (@nsqueeze R) (predict T transition (Nd2 (a_Q A))) (correct illcond Tz measurement (Nd2 (a_R A)))
    dt l (dt *+ j0) u g w = (w', Ok (mkseq (fun i => gv (fl (j0 + i.+1))) (size l))).
Proof.
elim: l j0 g w => [|y0 l IH] j0 g w hs hl gm; first by exists w.
have hj : (j0 < N)%N by rewrite -hs /= addnS ltnS leq_addr.
have pf := fl_pd (ltnW hj).
have [w1 h1] := predict_rule w hj gm pf.
have ey : natleast1 (nsqueeze y0) = Nd1 (y j0).
  by have := hy hj; rewrite -[j0 in nth _ _ j0]addn0 -nth_drop -hl.
have [w2 h2] := correct_rule w1 hj (momp_gaussian illcond (a_pred A j0 (fl j0)).1 (a_pred A j0 (fl j0)).2) (a_pred_pd hj pf) ey.
have [||| w3 h3] := IH j0.+1 (gv (fl j0.+1)) w2; last (exists w3).
- by rewrite addSn -addnS.
- by rewrite -addn1 addnC -drop_drop -hl /= drop0.
- exact: momp_gaussian.
rewrite /= h1 wbindE h2 wbindE -(flS hj) -mulrSr h3 wbindE; do 2!f_equal.
rewrite /mkseq /= addn1; congr (_ :: _).
by rewrite (iotaDl 1 0) -map_comp; apply: eq_map => i /=; rewrite addnS addSn.
Qed.
Lemma filter_rule w : exists w',
  filter_run illcond T Tz transition measurement (Nd2 (a_Q A)) (Nd2 (a_R A)) g0 dt ys None 0 u w =
  (w', Ok (mkseq (fun i => gv (fl i.+1)) N)).
Proof. by have [||| w' h] := @filter_loop_rule ys 0%N g0 w; rewrite ?drop0 //; exists w'. Qed.

Lemma sm_last : sm N = fl N. Proof. by rewrite /a_smooth subnn. Qed.
Lemma smS j : (j < N)%N -> sm j = a_back A j (fl j) (sm j.+1).
Proof. by move=> hj; rewrite /a_smooth -(subnSK hj) [LHS]/= subnSK // subKn // ltnW. Qed.
Lemma smoother_loop_rule j w : (j < N)%N -> exists w',
  smoother_loop (@g_copy R) (smooth illcond T transition (Nd2 (a_Q A))) dt (rev (mkseq (fun i => gv (fl i.+1)) j)) (dt *+ j) u (gv (sm j.+1)) w =
  (w', Ok (rev (mkseq (fun i => gv (sm i.+1)) j))).
Proof.
elim: j w => [|j IH] w hj; first by exists w.
have [w1 h1] := smooth_rule w hj (momp_gaussian illcond (fl j.+1).1 (fl j.+1).2) (fl_pd (ltnW hj))
  (momp_gaussian illcond (sm j.+2).1 (sm j.+2).2).
have [w2 h2] := IH w1 (ltnW hj); exists w2.
rewrite [mkseq (fun i => gv (fl i.+1)) _]mkseqS rev_rcons [LHS]/= h1 wbindE -(smS hj).
have -> : dt *+ j.+1 - dt = dt *+ j by rewrite mulrSr addrK.
have -> : g_copy (gv (sm j.+1)) = gv (sm j.+1) by [].
by rewrite h2 wbindE [in RHS]mkseqS rev_rcons.
Qed.
Lemma smoother_rule w : (0 < N)%N -> exists w',
  smoother_run illcond T transition (Nd2 (a_Q A)) dt (mkseq (fun i => gv (fl i.+1)) N) u w =
  (w', Ok (mkseq (fun i => gv (sm i.+1)) N)).
Proof.
move=> N0; have eN : N = N.-1.+1 by rewrite prednK.
have hj : (N.-1 < N)%N by rewrite [X in (_ < X)%N]eN.
have [w' h] := smoother_loop_rule w hj; exists w'.
rewrite /smoother_run /kalman_smoother size_mkseq.
have -> : mkseq (fun i => gv (fl i.+1)) N = rcons (mkseq (fun i => gv (fl i.+1)) N.-1) (gv (fl N)) by rewrite [in LHS]eN mkseqS -eN.
rewrite rev_rcons; have -> : g_copy (gv (fl N)) = gv (sm N.-1.+1) by rewrite -eN sm_last.
by rewrite h wbindE rev_cons revK -(mkseqS (fun i => gv (sm i.+1))) -eN.
Qed.
End Follow.
