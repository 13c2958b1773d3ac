(** * The extended and iterated extended Kalman smoother on nonlinear models *)
Set Warnings "-notation-overridden,-ambiguous-paths".
From mathcomp Require Import all_ssreflect all_algebra.
From Verif Require Import Base ND NDFacts PosDef LinAlg LinAlgFacts Gauss GaussFacts Transforms TransformFacts CondGauss
  Estimator EstimatorFacts SpecGauss SpecNonlin KalmanMath KalmanLoop KalmanLoopFacts Kalman KalmanFacts Iterated IteratedMath IteratedFacts.
Set Implicit Arguments.
Unset Strict Implicit.
Unset Printing Implicit Defensive.
Import GRing.Theory Num.Theory Order.Theory.
Local Open Scope ring_scope.

(** ** The extended Kalman filter as the Kalman filter of a model linearised along its own estimates *)
Section Ekf.
Variables (R : rcfType) (n k : nat) (M : nlssm R n k) (y : nat -> 'cV[R]_k).
Fixpoint ekf (j : nat) : 'cV[R]_n * 'M[R]_n :=
  if j is i.+1 then
    let g := ekf i in
    let A := n_F M i g.1 in let xp := n_f M i g.1 in let C := cnd_C g.2 (n_Q M) A in let H := n_H M i xp in
    (xp + cnd_J C (n_R M) H *m (y i - n_h M i xp), cnd_S C (n_R M) H)
  else (n_m0 M, n_P0 M).
Definition ekf_model : lgssm R n k := lin_at M (fun j => (ekf j).1) (fun j => n_f M j (ekf j).1).
Lemma kf_ekf j : kf ekf_model y j = ekf j.
Proof.
elim: j => [|j IH]; first by [].
rewrite -[kf _ _ j.+1]/(kstep ekf_model y j (kf ekf_model y j)) IH /kstep /ekf_model /lin_at.
have e (x : 'cV[R]_n) : n_F M j x *m x + (n_f M j x - n_F M j x *m x) = n_f M j x by rewrite addrC subrK.
have e' (x : 'cV[R]_n) : n_H M j x *m x + (n_h M j x - n_H M j x *m x) = n_h M j x by rewrite addrC subrK.
by rewrite !e !e'.
Qed.
Lemma pm_ekf j : pm ekf_model y j = n_f M j (ekf j).1.
Proof. by rewrite /pm kf_ekf /= addrC subrK. Qed.
Lemma noise_lin xf xh : noise_okn M -> noise_ok (lin_at M xf xh). Proof. by []. Qed.
End Ekf.

(** the recursions depend on the model pointwise *)
Section Ext.
Variables (R : rcfType) (n k : nat) (S1 S2 : lgssm R n k) (y : nat -> 'cV[R]_k).
Hypotheses (hm : s_m0 S1 = s_m0 S2) (hP : s_P0 S1 = s_P0 S2) (hQ : s_Q S1 = s_Q S2) (hR : s_R S1 = s_R S2).
Hypotheses (hA : s_A S1 =1 s_A S2) (hb : s_b S1 =1 s_b S2) (hH : s_H S1 =1 s_H S2) (hc : s_c S1 =1 s_c S2).
Lemma kf_ext j : kf S1 y j = kf S2 y j.
Proof. by elim: j => [|j /= ->]; rewrite /= ?hm ?hP // /kstep hA hb hQ hH hc hR. Qed.
Lemma ks_ext N i : ks S1 y N i = ks S2 y N i.
Proof.
rewrite /ks; elim: (N - i)%N => [|j /= ->]; first exact: kf_ext.
by rewrite /sstep /Jg /Sc /pm kf_ext hA hb hQ.
Qed.
End Ext.

Section Facts.
Variable R : rcfType.
Variable illcond : forall n, 'M[R]_n -> bool.
Variable U : Type.
Notation nd := (nd R).
Notation gauss := (gauss R).
Notation momp := (momp illcond).
Notation sysfun := (sysfun R U).
Notation obj := (ieks_obj R U).
Variables (n k : nat) (dt : R) (u0 : U).
Notation nlssm := (nlssm R n k).

(** at time j dt the functions F, Hm behave as the model's, in a shape style that the Taylor transform accepts *)
Definition realises (M : nlssm) (F Hm : sysfun) := forall j x,
  style (F (dt *+ j) u0) x (n_f M j x) (n_F M j x) /\ style (Hm (dt *+ j) u0) x (n_h M j x) (n_H M j x).

Lemma realises_frozen M F Hm a c : realises M F Hm -> realises (frozen M a c) (linearise F (Nd1 a)) (linearise Hm (Nd1 c)).
Proof. by move=> h j x; split; apply: lin_style; [exact: (h j a).1|exact: (h j c).2]. Qed.

Variable y : nat -> 'cV[R]_k.
Variable g0 : gauss.

(** *** the plain filter and smoother with the Taylor transform *)
Section Plain.
Variable W : Type.
Notation TT := (pure_transform (W := W) (tt_transform illcond)).
Variables (M : nlssm) (F Hm : sysfun).
Hypothesis hM : realises M F Hm.
Hypothesis ok : noise_okn M.
Hypothesis hg : momp g0 (n_m0 M) (n_P0 M).
Notation S := (ekf_model M y).
Lemma at_f j : exact_at illcond TT (F (dt *+ j) u0) (s_A S j) (s_b S j) (kf S y j).1 (kf S y j).2.
Proof. apply: tt_exact_at; rewrite kf_ekf /= addrC subrK; exact: (hM j _).1. Qed.
Lemma at_h j : exact_at illcond TT (Hm (dt *+ j) u0) (s_H S j) (s_c S j) (pm S y j) (pC S y j).
Proof. apply: tt_exact_at; rewrite pm_ekf /= addrC subrK; exact: (hM j _).2. Qed.
Lemma ekf_filter (ys : seq nd) (w : W) : reads y ys -> exists w',
  filter_run illcond TT TT F Hm (Nd2 (n_Q M)) (Nd2 (n_R M)) g0 dt ys None 0 u0 w =
  (w', Ok (mkseq (fun i => gv (kf S y i.+1)) (size ys))).
Proof.
move=> hy; apply: (filter_exact_at (S := S)) => // j hj; rewrite add0r; [exact: at_f|exact: at_h].
Qed.
Lemma ekf_smoother (ys : seq nd) (w : W) : (0 < size ys)%N -> exists w',
  smoother_run illcond TT F (Nd2 (n_Q M)) dt (mkseq (fun i => gv (kf S y i.+1)) (size ys)) u0 w =
  (w', Ok (mkseq (fun i => gv (ks S y (size ys) i.+1)) (size ys))).
Proof. move=> h0; apply: (smoother_exact_at (S := S)) => // j hj; exact: at_f. Qed.
End Plain.

(** *** the iterated smoother *)
Section Call.
Variables (M : nlssm) (f h : sysfun).
Hypothesis hM : realises M f h.
Hypothesis ok : noise_okn M.
Hypothesis hg : momp g0 (n_m0 M) (n_P0 M).
Variable ys : seq nd.
Hypothesis hy : reads y ys.
Hypothesis N0 : (0 < size ys)%N.
Notation N := (size ys).

(** the smoothed mean of the state that produced measurement j *)
Definition sm (S : lgssm R n k) (j : nat) : 'cV[R]_n := (ks S y N j.+1).1.
(** the model used in pass i: the first one linearises the functions [M'] along the estimates *)
Fixpoint pass (M' : nlssm) (i : nat) : lgssm R n k :=
  if i is i'.+1 then lin_at M (sm (pass M' i')) (sm (pass M' i')) else ekf_model M' y.
(** the object before pass i + 1 *)
Notation lists S o := (has_lists (fun j => linearise f (Nd1 (sm S j))) (fun j => linearise h (Nd1 (sm S j))) ys o).
Definition after (S : lgssm R n k) (o : obj) : obj :=
  IeksObj (linearise f (Nd1 (sm S (minn 1 N.-1)))) (linearise h (Nd1 (sm S N.-1))) (i_fl o) (i_hl o).

Lemma lin_ok xf xh : noise_ok (lin_at M xf xh). Proof. exact: noise_lin. Qed.
Lemma loopE j M' i o : lists (pass M' i) o -> exists o',
  ieks_loop illcond f h (Nd2 (n_Q M)) (Nd2 (n_R M)) g0 dt u0 j ys (mkseq (fun q => gv (ks (pass M' i) y N q.+1)) N) o =
  (o', Ok (mkseq (fun q => gv (ks (pass M' (i + j)) y N q.+1)) N)) /\
  if j is j'.+1 then i_trans o' = linearise f (Nd1 (sm (pass M' (i + j')) (minn 1 N.-1))) /\
                     i_meas o' = linearise h (Nd1 (sm (pass M' (i + j')) N.-1))
  else o' = o.
Proof.
elim: j i o => [|j IH] i o ho; first by exists o; rewrite addn0.
set S := pass M' i in ho *; set S' := lin_at M (sm S) (sm S).
have hA q : (q < N)%N -> exact_on illcond (pure_transform (W := obj) (tt_transform illcond)) (linearise f (Nd1 (sm S q)) (dt *+ q) u0) (s_A S' q) (s_b S' q).
  by move=> _; apply: lin_exact; exact: (hM q _).1.
have hH q : (q < N)%N -> exact_on illcond (pure_transform (W := obj) (tt_transform illcond)) (linearise h (Nd1 (sm S q)) (dt *+ q) u0) (s_H S' q) (s_c S' q).
  by move=> _; apply: lin_exact; exact: (hM q _).2.
have okS' : noise_ok S' by exact: lin_ok.
have hgS' : momp g0 (s_m0 S') (s_P0 S') by [].
have h1 := ik_filter_exact okS' hgS' hA hH hy ho.
set o1 := (if ys is [::] then o else _) in h1.
have e1 : o1 = set_meas (linearise h (Nd1 (sm S N.-1))) (set_trans (linearise f (Nd1 (sm S N.-1))) o) by rewrite /o1; case: (ys) N0.
have ho1 : lists S o1 by rewrite e1.
have h2 := ik_smoother_exact y okS' hA N0 ho1.
set o2 := (if N.-1 is 0 then o1 else _) in h2.
have e2 : o2 = after S o.
  rewrite /o2 e1 /after /set_meas /set_trans /=; case: N => [|[|q]] //=; by rewrite minnE.
rewrite [ieks_loop _ _ _ _ _ _ _ _ _ _ _ _]/= h1 wbindE h2 wbindE relinearise_gv wbindE.
set o3 := IeksObj _ _ _ _.
have ho3 : lists (pass M' i.+1) o3 by [].
have [o' [h3 h4]] := IH i.+1 o3 ho3; exists o'; split; first by rewrite addnS -addSn.
case: j h4 {IH h3} => [|j]; last by rewrite addSn -addnS.
by move=> ->; rewrite /o3 /= e2 addn0.
Qed.

(** object [o] currently holds the functions of model [M'] *)
Theorem callE M' o num : realises M' (i_trans o) (i_meas o) ->
  [/\ n_m0 M' = n_m0 M, n_P0 M' = n_P0 M, n_Q M' = n_Q M & n_R M' = n_R M] -> exists o',
  ieks_call illcond f h (Nd2 (n_Q M)) (Nd2 (n_R M)) g0 dt u0 num ys o =
  (o', Ok (mkseq (fun q => gv (ks (pass M' num.-1) y N q.+1)) N)) /\
  if num.-1 is j.+1 then i_trans o' = linearise f (Nd1 (sm (pass M' j) (minn 1 N.-1))) /\
                         i_meas o' = linearise h (Nd1 (sm (pass M' j) N.-1))
  else i_trans o' = i_trans o /\ i_meas o' = i_meas o.
Proof.
move=> hM' [em eP eQ eR].
have ok' : noise_ok (ekf_model M' y) by apply: noise_lin; rewrite /noise_okn eP eQ eR.
have hg' : momp g0 (s_m0 (ekf_model M' y)) (s_P0 (ekf_model M' y)) by rewrite /= em eP.
have hA q : (q < N)%N -> exact_at illcond (pure_transform (W := obj) (tt_transform illcond)) (i_trans o (dt *+ q) u0) (s_A (ekf_model M' y) q) (s_b (ekf_model M' y) q)
   (kf (ekf_model M' y) y q).1 (kf (ekf_model M' y) y q).2.
  by move=> _; exact: at_f hM' q.
have hH q : (q < N)%N -> exact_at illcond (pure_transform (W := obj) (tt_transform illcond)) (i_meas o (dt *+ q) u0) (s_H (ekf_model M' y) q) (s_c (ekf_model M' y) q)
   (pm (ekf_model M' y) y q) (pC (ekf_model M' y) y q).
  by move=> _; exact: at_h hM' q.
have h1 := first_filter ok' hg' hA hH hy (erefl (i_trans o)) (erefl (i_meas o)).
have h2 := first_smoother ok' hA (erefl (i_trans o)) N0.
rewrite /= eQ in h2; rewrite /= eQ eR in h1.
rewrite /ieks_call h1 wbindE h2 wbindE relinearise_gv wbindE.
set o3 := IeksObj _ _ _ _.
have ho3 : lists (pass M' 0) o3 by [].
have [o' [h3 h4]] := loopE num.-1 ho3; exists o'; split; first exact: h3.
by case: num.-1 h4 => [->|j].
Qed.
End Call.

(** *** any sequence of calls on one object *)
End Facts.
Section History.
Variable R : rcfType.
Variable illcond : forall n, 'M[R]_n -> bool.
Variable U : Type.
Notation nd := (nd R).
Notation momp := (momp illcond).
Notation sysfun := (sysfun R U).
Notation obj := (ieks_obj R U).
Variables (n k : nat) (dt : R) (u0 : U) (g0 : gauss R).
Notation nlssm := (nlssm R n k).
Variables (M : nlssm) (f h : sysfun).
Notation call num ys o := (ieks_call illcond f h (Nd2 (n_Q M)) (Nd2 (n_R M)) g0 dt u0 num ys o).
Inductive history : obj -> Prop :=
| Hnew : history (ieks_new f h)
| Hcall o num ys (y' : nat -> 'cV[R]_k) o' r : history o -> reads y' ys -> call num ys o = (o', r) -> history o'.
Definition stale (M' : nlssm) := M' = M \/ exists a c, M' = frozen M a c.
Lemma stale_noise M' : stale M' -> [/\ n_m0 M' = n_m0 M, n_P0 M' = n_P0 M, n_Q M' = n_Q M & n_R M' = n_R M].
Proof. by case=> [->|[a [c ->]]]. Qed.
Hypothesis hM : realises dt u0 M f h.
Hypothesis ok : noise_okn M.
Hypothesis hg : momp g0 (n_m0 M) (n_P0 M).
Lemma history_stale o : history o -> exists2 M', stale M' & realises dt u0 M' (i_trans o) (i_meas o).
Proof.
elim=> [|{}o num ys y' o' r _ [M' st re] hy e]; first by exists M; [left|].
case: (posnP (size ys)) => [/size0nil z|N0].
  by move: e; rewrite z /ieks_call /kalman_filter /= wbindE /kalman_smoother /= wbind_err => -[<- _]; exists M'.
have [o2 [e2 h2]] := callE hM ok hg hy N0 num re (stale_noise st).
move: e; rewrite e2 => -[<- _] {o' r}.
case: num.-1 h2 => [|j] [-> ->]; first by exists M'.
by eexists; last (apply: realises_frozen; exact: hM); right; do 2!eexists.
Qed.
End History.

(** *** affine models *)
Section Affine.
Variables (R : rcfType) (n k : nat) (S : lgssm R n k).
Definition affine_as (M : nlssm R n k) := [/\ n_m0 M = s_m0 S, n_P0 M = s_P0 S, n_Q M = s_Q S & n_R M = s_R S] /\
  forall j x, [/\ n_F M j x = s_A S j, n_f M j x = s_A S j *m x + s_b S j, n_H M j x = s_H S j & n_h M j x = s_H S j *m x + s_c S j].
Lemma affine_frozen M a c : affine_as M -> affine_as (frozen M a c).
Proof.
move=> [h1 h2]; split=> //= j x; have [-> -> _ _] := h2 j a; have [_ _ -> ->] := h2 j c; split=> //.
  by rewrite addrAC subrr add0r.
by rewrite [_ + s_c S j]addrC addrK.
Qed.
Lemma affine_stale M M' : affine_as M -> stale M M' -> affine_as M'.
Proof. by move=> h [->|[a [c ->]]] //; exact: affine_frozen. Qed.
Lemma affine_lin M xf xh y N i : affine_as M -> ks (lin_at M xf xh) y N i = ks S y N i.
Proof.
move=> [[h1 h2 h3 h4] h5]; apply: ks_ext => //= j.
- by have [] := h5 j (xf j).
- by have [-> -> _ _] := h5 j (xf j); rewrite addrAC subrr add0r.
- by have [] := h5 j (xh j).
- by have [_ _ -> ->] := h5 j (xh j); rewrite addrAC subrr add0r.
Qed.
Lemma affine_pass M M' y (ys : seq (nd R)) i N q : affine_as M -> affine_as M' -> ks (pass y M ys M' i) y N q = ks S y N q.
Proof. by move=> h h'; case: i => [|i] /=; exact: affine_lin. Qed.
End Affine.

(** ** The iterated filter *)
Section IekfRun.
Variable R : rcfType.
Variable illcond : forall n, 'M[R]_n -> bool.
Variable U : Type.
Notation nd := (nd R).
Notation gauss := (gauss R).
Notation momp := (momp illcond).
Notation sysfun := (sysfun R U).

(** one iteration is one extended Kalman correction *)
Lemma iterated_one (measurement : sysfun) t u n k (Rm : 'M[R]_k) (P : 'M[R]_n) g (m : 'cV[R]_n) (hv y : 'cV[R]_k) (J : 'M[R]_(k, n)) ya :
  iekf_style (measurement t u) m hv J -> momp g m P -> natleast1 ya = Nd1 y -> posdef P -> posdef Rm ->
  iterated_update illcond measurement (Nd2 Rm) 1 t u g ya = Ok (gaussian (Nd1 (m + cnd_J P Rm J *m (y - hv))) (Nd2 (cnd_S P Rm J))).
Proof.
move=> hs [hm hP] hy pP pR; rewrite /iterated_update hm bindE hP bindE /= (iekf_bodyE m hs hm hy pP pR) bindE.
by rewrite subrr mulmx0 subr0.
Qed.
Lemma iekf_loopS measurement Rm N t u x P ya g : iekf_loop (U := U) illcond measurement Rm N.+1 t u x P ya g =
  bind (iekf_loop illcond measurement Rm N t u x P ya g) (iekf_body illcond measurement Rm t u x P ya).
Proof.
elim: N g => [|N IH] g; first by rewrite /= bindE; case: iekf_body => [a|e].
have st K g' : iekf_loop illcond measurement Rm K.+1 t u x P ya g' =
  bind (iekf_body illcond measurement Rm t u x P ya g') (fun s => iekf_loop illcond measurement Rm K t u x P ya s) by [].
rewrite st [in RHS]st; case: (iekf_body _ _ _ _ _ _ _ _ g) => [a|e] //.
by rewrite bindE IH bindE.
Qed.

Variables (n k : nat) (dt : R) (u0 : U) (y : nat -> 'cV[R]_k) (g0 : gauss).
Variables (M : nlssm R n k) (F Hm : sysfun).
Hypothesis hF : forall j x, style (F (dt *+ j) u0) x (n_f M j x) (n_F M j x).
Hypothesis hH : forall j x, iekf_style (Hm (dt *+ j) u0) x (n_h M j x) (n_H M j x).
Hypothesis ok : noise_okn M.
Hypothesis hg : momp g0 (n_m0 M) (n_P0 M).
Notation S := (ekf_model M y).
Notation TT := (pure_transform (W := unit) (tt_transform illcond)).

Lemma iekf_one_loop ys t j0 g w : t = dt *+ j0 ->
  (forall i, (i < size ys)%N -> natleast1 (nsqueeze (nth (Nd0 0) ys i)) = Nd1 (y (j0 + i)%N)) ->
  momp g (kf S y j0).1 (kf S y j0).2 ->
  filter_loop (@nsqueeze R) (predict TT F (Nd2 (n_Q M))) (fun t u g y w => (w, iterated_update illcond Hm (Nd2 (n_R M)) 1 t u g y)) dt ys t u0 g w =
   (w, Ok (mkseq (fun i => gv (kf S y (j0 + i.+1))) (size ys))).
Proof.
have okS : noise_ok S by exact: noise_lin.
case: w; elim: ys t j0 g => [|y0 ys IH] t j0 g et hy hgj //.
have hA0 : exact_at illcond TT (F t u0) (s_A S j0) (s_b S j0) (kf S y j0).1 (kf S y j0).2.
  by rewrite et; apply: tt_exact_at; rewrite kf_ekf /= addrC subrK; exact: hF.
have [[] h1] := predict_exact tt hA0 hgj (kf_pd y okS j0).
have hy0 := hy 0%N isT; rewrite addn0 in hy0.
have [_ _ pR] := okS.
have hH0 : iekf_style (Hm t u0) (pm S y j0) (n_h M j0 (n_f M j0 (ekf M y j0).1)) (n_H M j0 (n_f M j0 (ekf M y j0).1)).
  by rewrite pm_ekf et; exact: hH.
have h2 := iterated_one hH0 (momp_gaussian illcond (pm S y j0) (pC S y j0)) hy0 (pC_pd y okS j0) pR.
have h3 := IH (t + dt) j0.+1 (gv (kf S y j0.+1)).
rewrite /= h1 wbindE h2 wbindE.
have -> : gaussian (Nd1 (pm S y j0 + cnd_J (pC S y j0) (s_R S) (n_H M j0 (n_f M j0 (ekf M y j0).1)) *m (y j0 - n_h M j0 (n_f M j0 (ekf M y j0).1))))
    (Nd2 (cnd_S (pC S y j0) (s_R S) (n_H M j0 (n_f M j0 (ekf M y j0).1)))) = gv (kf S y j0.+1).
  rewrite /gv (kf_ekf M y j0.+1) /= pm_ekf /pC kf_ekf //.
rewrite h3.
- rewrite wbindE; do 2!f_equal; rewrite /mkseq /= addn1; congr (_ :: _).
  rewrite (iotaDl 1 0) -map_comp; apply: eq_map => i /=; by rewrite addnS addSn.
- by rewrite et mulrSr.
- by move=> i hi; have := hy i.+1 hi; rewrite addnS.
- exact: momp_gaussian.
Qed.
Lemma iekf_one ys : reads y ys ->
  iekf illcond F Hm (Nd2 (n_Q M)) (Nd2 (n_R M)) g0 dt 1 ys None 0 u0 = Ok (mkseq (fun i => gv (kf S y i.+1)) (size ys)).
Proof. by move=> hy; rewrite /iekf /kalman_filter (@iekf_one_loop ys 0 0). Qed.
End IekfRun.
