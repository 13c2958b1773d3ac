(** * Properties C36-C38 and C51 (Filters/KalmanFilter.py:124-253, and 35-121 with the Taylor transform) *)
Set Warnings "-notation-overridden,-ambiguous-paths".
From mathcomp Require Import all_ssreflect all_algebra.
From mathcomp Require Import real_closed.realalg.
From Verif Require Import Base ND NDFacts PosDef LinAlg LinAlgFacts Gauss GaussFacts GaussLink Transforms TransformFacts CondGauss
  Estimator EstimatorFacts SpecGauss SpecNonlin KalmanMath KalmanLoop KalmanLoopFacts Kalman KalmanFacts
  Iterated IteratedMath IteratedFacts IeksFacts IeksWitness Prop_Transforms Prop_Kalman.
Set Implicit Arguments.
Unset Strict Implicit.
Unset Printing Implicit Defensive.
Import GRing.Theory Num.Theory Order.Theory.
Local Open Scope ring_scope.

(** ** C51: the filter/smoother with the Taylor transform on a nonlinear model is the extended Kalman
    filter/smoother: it returns the exact posterior of the model linearised along its own estimates *)
Section Extended.
Variables (R : rcfType) (illcond : forall n, 'M[R]_n -> bool) (W U : Type) (n k : nat).
Variables (M : nlssm R n k) (y : nat -> 'cV[R]_k) (dt : R) (u0 : U) (F Hm : sysfun R U).
Notation TT := (pure_transform (W := W) (tt_transform illcond)).
(** f is linearised at the filtered mean (the prior mean for j = 0), h at the predicted mean *)
Definition own_linearisation (N : nat) (S : lgssm R n k) (X : nat -> 'cV[R]_n) :=
  [/\ X 0%N = n_m0 M, S = lin_at M X (fun j => n_f M j (X j)) &
      forall j, (j < N)%N -> exists P, posterior S y j.+1 j.+1 (X j.+1) P].
Theorem C51_extended g0 ys w : noise_okn M -> realises dt u0 M F Hm -> reads y ys -> momp illcond g0 (n_m0 M) (n_P0 M) ->
  (0 < size ys)%N -> exists S X w1 fl w2 l,
  [/\ own_linearisation (size ys) S X,
      filter_run illcond TT TT F Hm (Nd2 (n_Q M)) (Nd2 (n_R M)) g0 dt ys None 0 u0 w = (w1, Ok fl),
      smoother_run illcond TT F (Nd2 (n_Q M)) dt fl u0 w1 = (w2, Ok l) & size fl = size ys /\ size l = size ys /\
      forall i, (i < size ys)%N ->
        (exists P, state_is (nth g0 fl i) (X i.+1) P /\ posterior S y i.+1 i.+1 (X i.+1) P) /\
        (exists m P, state_is (nth g0 l i) m P /\ posterior S y (size ys) i.+1 m P)].
Proof.
move=> ok hM hy hg N0; exists (ekf_model M y), (fun j => (ekf M y j).1).
have [w1 h1] := ekf_filter hM ok hg w hy; have [w2 h2] := ekf_smoother illcond y hM ok w1 N0.
have okS : noise_ok (ekf_model M y) by exact: noise_lin.
exists w1; eexists; exists w2; eexists; split; [|exact: h1|exact: h2|].
  split=> // j hj; exists (ekf M y j.+1).2; rewrite -kf_ekf; exact: kf_posterior.
split; first by rewrite size_mkseq.
split; first by rewrite size_mkseq.
move=> i hi; split.
  exists (ekf M y i.+1).2; rewrite (nth_mkseq _ _ hi) -(kf_ekf M y i.+1); split; [reflexivity|exact: kf_posterior].
do 2!eexists; rewrite (nth_mkseq _ _ hi); split; [reflexivity|exact: ks_posterior].
Qed.
End Extended.

(** ** C36: the iterated filter update *)
Section IEKF.
Variables (R : rcfType) (illcond : forall n, 'M[R]_n -> bool) (U : Type).
Notation momp := (momp illcond).
Notation gauss := (gauss R).
Section Update.
Variables (measurement : sysfun R U) (t : R) (u : U) (n k : nat).
Variables (Rm : 'M[R]_k) (P : 'M[R]_n) (m : 'cV[R]_n) (y : 'cV[R]_k) (ya : nd R) (g : gauss).
Hypotheses (pP : posdef P) (pR : posdef Rm) (hg : momp g m P) (hy : natleast1 ya = Nd1 y).
Notation update N := (iterated_update illcond measurement (Nd2 Rm) N t u g ya).
(** the Kalman gain and the posterior covariance *)
Definition gain (J : 'M[R]_(k, n)) : 'M[R]_(n, k) := P *m J^T *m invmx (J *m P *m J^T + Rm).
Definition postcov (J : 'M[R]_(k, n)) : 'M[R]_n := P - gain J *m J *m P.

Theorem C36_zero : update 0 = Ok g.
Proof. by have [hm hP] := hg; rewrite /iterated_update hm bindE hP bindE. Qed.
(** one iteration, any differentiable h: the extended Kalman correction *)
Theorem C36_one hv J : iekf_style (measurement t u) m hv J ->
  update 1 = Ok (gaussian (Nd1 (m + gain J *m (y - hv))) (Nd2 (postcov J))).
Proof. move=> hs; exact: (iterated_one hs hg hy pP pR). Qed.

(** if another iteration does not change the mean, that mean is a stationary point of the posterior energy
    |x - m|^2_P + |y - h(x)|^2_R only if it is the predicted mean *)
Theorem C36_fixpoint N (x : 'cV[R]_n) hx J g1 g2 : iekf_style (measurement t u) x hx J ->
  update N = Ok g1 -> update N.+1 = Ok g2 -> g_mean illcond g1 = Ok (Nd1 x) -> g_mean illcond g2 = Ok (Nd1 x) ->
  invmx P *m (x - m) = J^T *m (invmx Rm *m (y - hx)) <-> x = m.
Proof.
move=> hs; have [hm hP] := hg; rewrite /iterated_update hm bindE hP bindE => e1; rewrite bindE bindE iekf_loopS e1 bindE => e2 m1 m2.
move: e2; rewrite (iekf_bodyE m hs m1 hy pP pR) => -[e2]; move: m2; rewrite -e2 => /Ok_inj /Nd1_inj /= e3.
have hd : x - m = cnd_J P Rm J *m (y - hx - J *m (x - m)).
  rewrite -{1}e3 addrAC subrr add0r; congr (_ *m _).
  by rewrite -[x - m]opprB mulmxN opprK opprB addrA addrAC.
have := fix_stationary pP pR hd; rewrite -{1}[x - m]/(x - m) => ->; split=> [/eqP|->]; rewrite ?subrr // subr_eq0 => /eqP //.
Qed.

(** affine h: the recursion that the iterations actually follow *)
Variables (H : 'M[R]_(k, n)) (c : 'cV[R]_k).
Hypothesis aff : forall x, iekf_style (measurement t u) x (H *m x + c) H.
Notation r := (y - (H *m m + c)).
Notation K := (gain H).
Theorem C36_iterates : exists D : nat -> 'cV[R]_n,
  [/\ D 0%N = 0, forall i, D i.+1 = K *m (r - 2%:R *: (H *m D i)) &
      forall N, update N.+1 = Ok (gaussian (Nd1 (m + D N.+1)) (Nd2 (postcov H)))].
Proof. by exists (dev P Rm H r); split=> // N; rewrite (iterated_affine pP pR aff N.+1 hy hg). Qed.
(** an even number of iterations gives the Kalman mean only if the Kalman correction is zero *)
Theorem C36_even N : ~~ odd N -> update N.+2 = Ok (gaussian (Nd1 (m + K *m r)) (Nd2 (postcov H))) <-> K *m r = 0.
Proof.
move=> oN; rewrite (iterated_affine pP pR aff N.+2 hy hg); split=> [/Ok_inj e|z].
  have /Ok_inj/Nd1_inj/addrI e' : Ok (Nd1 (m + dev P Rm H r N.+2)) = Ok (Nd1 (m + K *m r)) := congr1 (g_mean illcond) e.
  exact: (dev_even pP pR e' oN).
have d0 i : dev P Rm H r i = 0.
  elim: i => [|i IH] //=; rewrite IH mulmx0 scaler0 subr0; exact: z.
by rewrite d0 z.
Qed.
End Update.

(** one state, one measurement: how far iteration i moves the mean *)
Theorem C36_growth (measurement : sysfun R U) t u (P Rm H : 'M[R]_1) (m y c : 'cV[R]_1) ya g : posdef P -> posdef Rm -> momp g m P ->
  natleast1 ya = Nd1 y -> (forall x, iekf_style (measurement t u) x (H *m x + c) H) ->
  let q := 2%:R * (H 0 0 ^+ 2 * P 0 0 / (H 0 0 ^+ 2 * P 0 0 + Rm 0 0)) in
  exists mu : nat -> 'cV[R]_1, mu 0%N = m /\
   (forall N, exists S, iterated_update illcond measurement (Nd2 Rm) N.+1 t u g ya = Ok (gaussian (Nd1 (mu N.+1)) (Nd2 (S : 'M[R]_1)))) /\
   forall i, `|mu i.+1 0 0 - mu i 0 0| = q ^+ i * `|mu 1%N 0 0 - m 0 0|.
Proof.
move=> pP pR hg hy aff q; exists (fun i => m + dev P Rm H (y - (H *m m + c)) i); split; first by rewrite /= addr0.
split=> [N|i].
  by rewrite (iterated_affine pP pR aff N.+1 hy hg); eexists.
have e (a b d : 'cV[R]_1) : (a + b) 0 0 - (a + d) 0 0 = (b - d) 0 0.
  by rewrite !mxE opprD addrACA subrr add0r.
rewrite e (dev_scalar _ _ pP pR); congr (_ * `| _ |); rewrite dev1.
move: (cnd_J P Rm H *m _) => a; by rewrite mxE addrAC subrr add0r.
Qed.

(** whole runs: one iteration per step is the extended Kalman filter of the same library *)
Theorem C36_run_one n k (M : nlssm R n k) (y : nat -> 'cV[R]_k) (dt : R) (u0 : U) (F Hm : sysfun R U) g0 ys :
  noise_okn M -> realises dt u0 M F Hm -> (forall j x, iekf_style (Hm (dt *+ j) u0) x (n_h M j x) (n_H M j x)) ->
  reads y ys -> momp g0 (n_m0 M) (n_P0 M) ->
  iekf illcond F Hm (Nd2 (n_Q M)) (Nd2 (n_R M)) g0 dt 1 ys None 0 u0 =
  (filter_run illcond (pure_transform (W := unit) (tt_transform illcond)) (pure_transform (tt_transform illcond))
     F Hm (Nd2 (n_Q M)) (Nd2 (n_R M)) g0 dt ys None 0 u0 tt).2.
Proof.
move=> ok hM hH hy hg; have hF j x := (hM j x).1.
rewrite (iekf_one hF hH ok hg hy); by have [w ->] := ekf_filter hM ok hg tt hy.
Qed.
End IEKF.

(** ** C37, C38: the iterated smoother *)
Section IEKS.
Variables (R : rcfType) (illcond : forall n, 'M[R]_n -> bool) (U : Type) (n k : nat).
Notation momp := (momp illcond).
Notation gauss := (gauss R).
Notation obj := (ieks_obj R U).
Variables (M : nlssm R n k) (dt : R) (u0 : U) (f h : sysfun R U) (g0 : gauss).
Notation call num ys o := (ieks_call illcond f h (Nd2 (n_Q M)) (Nd2 (n_R M)) g0 dt u0 num ys o).
Notation history := (history illcond dt u0 g0 M f h).

(** C37: affine model: whatever was called before, every call with any iteration count returns the
    posterior marginals, that is what the Kalman smoother returns *)
Theorem C37_affine (S : lgssm R n k) (y : nat -> 'cV[R]_k) o num ys : noise_ok S -> affine_as S M -> realises dt u0 M f h ->
  momp g0 (s_m0 S) (s_P0 S) -> history o -> reads y ys -> (0 < size ys)%N ->
  exists o' l, [/\ call num ys o = (o', Ok l), size l = size ys &
    forall i, (i < size ys)%N -> exists m P, state_is (nth g0 l i) m P /\ posterior S y (size ys) i.+1 m P].
Proof.
move=> okS aff hM; have [[e1 e2 e3 e4] _] := aff.
have ok : noise_okn M by rewrite /noise_okn e2 e3 e4.
rewrite -e1 -e2 => hg ho hy N0; have [M' st re] := history_stale hM ok hg ho.
have [o' [c _]] := callE hM ok hg hy N0 num re (stale_noise st).
exists o'; eexists; split; [exact: c|by rewrite size_mkseq|].
move=> i hi; do 2!eexists; rewrite nth_mkseq // (affine_pass y ys num.-1 (size ys) i.+1 aff (affine_stale aff st)); split; [reflexivity|exact: ks_posterior].
Qed.

(** C38: any model.  S_0 is M linearised along its own estimates; in pass i + 1 the model is linearised at the
    smoothed means of pass i: X_i j is the mean for x_{j+1}, and it is used both for h_j and for the
    transition f_j from x_j to x_{j+1} *)
Definition passes (M' : nlssm R n k) (y : nat -> 'cV[R]_k) (N : nat) (S : nat -> lgssm R n k) (X : nat -> nat -> 'cV[R]_n) :=
  [/\ exists X', own_linearisation M' y N (S 0%N) X',
      forall i j, (j < N)%N -> exists P, posterior (S i) y N j.+1 (X i j) P &
      forall i, S i.+1 = lin_at M (X i) (X i)].
Theorem C38_call (M' : nlssm R n k) y o num ys : noise_okn M -> realises dt u0 M f h -> momp g0 (n_m0 M) (n_P0 M) ->
  M' = M \/ (exists a c, M' = frozen M a c) -> realises dt u0 M' (i_trans o) (i_meas o) -> reads y ys -> (0 < size ys)%N ->
  exists o' l S X, [/\ call num ys o = (o', Ok l), size l = size ys, passes M' y (size ys) S X,
    forall j, (j < size ys)%N -> exists P, state_is (nth g0 l j) (X num.-1 j) P /\ posterior (S num.-1) y (size ys) j.+1 (X num.-1 j) P &
    if num.-1 is i.+1 then i_trans o' = linearise f (Nd1 (X i (minn 1 (size ys).-1))) /\ i_meas o' = linearise h (Nd1 (X i (size ys).-1))
    else i_trans o' = i_trans o /\ i_meas o' = i_meas o].
Proof.
move=> ok hM hg st re hy N0; have eq := stale_noise st.
have [o' [c st']] := callE hM ok hg hy N0 num re eq.
have okp i : noise_ok (pass y M ys M' i).
  by case: i => [|i] /=; apply: noise_lin => //; case: eq => _ e1 e2 e3; rewrite /noise_okn e1 e2 e3.
exists o'; eexists; exists (pass y M ys M'), (fun i => sm y ys (pass y M ys M' i)); split; [exact: c|by rewrite size_mkseq| | |exact: st'].
  split=> //.
    exists (fun j => (ekf M' y j).1); split=> // j hj; exists (ekf M' y j.+1).2; rewrite -kf_ekf; exact: (@kf_posterior R n k _ y (okp 0%N) j.+1).
  move=> i j hj; exists (ks (pass y M ys M' i) y (size ys) j.+1).2; exact: ks_posterior.
move=> j hj; eexists; rewrite nth_mkseq //; split; [reflexivity|exact: ks_posterior].
Qed.
(** every object reached by a sequence of calls is in the situation of C38_call: it starts from the model
    itself (fresh) or from the model with both functions frozen by an earlier call *)
Theorem C38_history o : noise_okn M -> realises dt u0 M f h -> momp g0 (n_m0 M) (n_P0 M) -> history o ->
  exists M', (M' = M \/ exists a c, M' = frozen M a c) /\ realises dt u0 M' (i_trans o) (i_meas o).
Proof. by move=> ok hM hg ho; have [M' st re] := history_stale hM ok hg ho; exists M'. Qed.
Theorem C38_fresh : realises dt u0 M f h -> history (ieks_new f h) /\ realises dt u0 M (i_trans (ieks_new f h)) (i_meas (ieks_new f h)).
Proof. by move=> hM; split=> //; exact: Hnew. Qed.
End IEKS.

(** C38: x' = x^2 + noise, y = x + noise, one measurement (IeksWitness.v): the same call, num_iter = 1, before and after a call with num_iter = 2 *)
Theorem C38_reuse_differs (R : rcfType) (illcond : forall n, 'M[R]_n -> bool) : let o := ieks_new (@sq_f R) (@id_h R) in
  [/\ mean_is illcond (sq_run illcond 1%N o) 2%:R^-1, mean_is illcond (sq_run illcond 2 o) (7%:R / 12%:R),
      mean_is illcond (sq_run illcond 1%N (sq_run illcond 2 o).1) (7%:R / 12%:R) & 2%:R^-1 != 7%:R / 12%:R :> R].
Proof. exact: reuse_differs. Qed.

(** ** Examples *)
Section Examples.
Let R := [rcfType of realalg].
Let ill (n : nat) (A : 'M[R]_n) := false.
(** a measurement function written for a batch of one row, two states, two measurements *)
Definition row_affine (S : rcfType) m n (A : 'M[S]_(m, n)) (b : 'cV[S]_m) : dfun S := DFun
  (fun a => if a is Nd1 n' v then Ok (Nd2 (A *m conform_mx 0 v + b)^T) else Err Unsupported)
  (fun a => if a is Nd1 n' v then Ok (JHigh [:: 1; m; n]%N (flat A)) else Err Unsupported).
Lemma row_affine_style (S : rcfType) m n (A : 'M[S]_(m, n)) b x : iekf_style (row_affine A b) x (A *m x + b) A.
Proof. by left; split=> //; rewrite /= conform_mx_id. Qed.
Let H2 : 'M[R]_2 := 1%:M + delta_mx 0 1.
Let hrow : sysfun R unit := fun t _ => row_affine H2 (const_mx t).
Let g2 : gauss R := gaussian (Nd1 (0 : 'cV[R]_2)) (Nd2 (1%:M : 'M[R]_2)).
Example C36_example : momp ill g2 (0 : 'cV[R]_2) 1%:M /\ (forall x, iekf_style (hrow 3%:R tt) x (H2 *m x + const_mx 3%:R) H2) /\
  exists D : nat -> 'cV[R]_2, D 0%N = 0 /\
    iterated_update ill hrow (Nd2 (1%:M : 'M[R]_2)) 4 3%:R tt g2 (Nd1 (const_mx 1 : 'cV[R]_2)) =
    Ok (gaussian (Nd1 (0 + D 4%N)) (Nd2 (postcov 1%:M 1%:M H2))).
Proof.
have h1 : momp ill g2 (0 : 'cV[R]_2) 1%:M by exact: momp_gaussian.
have h2 x : iekf_style (hrow 3%:R tt) x (H2 *m x + const_mx 3%:R) H2 by exact: row_affine_style.
split; [exact: h1|split; [exact: h2|]].
have [D [d0 _ d2]] := C36_iterates (posdef1 R 2) (posdef1 R 2) h1 (erefl (natleast1 (Nd1 (const_mx 1 : 'cV[R]_2)))) h2.
exists D; split; [exact: d0|exact: (d2 3%N)].
Qed.
(** scalar, p = h = r = 1: the iterates jump between r/2 and 0 for ever (growth factor 1) *)
Lemma C36_alternates (S : rcfType) (v : 'cV[S]_1) i : dev 1%:M 1%:M (1%:M : 'M[S]_1) v i = if odd i then 2%:R^-1 *: v else 0.
Proof.
have eK : cnd_J 1%:M 1%:M (1%:M : 'M[S]_1) = 2%:R^-1%:M.
  by rewrite /cnd_J /cnd_C trmx1 !mulmx1 -raddfD -mulr2n invmx_scalar mul1mx.
elim: i => [|i IH] //=; rewrite eK mul1mx IH mul_scalar_mx; case: odd => /=; last by rewrite scaler0 subr0.
by rewrite scalerA divff ?pnatr_eq0 // scale1r subrr scaler0.
Qed.
Lemma unit_growth (S : rcfType) : 2%:R * ((1%:M : 'M[S]_1) 0 0 ^+ 2 * (1%:M : 'M[S]_1) 0 0 / ((1%:M : 'M[S]_1) 0 0 ^+ 2 * (1%:M : 'M[S]_1) 0 0 + (1%:M : 'M[S]_1) 0 0)) = 1.
Proof. by rewrite !mxE eqxx mulr1n expr1n mulr1 mulrA mulr1 -mulr2n divff // pnatr_eq0. Qed.
Lemma unit_style (S : rcfType) (x : 'cV[S]_1) : iekf_style (affine_fun (1%:M : 'M[S]_1) 0) x (1%:M *m x + 0) 1%:M.
Proof. by right; split=> //; split=> //=; rewrite conform_mx_id. Qed.
Let h1s : sysfun R unit := fun t _ => affine_fun (1%:M : 'M[R]_1) 0.
Definition unit_q (S : rcfType) : S := 2%:R * ((1%:M : 'M[S]_1) 0 0 ^+ 2 * (1%:M : 'M[S]_1) 0 0 / ((1%:M : 'M[S]_1) 0 0 ^+ 2 * (1%:M : 'M[S]_1) 0 0 + (1%:M : 'M[S]_1) 0 0)).
Example C36_growth_example : unit_q R = 1 /\ forall x : 'cV[R]_1, iekf_style (h1s 0 tt) x (1%:M *m x + 0) (1%:M : 'M[R]_1).
Proof.
split; [exact: unit_growth|move=> x; exact: unit_style].
Qed.

(** the nonlinear model of the witness meets the hypotheses of C36_run_one, C38 and C51 *)
Example C51_example : noise_okn (sq_model R) /\ realises (1 : R) tt (sq_model R) (@sq_f R) (@id_h R) /\ reads (@y1 R) (sq_ys R) /\
  momp ill (sq_start R) (n_m0 (sq_model R)) (n_P0 (sq_model R)) /\
  (forall j x, iekf_style (@id_h R ((1 : R) *+ j) tt) x (n_h (sq_model R) j x) (n_H (sq_model R) j x)).
Proof.
split; first by split; exact: posdef1.
split; first exact: sq_realises.
split; first by case=> [|j] hj; [exact: squeeze_1|discriminate hj].
split; first exact: momp_gaussian.
by move=> j x; right; split; [split; reflexivity|reflexivity|reflexivity].
Qed.

(** C37: a two-dimensional affine model, an object on which a call with three iterations was made before *)
Let A : 'M[R]_2 := 1%:M + delta_mx 0 1.
Let H : 'M[R]_(1, 2) := delta_mx 0 0.
Let S : lgssm R 2 1 := Lgssm 0 1%:M (fun=> A) (fun j => const_mx (1 *+ j)) 1%:M (fun=> H) (fun=> 0) 1%:M.
Let M : nlssm R 2 1 := Nlssm 0 1%:M 1%:M 1%:M (fun j x => A *m x + const_mx (1 *+ j)) (fun _ _ => A) (fun _ x => H *m x + 0) (fun _ _ => H).
Let f : sysfun R unit := fun t _ => affine_fun A (const_mx t).
Let h : sysfun R unit := fun t _ => affine_fun H 0.
Let ys : seq (nd R) := [:: Nd2 (const_mx 1 : 'M[R]_1); Nd1 (const_mx 1 : 'cV[R]_1); Nd0 1].
Let ycs (j : nat) : 'cV[R]_1 := const_mx 1.
Example C37_example : exists o l, noise_ok S /\ affine_as S M /\ realises 1 tt M f h /\ reads ycs ys /\
  history ill 1 tt g2 M f h o /\
  ieks_call ill f h (Nd2 (n_Q M)) (Nd2 (n_R M)) g2 1 tt 3 ys (ieks_new f h) = (o, Ok l) /\ size l = 3%N.
Proof.
have ok : noise_ok S by split; exact: posdef1.
have af : affine_as S M by split; [split; reflexivity|move=> j x; split; reflexivity].
have re : realises 1 tt M f h by move=> j x; split; exact: affine_fun_vec.
have hy : reads ycs ys by case=> [|[|[|j]]] hj; [exact: squeeze_11|exact: squeeze_1|reflexivity|discriminate hj].
have hg : momp ill g2 (0 : 'cV[R]_2) 1%:M by exact: momp_gaussian.
have [o [l [c sl _]]] := C37_affine 3 ok af re hg (Hnew _ _ _ _ _ _ _) hy isT.
exists o, l; split; [exact: ok|split; [exact: af|split; [exact: re|split; [exact: hy|split; [|split; [exact: c|exact: sl]]]]]].
apply: Hcall (c); [exact: Hnew|exact: hy].
Qed.
End Examples.

Print Assumptions C36_zero.
Print Assumptions C36_one.
Print Assumptions C36_fixpoint.
Print Assumptions C36_iterates.
Print Assumptions C36_even.
Print Assumptions C36_growth.
Print Assumptions C36_run_one.
Print Assumptions C37_affine.
Print Assumptions C38_call.
Print Assumptions C38_history.
Print Assumptions C38_fresh.
Print Assumptions C38_reuse_differs.
Print Assumptions C51_extended.
