(** * Properties C30-C35 (Filters/KalmanFilter.py:35-121) *)
Set Warnings "-notation-overridden,-ambiguous-paths".
From mathcomp Require Import all_ssreflect all_algebra.
From mathcomp Require Import real_closed.realalg.
From Verif Require Import Base ND NDFacts PosDef LinAlg LinAlgFacts Gauss GaussFacts GaussLink Transforms TransformFacts CondGauss
  Estimator EstimatorFacts SpecGauss KalmanMath KalmanLoop KalmanLoopFacts Kalman KalmanFacts Prop_Transforms.
Set Implicit Arguments.
Unset Strict Implicit.
Unset Printing Implicit Defensive.
Import GRing.Theory Num.Theory Order.Theory.
Local Open Scope ring_scope.

(** ** C30-C32: the loops, for arbitrary predict/correct/smooth methods *)
Section Loops.
Variables (Tm : zmodType) (U G Y0 Y W : Type).
Variable squeeze : Y0 -> Y.
Variable gcopy : G -> G.
Variable predict : Tm -> U -> G -> W -> W * res G.
Variable correct : Tm -> U -> G -> Y -> W -> W * res G.
Variable smooth : Tm -> U -> G -> G -> W -> W * res G.
Variables (dt : Tm) (init_state : G).
Notation kalman_filter := (kalman_filter squeeze predict correct dt init_state).
Notation kalman_smoother := (kalman_smoother gcopy smooth dt).
Definition start (prior : option G) := if prior is Some g then g else init_state.

(** C30: one state per measurement, in order: the k-th is what [correct] made of the k-th measurement
    from the prediction of the state before it *)
Theorem C30_filter ys prior t u w w' l (y0 : Y0) (g0 : G) : kalman_filter ys prior t u w = (w', Ok l) ->
  size l = size ys /\
  forall k, (k < size ys)%N -> exists w1 w2 w3 p,
    predict (t + dt *+ k) u (nth g0 (start prior :: l) k) w1 = (w2, Ok p) /\
    correct (t + dt *+ k) u p (squeeze (nth y0 ys k)) w2 = (w3, Ok (nth g0 l k)).
Proof. by move=> h; split; [exact: filter_size h|exact: filter_calls h]. Qed.
Theorem C30_smoother fs u w w' l : kalman_smoother fs u w = (w', Ok l) ->
  size l = size fs /\ forall x, last x l = gcopy (last x fs).
Proof. exact: smoother_size. Qed.
Theorem C30_empty prior t u w : kalman_filter [::] prior t u w = (w, Ok [::]) /\ kalman_smoother [::] u w = (w, Err StopIterErr).
Proof. by []. Qed.

(** C31: restarting, and causality *)
Theorem C31_restart ys1 ys2 prior t u w :
  kalman_filter (ys1 ++ ys2) prior t u w =
  match kalman_filter ys1 prior t u w with
  | (w1, Err e) => (w1, Err e)
  | (w1, Ok l1) =>
      match kalman_filter ys2 (Some (last (start prior) l1)) (t + dt *+ size ys1) u w1 with
      | (w2, Err e) => (w2, Err e)
      | (w2, Ok l2) => (w2, Ok (l1 ++ l2))
      end
  end.
Proof. exact: filter_cat. Qed.
Theorem C31_causal ys1 ys2 ys2' prior t u w w1 w2 l l' :
  kalman_filter (ys1 ++ ys2) prior t u w = (w1, Ok l) -> kalman_filter (ys1 ++ ys2') prior t u w = (w2, Ok l') ->
  take (size ys1) l = take (size ys1) l'.
Proof. by move=> h h'; have [w3 h1] := filter_prefix h; have [w4 h2] := filter_prefix h'; move: h2; rewrite h1 => -[]. Qed.

(** C32: into state k+1 the filter predicts at time t_zero + (k+1) dt, the smoother steps back from it at
    (k+1) dt; these agree iff the filter was started at 0 *)
Theorem C32_times ys prior t u w w1 l w2 w3 s (y0 : Y0) (g0 : G) : (forall g, gcopy (gcopy g) = gcopy g) ->
  kalman_filter ys prior t u w = (w1, Ok l) -> kalman_smoother l u w2 = (w3, Ok s) ->
  forall k, (k.+1 < size ys)%N -> exists tf ts,
  [/\ exists w4 w5 p, predict tf u (nth g0 l k) w4 = (w5, Ok p),
      exists w6 w7, smooth ts u (nth g0 l k) (gcopy (nth g0 s k.+1)) w6 = (w7, Ok (nth g0 s k)),
      tf = t + dt *+ k.+1, ts = dt *+ k.+1 & tf = ts <-> t = 0].
Proof.
move=> cc hf hs k hk; exists (t + dt *+ k.+1), (dt *+ k.+1); split=> //.
- by have [w4 [w5 [_ [p [h _]]]]] := filter_calls y0 g0 hf hk; exists w4, w5, p.
- by apply: (smoother_calls g0 cc hs); rewrite (filter_size hf).
- by split=> [/eqP|->]; rewrite ?add0r // -subr_eq0 addrK => /eqP.
Qed.
End Loops.

Section Exact.
Variable R : rcfType.
Variable illcond : forall n, 'M[R]_n -> bool.
Variables W U : Type.
Notation nd := (nd R).
Notation gauss := (gauss R).
Notation momp := (momp illcond).
Notation exact_on := (@exact_on R illcond W).
Notation transform := (transform R W).

(** C30: the last smoother state is the last filter state *)
Theorem C30_last (T : transform) (transition : R -> U -> dfun R) Q dt (fs : seq gauss) u w w' l x : built (last x fs) ->
  smoother_run illcond T transition Q dt fs u w = (w', Ok l) -> size l = size fs /\ last x l = last x fs.
Proof. by move=> hb h; have [h1 h2] := smoother_size h; split=> //; rewrite h2 copy_value. Qed.

Variables (n k : nat) (S : lgssm R n k) (y : nat -> 'cV[R]_k).
Variables (T Tz : transform) (transition measurement : R -> U -> dfun R).
Notation filter_run := (filter_run illcond T Tz transition measurement (Nd2 (s_Q S)) (Nd2 (s_R S))).
Notation smoother_run := (smoother_run illcond T transition (Nd2 (s_Q S))).

(** the configured functions, called at the times t, t + dt, .., are those of the model S, and the
    transforms compute their moments exactly *)
Definition implements (t dt : R) (u : U) (N : nat) := forall j, (j < N)%N ->
  exact_on T (transition (t + dt *+ j) u) (s_A S j) (s_b S j) /\
  exact_on Tz (measurement (t + dt *+ j) u) (s_H S j) (s_c S j).
Definition state_is (g : gauss) m P := g = gaussian (Nd1 (m : 'cV[R]_n)) (Nd2 (P : 'M[R]_n)).

(** C33: the i-th filter state is the posterior of x_{i+1} given y_0 .. y_i *)
Theorem C33_filter g0 dt t u ys w : noise_ok S -> implements t dt u (size ys) -> reads y ys -> momp g0 (s_m0 S) (s_P0 S) ->
  exists w' l, filter_run g0 dt ys None t u w = (w', Ok l) /\ size l = size ys /\
  forall i, (i < size ys)%N -> exists m P, state_is (nth g0 l i) m P /\ posterior S y i.+1 i.+1 m P.
Proof.
move=> ok hi hy hg; have [w' h] := filter_exact_from ok w (fun j hj => proj1 (hi j hj)) (fun j hj => proj2 (hi j hj)) hy hg.
exists w'; exists (mkseq (fun i => gv (kf S y i.+1)) (size ys)); split=> //; rewrite size_mkseq; split=> // i hj.
by exists (kf S y i.+1).1, (kf S y i.+1).2; rewrite nth_mkseq //; split=> //; exact: kf_posterior.
Qed.

(** C34: the i-th smoother state is the posterior of x_{i+1} given all observations, and the smoother
    means (with one further value for x_0) are the unique minimiser of the joint energy *)
Theorem C34_smoother g0 dt u ys w : noise_ok S -> implements 0 dt u (size ys) -> reads y ys -> momp g0 (s_m0 S) (s_P0 S) ->
  (0 < size ys)%N -> exists w1 fl w2 l,
  [/\ filter_run g0 dt ys None 0 u w = (w1, Ok fl), smoother_run dt fl u w1 = (w2, Ok l), size l = size ys,
      forall i, (i < size ys)%N -> exists m P, state_is (nth g0 l i) m P /\ posterior S y (size ys) i.+1 m P &
      exists z x0, forall x, z <= joint S y (size ys) x /\
        (joint S y (size ys) x = z <-> x 0%N = x0 /\ forall i, (i < size ys)%N -> g_mean illcond (nth g0 l i) = Ok (Nd1 (x i.+1)))].
Proof.
move=> ok hi hy hg h0.
have hA j : (j < size ys)%N -> exact_on T (transition (dt *+ j) u) (s_A S j) (s_b S j).
  by move=> hj; have [] := hi j hj; rewrite add0r.
have hH j : (j < size ys)%N -> exact_on Tz (measurement (dt *+ j) u) (s_H S j) (s_c S j).
  by move=> hj; have [] := hi j hj; rewrite add0r.
have [w1 h1] := filter_exact ok hA hH hy hg w; have [w2 h2] := smoother_exact y ok hA w1 h0.
exists w1; eexists; exists w2; eexists; split; [exact: h1|exact: h2|by rewrite size_mkseq| |].
  move=> i hj; exists (ks S y (size ys) i.+1).1, (ks S y (size ys) i.+1).2; rewrite nth_mkseq //; split=> //; exact: ks_posterior.
have [z hz] := ks_unique y ok (size ys); exists z, (ks S y (size ys) 0).1 => x; have [g1 g2] := hz x; split=> //.
rewrite g2; split=> [h|[e0 h]].
  by split=> [|i hj]; rewrite ?h // nth_mkseq // h.
by case=> [|i] // hj; have := h i hj; rewrite nth_mkseq // => /Ok_inj /Nd1_inj.
Qed.

(** the posterior marginal of the specification is unique, so C33 and C34 determine every output *)
Theorem C33_spec_unique N i m m' P P' : posterior S y N i m P -> posterior S y N i m' P' -> m = m' /\ P = P'.
Proof. exact: posterior_unique. Qed.

(** C35: one correction, one smoothing step *)
Theorem C35_correct g (m : 'cV[R]_n) P j t u ya w : noise_ok S -> exact_on Tz (measurement t u) (s_H S j) (s_c S j) ->
  momp g m P -> posdef P -> natleast1 ya = Nd1 (y j) ->
  exists w' m' P', [/\ correct illcond Tz measurement (Nd2 (s_R S)) t u g ya w = (w', Ok (gaussian (Nd1 (m' : 'cV[R]_n)) (Nd2 P'))),
    posdef (P' : 'M[R]_n) & possemi (P - P')].
Proof.
move=> ok hT hg pP hy; have [w' h] := correct_exact ok w (exact_onat hT pP) hg pP hy; have [_ _ pR] := ok.
do 3!eexists; split; [exact: h|exact: cnd_S_pd|].
rewrite cnd_S_sub // opprB addrC subrK; apply: possemi_congr; exact/posdef_semi/cnd_C_pd.
Qed.
Theorem C35_smooth g s (m mu : 'cV[R]_n) P Sg j t u w : noise_ok S -> exact_on T (transition t u) (s_A S j) (s_b S j) ->
  momp g m P -> posdef P -> momp s mu Sg -> possemi Sg ->
  possemi (s_A S j *m P *m (s_A S j)^T + s_Q S - Sg) ->
  exists w' m' P', [/\ smooth illcond T transition (Nd2 (s_Q S)) t u g s w = (w', Ok (gaussian (Nd1 (m' : 'cV[R]_n)) (Nd2 P'))),
    posdef (P' : 'M[R]_n) & possemi (P - P')].
Proof.
move=> ok hT hg pP hs pS hd; have [w' h] := smooth_exact ok w (exact_onat hT pP) hg pP hs; have [_ pQ _] := ok.
do 3!eexists; split; [exact: h|by apply: posdefD; [exact: cnd_S_pd|exact: possemi_congr]|].
rewrite cnd_S_sub //; set J := cnd_J _ _ _; rewrite -/(cnd_C P (s_Q S) (s_A S j)) in hd.
have -> : P - (P - J *m cnd_C P (s_Q S) (s_A S j) *m J^T + J *m Sg *m J^T) = J *m (cnd_C P (s_Q S) (s_A S j) - Sg) *m J^T.
  rewrite mulmxBr mulmxBl; move: (J *m cnd_C _ _ _ *m _) (J *m Sg *m _) => v v'.
  by rewrite opprD opprB addrA [P + _]addrC subrK.
exact: possemi_congr.
Qed.
(** C35: whole runs *)
Theorem C35_run g0 dt u ys w : noise_ok S -> implements 0 dt u (size ys) -> reads y ys -> momp g0 (s_m0 S) (s_P0 S) ->
  (0 < size ys)%N -> exists w1 fl w2 l,
  [/\ filter_run g0 dt ys None 0 u w = (w1, Ok fl), smoother_run dt fl u w1 = (w2, Ok l) &
      forall i, (i < size ys)%N -> exists Pf Ps : 'M[R]_n,
      [/\ g_cov illcond (nth g0 fl i) = Ok (Nd2 Pf), g_cov illcond (nth g0 l i) = Ok (Nd2 Ps), posdef Pf, posdef Ps & possemi (Pf - Ps)]].
Proof.
move=> ok hi hy hg h0.
have hA j : (j < size ys)%N -> exact_on T (transition (dt *+ j) u) (s_A S j) (s_b S j).
  by move=> hj; have [] := hi j hj; rewrite add0r.
have hH j : (j < size ys)%N -> exact_on Tz (measurement (dt *+ j) u) (s_H S j) (s_c S j).
  by move=> hj; have [] := hi j hj; rewrite add0r.
have [w1 h1] := filter_exact ok hA hH hy hg w; have [w2 h2] := smoother_exact y ok hA w1 h0.
exists w1; eexists; exists w2; eexists; split; [exact: h1|exact: h2|].
move=> i hj; exists (kf S y i.+1).2, (ks S y (size ys) i.+1).2; rewrite !nth_mkseq //; split=> //.
- exact: kf_pd.
- exact: ks_pd.
- exact: loewner_smooth.
Qed.
End Exact.

(** ** Examples *)
Section Examples.
Let R := [rcfType of realalg].
Let ill (n : nat) (A : 'M[R]_n) := false.

(** a counter: predict adds the time, correct adds the measurement *)
Let pr (t : int) (u : unit) (g : int) (w : nat) := (w.+1, Ok (g + t)).
Let co (t : int) (u : unit) (g : int) (y : int) (w : nat) := (w.+1, Ok (g + y)).
Let sm (t : int) (u : unit) (g g' : int) (w : nat) := (w.+1, Ok (g + g' * t)).
Example C30_example : kalman_filter id pr co 1 0 [:: 5%:Z; 7%:Z; 9%:Z] None 10%:Z tt 0%N = (6%N, Ok [:: 15%:Z; 33%:Z; 54%:Z]) /\
  kalman_smoother id sm 1 [:: 15%:Z; 33%:Z; 54%:Z] tt 6%N = (8%N, Ok [:: 156%:Z; 141%:Z; 54%:Z]).
Proof. by []. Qed.
Example C31_example : kalman_filter id pr co 1 0 ([:: 5%:Z; 7%:Z] ++ [:: 9%:Z]) None 10%:Z tt 0%N =
   (6%N, Ok ([:: 15%:Z; 33%:Z] ++ [:: 54%:Z])) /\
  kalman_filter id pr co 1 0 [:: 9%:Z] (Some 33%:Z) 12%:Z tt 4%N = (6%N, Ok [:: 54%:Z]).
Proof. by []. Qed.
(** started at 10, the filter predicted into its second state at time 11, the smoother stepped back at 1 *)
Example C32_example : pr 11%:Z tt 15%:Z 2 = (3%N, Ok 26%:Z) /\ sm 1%:Z tt 15%:Z 141%:Z 7 = (8%N, Ok 156%:Z).
Proof. by []. Qed.

(** constant velocity with a time-dependent drift, position observed; measurements in three shapes *)
Let A : 'M[R]_2 := 1%:M + delta_mx 0 1.
Let H : 'M[R]_(1, 2) := delta_mx 0 0.
Let S : lgssm R 2 1 := Lgssm 0 1%:M (fun=> A) (fun j => const_mx (1 *+ j)) 1%:M (fun=> H) (fun=> 0) 1%:M.
Let ys : seq (nd R) := [:: Nd2 (const_mx 1 : 'M[R]_1); Nd1 (const_mx 1 : 'cV[R]_1); Nd0 1].
Let ut := pure_transform (W := unit) (ut_transform ill 2 1 2%:R 1).
Let tt' := pure_transform (W := unit) (tt_transform ill).
Let trans (t : R) (u : unit) := affine_fun A (const_mx t).
Let meas (t : R) (u : unit) := affine_fun H 0.
Let g0 : gauss R := gaussian (Nd1 (0 : 'cV[R]_2)) (Nd2 (1%:M : 'M[R]_2)).
Example C33_example : noise_ok S /\ implements ill S ut tt' trans meas 0 1 tt 3 /\ reads (fun=> const_mx 1 : 'cV[R]_1) ys /\ momp ill g0 (0 : 'cV[R]_2) 1%:M.
Proof.
split; first by split; exact: posdef1.
split=> [j _|].
  rewrite add0r; split; last by apply: tt_exact => x; exact: affine_fun_vec.
  apply: ut_exact; last exact: affine_fun_rows.
  by rewrite expr1n mul1r addr_gt0 ?ltr0n ?ltr01.
split; last exact: momp_gaussian.
case=> [|[|[|j]]] hj; [exact: squeeze_11|exact: squeeze_1|reflexivity|discriminate hj].
Qed.
(** so the run exists and its first filter state is a posterior *)
Example C34_example : exists w1 fl w2 l, filter_run ill ut tt' trans meas (Nd2 (1%:M : 'M[R]_2)) (Nd2 (1%:M : 'M[R]_1)) g0 1 ys None 0 tt tt = (w1, Ok fl) /\
  smoother_run ill ut trans (Nd2 (1%:M : 'M[R]_2)) 1 fl tt w1 = (w2, Ok l) /\ size l = 3%N.
Proof.
have [h1 [h2 [h3 h4]]] := C33_example.
by have [w1 [fl [w2 [l [e1 e2 e3 _ _]]]]] := C34_smoother (ys := ys) tt h1 h2 h3 h4 isT; exists w1, fl, w2, l.
Qed.
(** a next state with covariance I, dominated by the prediction A A^T + I *)
Example C35_example : possemi (A *m 1%:M *m A^T + 1%:M - 1%:M) /\ possemi (1%:M : 'M[R]_2).
Proof. by rewrite addrK; split; [apply: possemi_congr|]; apply/posdef_semi/posdef1. Qed.
End Examples.

Print Assumptions C30_filter.
Print Assumptions C30_smoother.
Print Assumptions C30_empty.
Print Assumptions C30_last.
Print Assumptions C31_restart.
Print Assumptions C31_causal.
Print Assumptions C32_times.
Print Assumptions C33_filter.
Print Assumptions C33_spec_unique.
Print Assumptions C34_smoother.
Print Assumptions C35_correct.
Print Assumptions C35_smooth.
Print Assumptions C35_run.
