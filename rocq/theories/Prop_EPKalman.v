(** * Properties C28, C29: EP with power = damping = 1 on a one-dimensional chain *)
Set Warnings "-notation-overridden,-ambiguous-paths".
From Coq Require Import Ring Field.
From mathcomp Require Import all_ssreflect all_algebra.
From mathcomp Require Import real_closed.realalg.
From Verif Require Import Base FieldTac ND NDFacts PosDef LinAlg LinAlgFacts Gauss GaussFacts Nodes NodesFacts EPInv EPGauss
  Transforms TransformFacts Estimator EstimatorFacts EPEst SpecAssumed EPValue EPChain EPSweep KalmanLoop Kalman KalmanFacts
  AssumedFacts EPSetup SpecGauss CondGauss KalmanMath EPCase Prop_EP.
Set Implicit Arguments.
Unset Strict Implicit.
Unset Printing Implicit Defensive.
Import GRing.Theory Num.Theory Order.Theory.
Local Open Scope ring_scope.

Section Props.
Variable R : rcfType.
Variable illcond : forall n, 'M[R]_n -> bool.
Variables W U : Type.
Notation nd := (nd R).
Notation gauss := (gauss R).
Notation dfun := (dfun R).
Notation transform := (transform R W).
Notation state := (state gauss R dfun dfun nd W).
Variables (Kw T : Type) (t_zero : T) (tadd : T -> T -> T) (kw_tu0 : T -> Kw).
Notation system := (system gauss dfun dfun Kw T).

(** Iterations.py: the forward pass, the sweep, and any list of single-node updates *)
Definition ep_filter (nodes : seq nat) (st : state) := @Nodes.kalman_filter gauss R dfun dfun nd W (gmul illcond) (gdiv illcond)
  (gpow illcond) (gvalidate illcond) (@r_one_over R) (@r_one_minus R) (@r_sdiv R) nodes st.
Definition ep_sweep (nodes : seq nat) (st : state) := @ep_fwd_back_updates gauss R dfun dfun nd W (gmul illcond) (gdiv illcond)
  (gpow illcond) (gvalidate illcond) (@r_one_over R) (@r_one_minus R) (@r_sdiv R) nodes st.
Definition ep_run (l : seq ev) (st : state) := @run gauss R dfun dfun nd W (gmul illcond) (gdiv illcond) (gpow illcond)
  (gvalidate illcond) (@r_one_over R) (@r_one_minus R) (@r_sdiv R) l st.

(** the marginal of node [i] has this mean (shape (1,) or (1,1)) and covariance *)
Definition holds (st : state) (i : nat) (g : 'cV[R]_1 * 'M[R]_1) : Prop :=
  exists n a, [/\ lookup st.1 i = Some n, g_mean illcond (n_marg n) = Ok a, a = Nd1 g.1 \/ a = Nd2 g.1 &
    g_cov illcond (n_marg n) = Ok (Nd2 g.2)].

(** the estimator's transforms compute the rules of [A] on the functions given to the nodes *)
Definition implements k (tm mm : transform) (A : approx R 1 k) (y : nat -> 'cV[R]_k) (sy : system) (kws : nat -> Kw) (ys : seq nd) :=
  [/\ forall i, (i < size ys)%N -> acts illcond tm (sy_trans sy (kws i)) (a_f A i) /\ acts illcond mm (sy_meas sy) (a_h A i),
      proper_model A (size ys), reads y ys & momp illcond (sy_init sy) (a_m0 A) (a_P0 A)].
Definition keywords (fa : option (seq Kw)) (sy : system) (kws : nat -> Kw) (N : nat) :=
  forall i, (i < N)%N -> kw_at t_zero tadd kw_tu0 fa (sy_dt sy) i = Some (kws i).
Definition ep_start k (tm mm : transform) (A : approx R 1 k) (sy : system) (ys : seq nd) fa w : state :=
  setup 1 t_zero tadd kw_tu0 (@nsqueeze R) (size ys) (mk_estimator illcond tm mm (Nd2 (a_Q A)) (Nd2 (a_R A)) 1 1) sy ys fa w.
(** the same chain after [n.marginal = Gaussian.as_factor(1)] for every node *)
Definition flat_start k (tm mm : transform) (A : approx R 1 k) (sy : system) (ys : seq nd) fa w : state :=
  assign_marginals (@as_factor R 1) (iota 0 (size ys)) (ep_start tm mm A sy ys fa w).
Definition regular := forall M : 'M[R]_1, ~~ illcond M.

Section Generic.
Variables (k : nat) (tm mm : transform) (A : approx R 1 k) (y : nat -> 'cV[R]_k) (sy : system) (kws : nat -> Kw) (ys : seq nd)
  (fa : option (seq Kw)) (w : W).
Notation N := (size ys).
Notation c := (trace_min R).

Lemma mod_of : implements tm mm A y sy kws ys -> forall i, (i < N)%N ->
  [/\ acts illcond tm (sy_trans sy (kws i)) (a_f A i), acts illcond mm (sy_meas sy) (a_h A i),
    proper (a_f A i) (a_Q A), proper (a_h A i) (a_R A) & natleast1 (nsqueeze (nth (Nd0 0) ys i)) = Nd1 (y i)].
Proof. by move=> [h1 [h2 _] h3 _] i hi; have [a1 a2] := h1 i hi; have [a3 a4] := h2 i hi; split=> //; exact: h3. Qed.
Lemma prior_of : implements tm mm A y sy kws ys -> momv illcond (sy_init sy) (a_m0 A) (a_P0 A) /\ posdef (a_P0 A).
Proof. by move=> [_ [_ h2] _ h4]; split=> //; exact: momp_momv. Qed.
Lemma ship_ok : implements tm mm A y sy kws ys -> forall i, (i < N)%N -> c <= c + ((pr A y c i).2 0 0)^-1.
Proof.
move=> [_ pm _ _] i hi; rewrite ler_addl invr_ge0; apply/ltW/posdef11.
exact: (pr_pd y (ltW (trace_min_gt0 R)) pm hi).
Qed.
Lemma holds_of st i g : (exists2 n, lookup st.1 i = Some n & momv illcond (n_marg n) g.1 g.2) -> holds st i g.
Proof. by case=> n h1 [[a h2 h3] h4]; exists n, a; split=> //; case: h3. Qed.

Notation chain c st := (EPChain.chain illcond N tm mm (fun i => sy_trans sy (kws i)) (sy_meas sy) A
  (fun i => nsqueeze (nth (Nd0 0) ys i)) (sy_init sy) (c%:M, 0) st.1).
Definition enough (c : R) := forall i, (i < N)%N -> trace_min R <= c + ((a_pred A i (a_filt A y c i)).2 0 0)^-1.
Notation zf := (@zf R).

Lemma forward_holds (c' : R) st0 : regular -> 0 <= c' -> implements tm mm A y sy kws ys -> enough c' -> chain c' st0 zf zf zf ->
  exists st, ep_filter (iota 0 N) st0 = (st, Ok tt) /\ forall i, (i < N)%N -> holds st i (a_filt A y c' i.+1).
Proof.
case: st0 => h w0 ic c0 hi ok hc; have pm := let: And4 _ p _ _ := hi in p.
have [h' [w' [h1 h2]]] := forward_done ic c0 (mod_of hi) (prior_of hi) ok w0 hc.
exists (h', w'); split=> [|i hj]; first by rewrite /ep_filter kfilter_run.
apply: holds_of; apply: (marg_mom h2 hj).
- by rewrite zfE addr0 sum_filt.
- exact: (filt_pd y c0 pm).
- exact: (big_filt c0 pm ok).
Qed.
Lemma sweep_chain (c' : R) st0 : regular -> 0 <= c' -> implements tm mm A y sy kws ys -> enough c' -> (0 < N)%N -> chain c' st0 zf zf zf ->
  exists st, ep_sweep (iota 0 N) st0 = (st, Ok tt) /\ chain c' st (fT A y c') (zT A y c') (bT N A y c').
Proof.
case: st0 => h w0 ic c0 hi ok hN hc.
have [h' [w' [h1 h2]]] := first_sweep ic c0 (mod_of hi) (prior_of hi) ok w0 hN hc.
exists (h', w'); split=> //; rewrite /ep_sweep.
by have [_ ->] := @sweep_run gauss R dfun dfun nd W (gmul illcond) (gdiv illcond) (gpow illcond) (gvalidate illcond)
  (@r_one_over R) (@r_one_minus R) (@r_sdiv R) (iota 0 N) (h, w0).
Qed.
Lemma sweep_holds (c' : R) st0 : regular -> 0 <= c' -> implements tm mm A y sy kws ys -> enough c' -> (0 < N)%N -> chain c' st0 zf zf zf ->
  exists st, ep_sweep (iota 0 N) st0 = (st, Ok tt) /\ forall i, (i < N)%N -> holds st i (a_smooth A y c' N i.+1).
Proof.
move=> ic c0 hi ok hN hc; have pm := let: And4 _ p _ _ := hi in p.
have [[h' w'] [h1 h2]] := sweep_chain ic c0 hi ok hN hc; exists (h', w'); split=> // i hj.
apply: holds_of; apply: (marg_mom h2 hj).
- exact: sum_smooth.
- exact: (smooth_pd y c0 pm).
- exact: (big_smooth c0 pm ok).
Qed.
Lemma start_chain : regular -> (1 < N)%N -> keywords fa sy kws N -> chain c (ep_start tm mm A sy ys fa w) zf zf zf.
Proof. by move=> ic hN hk; exact: (@setup_chain R illcond ic W Kw T nd t_zero tadd kw_tu0 (@nsqueeze R) k N tm mm A sy ys fa kws (Nd0 0) w hN (erefl N) hk). Qed.
Lemma flat_chain0 : regular -> (1 < N)%N -> keywords fa sy kws N -> chain 0 (flat_start tm mm A sy ys fa w) zf zf zf.
Proof. by move=> ic hN hk; exact: (@flat_chain R illcond ic W Kw T nd t_zero tadd kw_tu0 (@nsqueeze R) k N tm mm A sy ys fa kws (Nd0 0) w hN (erefl N) hk). Qed.

(** C28: the shipped start; each prediction is multiplied by N(0, 1e10) *)
Theorem C28_forward : regular -> (1 < N)%N -> keywords fa sy kws N -> implements tm mm A y sy kws ys ->
  exists st, ep_filter (iota 0 N) (ep_start tm mm A sy ys fa w) = (st, Ok tt) /\
  forall i, (i < N)%N -> holds st i (a_filt A y c i.+1).
Proof.
by move=> ic hN hk hi; exact: forward_holds ic (ltW (trace_min_gt0 R)) hi (ship_ok hi) (start_chain ic hN hk).
Qed.
Theorem C28_sweep : regular -> (1 < N)%N -> keywords fa sy kws N -> implements tm mm A y sy kws ys ->
  exists st, ep_sweep (iota 0 N) (ep_start tm mm A sy ys fa w) = (st, Ok tt) /\
  forall i, (i < N)%N -> holds st i (a_smooth A y c N i.+1).
Proof.
by move=> ic hN hk hi; exact: sweep_holds ic (ltW (trace_min_gt0 R)) hi (ship_ok hi) (ltnW hN) (start_chain ic hN hk).
Qed.

(** C28: from flat marginals, and predicted variances up to 1e10, the forward pass gives the states of
    the Kalman filter and the sweep those of the Kalman smoother, with the same transforms and functions *)
Theorem C28_kalman (transition measurement : R -> U -> dfun) dt u w1 :
  regular -> (1 < N)%N -> keywords fa sy kws N -> implements tm mm A y sy kws ys ->
  (forall i, (i < N)%N -> transition (dt *+ i) u = sy_trans sy (kws i) /\ measurement (dt *+ i) u = sy_meas sy) ->
  (forall i, (i < N)%N -> (a_pred A i (a_filt A y 0 i)).2 0 0 <= large_num R) ->
  exists st st' wf ws fl sl,
  [/\ ep_filter (iota 0 N) (flat_start tm mm A sy ys fa w) = (st, Ok tt),
      ep_sweep (iota 0 N) (flat_start tm mm A sy ys fa w) = (st', Ok tt),
      filter_run illcond tm mm transition measurement (Nd2 (a_Q A)) (Nd2 (a_R A)) (sy_init sy) dt ys None 0 u w1 = (wf, Ok fl),
      smoother_run illcond tm transition (Nd2 (a_Q A)) dt fl u wf = (ws, Ok sl) &
      [/\ size fl = N, size sl = N & forall i, (i < N)%N -> exists m P m' P',
        [/\ nth (sy_init sy) fl i = gaussian (Nd1 m) (Nd2 P), holds st i (m, P),
            nth (sy_init sy) sl i = gaussian (Nd1 m') (Nd2 P') & holds st' i (m', P')]]].
Proof.
move=> ic hN hk hi hf hv; have [ha pm hy hg] := hi.
have ok : enough 0.
  move=> i hj; rewrite add0r; have pp := pr_pd y (lexx 0) pm hj; have /posdef11 p0 := pp.
  by rewrite -[trace_min R]/((large_num R)^-1) lef_pinv ?posrE ?large_gt0 //; exact: hv.
have hc := flat_chain0 ic hN hk.
have [st [h1 h2]] := forward_holds ic (lexx 0) hi ok hc.
have [st' [h3 h4]] := sweep_holds ic (lexx 0) hi ok (ltnW hN) hc.
have f1 j : (j < N)%N -> follows illcond tm (transition (dt *+ j) u) (a_f A j).
  by move=> hj; have [-> _] := hf j hj; apply: acts_follows; have [] := ha j hj.
have f2 j : (j < N)%N -> follows illcond mm (measurement (dt *+ j) u) (a_h A j).
  by move=> hj; have [_ ->] := hf j hj; apply: acts_follows; have [] := ha j hj.
have [wf e1] := filter_rule f1 f2 pm hy hg w1.
have [ws e2] := smoother_rule y f1 pm wf (ltnW hN).
exists st, st', wf, ws; do 2!eexists; split; [exact: h1|exact: h3|exact: e1|exact: e2|].
rewrite !size_mkseq; split=> // i hj; rewrite !nth_mkseq //.
exists (a_filt A y 0 i.+1).1, (a_filt A y 0 i.+1).2, (a_smooth A y 0 N i.+1).1, (a_smooth A y 0 N i.+1).2.
by split=> //; [have := h2 i hj|have := h4 i hj]; case: (_ i.+1).
Qed.

(** C29: after the first sweep, with an affine measurement function, any further updates on the nodes,
    in any order (so any number of sweeps), succeed and leave the precision and shift of every marginal
    and factor as they are; the transition functions need not be affine *)
Definition same_natural (g g' : gauss) := exists u : 'M[R]_1 * 'M[R]_1, natv illcond g u /\ natv illcond g' u.
Definition same_node (st st' : state) i := exists n n', [/\ lookup st.1 i = Some n, lookup st'.1 i = Some n' &
  [/\ same_natural (n_marg n) (n_marg n'), same_natural (n_fwd n) (n_fwd n'), same_natural (n_meas n) (n_meas n') &
      same_natural (n_back n) (n_back n')]].
Theorem C29_fixed_point (Hm : 'M[R]_(k, 1)) d : regular -> (1 < N)%N -> keywords fa sy kws N -> implements tm mm A y sy kws ys ->
  (forall i, (i < N)%N -> forall m P, a_h A i m P = affine_moments Hm d m P) -> posdef (a_R A) ->
  exists st, ep_sweep (iota 0 N) (ep_start tm mm A sy ys fa w) = (st, Ok tt) /\
  forall l, all (fun e => ev_node e < N)%N l -> exists st', ep_run l st = (st', Ok tt) /\
  forall i, (i < N)%N -> same_node st st' i /\ holds st' i (a_smooth A y c N i.+1).
Proof.
move=> ic hN hk hi aff pR; have c0 := ltW (trace_min_gt0 R); have ok := ship_ok hi; have pm := let: And4 _ p _ _ := hi in p.
have [[h w0] [h1 h2]] := sweep_chain ic c0 hi ok (ltnW hN) (start_chain ic hN hk).
exists (h, w0); split=> // l hl.
have [h' [w' [h3 h4]]] := steady_run ic c0 (mod_of hi) (prior_of hi) ok w0 aff pR h2 hl.
exists (h', w'); split=> // i hj; split; last first.
  apply: holds_of; apply: (marg_mom h4 hj); [exact: sum_smooth|exact: (smooth_pd y c0 pm)|exact: (big_smooth c0 pm ok)].
have [n [a1 _ [[a2 _] [a3 _] [a4 _] [a5 _]]]] := h2 i hj.
have [n' [b1 _ [[b2 _] [b3 _] [b4 _] [b5 _]]]] := h4 i hj.
by exists n, n'; split=> //; split; eexists; split; eassumption.
Qed.
End Generic.

(** ** the unscented transform, on functions that act on the rows of an array *)
Section Unscented.
Variables (k : nat) (a1 b1 k1 a2 b2 k2 : R) (y : nat -> 'cV[R]_k) (sy : system) (kws : nat -> Kw) (ys : seq nd)
  (fa : option (seq Kw)) (w : W).
Variables (f : nat -> 'cV[R]_1 -> 'cV[R]_1) (h : 'cV[R]_1 -> 'cV[R]_k) (Q P0 : 'M[R]_1) (Rm : 'M[R]_k) (m0 : 'cV[R]_1).
Notation N := (size ys).
Notation c := (trace_min R).
Notation tm := (pure_transform (W := W) (ut_transform illcond 1 a1 b1 k1)).
Notation mm := (pure_transform (W := W) (ut_transform illcond 1 a2 b2 k2)).
(** the model with transition functions [f i] and measurement function [h] *)
Definition configured := [/\ forall i, (i < N)%N -> rowwise (sy_trans sy (kws i)) (f i), rowwise (sy_meas sy) h,
  reads y ys, momp illcond (sy_init sy) m0 P0 & [/\ posdef Q, posdef Rm & posdef P0]].
Definition ut_approx (root : 'M[R]_1 -> 'M[R]_1) : approx R 1 k :=
  Approx (fun i => sigma_rule a1 b1 k1 root (f i)) (fun _ => sigma_rule a2 b2 k2 root h) Q Rm m0 P0.
Definition ut_params a b kp := 0 < a ^+ 2 * (1 + kp) /\ 0 <= a ^+ 2 * kp + b :> R.

Lemma ut_implements : ut_params a1 b1 k1 -> ut_params a2 b2 k2 -> configured ->
  implements tm mm (ut_approx (@ut_root R 1)) y sy kws ys.
Proof.
move=> [p1 q1] [p2 q2] [h1 h2 h3 h4 [h5 h6 h7]].
have r1 : 0 <= a1 ^+ 2 * k1 + 1%:R * b1 by rewrite mul1r.
have r2 : 0 <= a2 ^+ 2 * k2 + 1%:R * b2 by rewrite mul1r.
split=> //; first by move=> i hi; split; apply: ut_acts => //; exact: h1.
by split=> // j hj; split; apply: ut_rule_proper.
Qed.

(** C28: any scalar system functions; for the default start there is no condition on the variances *)
Theorem C28_unscented : regular -> (1 < N)%N -> keywords fa sy kws N -> ut_params a1 b1 k1 -> ut_params a2 b2 k2 -> configured ->
  exists root : 'M[R]_1 -> 'M[R]_1, (forall P, posdef P -> root P *m (root P)^T = P) /\
  let A := ut_approx root in
  exists st st', [/\ ep_filter (iota 0 N) (ep_start tm mm A sy ys fa w) = (st, Ok tt),
    forall i, (i < N)%N -> holds st i (a_filt A y c i.+1),
    ep_sweep (iota 0 N) (ep_start tm mm A sy ys fa w) = (st', Ok tt) &
    forall i, (i < N)%N -> holds st' i (a_smooth A y c N i.+1)].
Proof.
move=> ic hN hk p1 p2 hc; exists (@ut_root R 1); split=> [P pP|A]; first by have [] := ut_rootE pP.
have hi := ut_implements p1 p2 hc.
have [st [h1 h2]] := C28_forward w ic hN hk hi; have [st' [h3 h4]] := C28_sweep w ic hN hk hi.
by exists st, st'.
Qed.
End Unscented.

(** ** affine systems *)
Section Linear.
Variables (k : nat) (S : lgssm R 1 k) (a1 b1 k1 a2 b2 k2 : R) (y : nat -> 'cV[R]_k) (sy : system) (kws : nat -> Kw) (ys : seq nd)
  (fa : option (seq Kw)) (w : W).
Notation N := (size ys).
Notation c := (trace_min R).
Notation tm := (pure_transform (W := W) (ut_transform illcond 1 a1 b1 k1)).
Notation mm := (pure_transform (W := W) (ut_transform illcond 1 a2 b2 k2)).
Definition affine_approx : approx R 1 k := Approx (fun j => affine_moments (s_A S j) (s_b S j))
  (fun j => affine_moments (s_H S j) (s_c S j)) (s_Q S) (s_R S) (s_m0 S) (s_P0 S).
Definition affine_system := [/\ 0 < a1 ^+ 2 * (1 + k1), 0 < a2 ^+ 2 * (1 + k2),
  forall i, (i < N)%N -> rowwise (sy_trans sy (kws i)) (fun x => s_A S i *m x + s_b S i) /\
     rowwise (sy_meas sy) (fun x => s_H S i *m x + s_c S i),
  reads y ys & momp illcond (sy_init sy) (s_m0 S) (s_P0 S)].

Lemma affine_implements : noise_ok S -> affine_system -> implements tm mm affine_approx y sy kws ys.
Proof.
move=> [n1 n2 n3] [p1 p2 h1 h2 h3]; split=> //.
  by move=> i hi; have [e1 e2] := h1 i hi; split; apply: ut_acts_affine.
by split=> // j hj; split; apply: affine_proper.
Qed.

(** C28: from flat marginals one forward pass gives the filtering posteriors, one sweep the smoothing posteriors *)
Theorem C28_posterior : regular -> (1 < N)%N -> keywords fa sy kws N -> noise_ok S -> affine_system ->
  (forall i, (i < N)%N -> (a_pred affine_approx i (a_filt affine_approx y 0 i)).2 0 0 <= large_num R) ->
  exists st st', [/\ ep_filter (iota 0 N) (flat_start tm mm affine_approx sy ys fa w) = (st, Ok tt),
    ep_sweep (iota 0 N) (flat_start tm mm affine_approx sy ys fa w) = (st', Ok tt) &
    forall i, (i < N)%N -> exists g g', [/\ holds st i g, posterior S y i.+1 i.+1 g.1 g.2,
      holds st' i g' & posterior S y N i.+1 g'.1 g'.2]].
Proof.
move=> ic hN hk ok hs hv; have hi := affine_implements ok hs; have [_ pm _ _] := hi.
have en : enough affine_approx y ys 0.
  move=> i hj; rewrite add0r; have /posdef11 p0 := pr_pd y (lexx 0) pm hj.
  by rewrite -[trace_min R]/((large_num R)^-1) lef_pinv ?posrE ?large_gt0 //; exact: hv.
have hc := flat_chain0 tm mm affine_approx w ic hN hk.
have [st [h1 h2]] := forward_holds ic (lexx 0) hi en hc.
have [st' [h3 h4]] := sweep_holds ic (lexx 0) hi en (ltnW hN) hc.
exists st, st'; split=> // i hj; exists (kf S y i.+1), (ks S y N i.+1); split.
- by have := h2 i hj; rewrite (a_filt_kf y ok).
- exact: kf_posterior.
- by have := h4 i hj; rewrite (a_smooth_ks y ok).
- exact: ks_posterior.
Qed.
(** C29: the whole system affine, unscented transform, default start: a second sweep (or any other list of
    updates) changes no natural parameter *)
Theorem C29_unscented : regular -> (1 < N)%N -> keywords fa sy kws N -> noise_ok S -> affine_system ->
  (forall i, s_H S i = s_H S 0%N /\ s_c S i = s_c S 0%N) ->
  exists st, ep_sweep (iota 0 N) (ep_start tm mm affine_approx sy ys fa w) = (st, Ok tt) /\
  (exists st2, ep_sweep (iota 0 N) st = (st2, Ok tt) /\ forall i, (i < N)%N -> same_node st st2 i) /\
  forall l, all (fun e => ev_node e < N)%N l -> exists st', ep_run l st = (st', Ok tt) /\
  forall i, (i < N)%N -> same_node st st' i.
Proof.
move=> ic hN hk ok hs hc; have hi := affine_implements ok hs; have [_ _ pR] := ok.
have aff i : (i < N)%N -> forall m P, a_h affine_approx i m P = affine_moments (s_H S 0%N) (s_c S 0%N) m P.
  by move=> _ m P; rewrite /=; have [-> ->] := hc i.
have [st [h1 h2]] := C29_fixed_point w ic hN hk hi aff pR; exists st; split=> //; split; last first.
  by move=> l hl; have [st' [h3 h4]] := h2 l hl; exists st'; split=> // i hj; have [] := h4 i hj.
have hl : all (fun e => ev_node e < N)%N (filter_events (iota 0 N) ++ smooth_events (iota 0 N)).
  have hio : all (fun i => i < N)%N (iota 0 N) by apply/allP=> i; rewrite mem_iota add0n.
  rewrite all_cat /smooth_events all_map all_rev (eq_all (a2 := fun i => i < N)%N) // hio andbT.
  by elim: (iota 0 N) hio => //= j l IH /andP[-> /IH].
have [st' [h3 h4]] := h2 _ hl; exists st'; split; last by move=> i hj; have [] := h4 i hj.
rewrite /ep_sweep; have [_ ->] := @sweep_run gauss R dfun dfun nd W (gmul illcond) (gdiv illcond) (gpow illcond) (gvalidate illcond)
  (@r_one_over R) (@r_one_minus R) (@r_sdiv R) (iota 0 N) st; exact: h3.
Qed.
End Linear.
End Props.

(** ** a concrete case: a scalar random walk with unit noise, two measurements, identity functions *)
Section Case.
Variable R : rcfType.
Add Field fieldR : (ffth R).
Notation keys := (@keywords R unit unit tt (fun _ _ => tt) (fun=> tt) None (@walk_sys R) (fun=> tt) 2).

Lemma walk_noise : noise_ok (@walk R). Proof. by split; exact: posdef1. Qed.
Lemma walk_keys : keys. Proof. by []. Qed.
Lemma walk_reads : reads (@walk_y R) (@walk_ys R).
Proof. by case=> [|[|//]] _; exact: squeeze_1. Qed.
Lemma walk_pos : 0 < 1 ^+ 2 * (1 + 2%:R) :> R.
Proof. by rewrite expr1n mul1r addr_gt0 ?ltr01 ?ltr0n. Qed.
Lemma walk_affine : @affine_system R (@never R) unit unit 1 (@walk R) 1 2%:R 1 2%:R (@walk_y R) (@walk_sys R) (fun=> tt) (@walk_ys R).
Proof.
split; [exact: walk_pos|exact: walk_pos| |exact: walk_reads|exact: momp_gaussian].
by move=> i _; split; exact: idf_rowwise.
Qed.
Lemma walk_filt : a_filt (affine_approx (@walk R)) (@walk_y R) 0 1 = (2%:R%:M, (2%:R / 3%:R)%:M).
Proof.
rewrite (a_filt_kf (@walk_y R) walk_noise) /= /kstep /cnd_S /cnd_J /cnd_C /=.
have n3 : (1 + 1 + 1 : R) <> 0 by apply/eqP; rewrite -[1 + 1 + 1]/((1%:R + 1%:R + 1%:R : R)) -!natrD pnatr_eq0.
have n3' : (1 + (1 + 1) : R) <> 0 by rewrite addrA.
rewrite !(mul1mx, mulmx1, mulmx0, trmx1, addr0, subr0); congr (_, _); apply: mx11_eq;
  rewrite !(mxE, mul11, inv11E, eqxx, mulr1n, big_ord1); fnorm R; field; repeat split; solve [exact n3 | exact n3'].
Qed.
Lemma walk_bound i : (i < 2)%N -> (a_pred (affine_approx (@walk R)) i (a_filt (affine_approx (@walk R)) (@walk_y R) 0 i)).2 0 0 <= large_num R.
Proof.
have big m : (m <= 10 ^ 10)%N -> m%:R <= large_num R by move=> hm; rewrite /large_num -natrX ler_nat.
have b2 : 1 + 1 <= large_num R by rewrite -[1 + 1]/((1%:R + 1%:R : R)) -natrD; exact: big.
case: i => [|[|//]] _; rewrite ?walk_filt /a_pred /r_cov [X in X <= _]mxE !mul11 !mxE !eqxx !mulr1n ?mul1r ?mulr1 //.
apply: le_trans b2; by rewrite ler_add2r ler_pdivr_mulr ?ltr0n // mul1r ler_nat.
Qed.
Lemma walk_regular : regular (@never R). Proof. by []. Qed.
Notation e0 := (affine_approx (@walk R)).
Lemma walk_posterior : exists st st', [/\
  @ep_filter R (@never R) unit (iota 0 2) (flat_start (@never R) tt (fun _ _ => tt) (fun=> tt) (@walk_ut R) (@walk_ut R) e0 (@walk_sys R) (@walk_ys R) None tt) = (st, Ok tt),
  @ep_sweep R (@never R) unit (iota 0 2) (flat_start (@never R) tt (fun _ _ => tt) (fun=> tt) (@walk_ut R) (@walk_ut R) e0 (@walk_sys R) (@walk_ys R) None tt) = (st', Ok tt) &
  forall i, (i < 2)%N -> exists g g', [/\ holds (@never R) st i g, posterior (@walk R) (@walk_y R) i.+1 i.+1 g.1 g.2,
    holds (@never R) st' i g' & posterior (@walk R) (@walk_y R) 2 i.+1 g'.1 g'.2]].
Proof. exact: (C28_posterior 0 0 tt walk_regular (isT : (1 < size (@walk_ys R))%N) walk_keys walk_noise walk_affine walk_bound). Qed.
Lemma walk_fixed : exists st,
  @ep_sweep R (@never R) unit (iota 0 2) (ep_start (@never R) tt (fun _ _ => tt) (fun=> tt) (@walk_ut R) (@walk_ut R) e0 (@walk_sys R) (@walk_ys R) None tt) = (st, Ok tt) /\
  exists st2, @ep_sweep R (@never R) unit (iota 0 2) st = (st2, Ok tt) /\ forall i, (i < 2)%N -> same_node (@never R) st st2 i.
Proof.
have [st [h1 [h2 _]]] := C29_unscented 0 0 tt walk_regular (isT : (1 < size (@walk_ys R))%N) walk_keys walk_noise walk_affine (fun=> conj erefl erefl).
by exists st.
Qed.
(** a transition function that is not affine *)
Definition sqf : dfun R := DFun (fun x => match x with Nd2 k n X => Ok (Nd2 (\matrix_(i < k, j < n) (X i j ^+ 2))) | _ => Err TypeErr end)
  (fun _ => Err TypeErr).
Definition sq (x : 'cV[R]_1) : 'cV[R]_1 := \col_i (x i 0 ^+ 2).
Definition sq_sys : system (gauss R) (dfun R) (dfun R) unit unit :=
  System (fun=> sqf) (@idf R) tt (gaussian (Nd1 (0 : 'cV[R]_1)) (Nd2 (1%:M : 'M[R]_1))).
Lemma sqf_rowwise : rowwise sqf sq.
Proof. by move=> k X; congr (Ok (Nd2 _)); apply/matrixP=> i j; rewrite !mxE. Qed.
Lemma sq_configured : @configured R (@never R) unit unit 1 (@walk_y R) sq_sys (fun=> tt) (@walk_ys R) (fun=> sq) (fun x => 1%:M *m x + 0)
  1%:M 1%:M 1%:M 0.
Proof.
split; [by move=> i _; exact: sqf_rowwise|exact: idf_rowwise|exact: walk_reads|exact: momp_gaussian|by split; exact: posdef1].
Qed.
Lemma sq_keys : @keywords R unit unit tt (fun _ _ => tt) (fun=> tt) None sq_sys (fun=> tt) 2. Proof. by []. Qed.
Lemma walk_params : ut_params 1 0 (2%:R : R).
Proof. by split; [exact: walk_pos|rewrite expr1n mul1r addr0 ler0n]. Qed.
Lemma sq_sweep : exists root : 'M[R]_1 -> 'M[R]_1, (forall P, posdef P -> root P *m (root P)^T = P) /\
  let A := ut_approx 1 0 2%:R 1 0 2%:R (fun=> sq) (fun x => 1%:M *m x + 0) 1%:M 1%:M 1%:M 0 root in
  exists st st', [/\ @ep_filter R (@never R) unit (iota 0 2) (ep_start (@never R) tt (fun _ _ => tt) (fun=> tt) (@walk_ut R) (@walk_ut R) A sq_sys (@walk_ys R) None tt) = (st, Ok tt),
    forall i, (i < 2)%N -> holds (@never R) st i (a_filt A (@walk_y R) (trace_min R) i.+1),
    @ep_sweep R (@never R) unit (iota 0 2) (ep_start (@never R) tt (fun _ _ => tt) (fun=> tt) (@walk_ut R) (@walk_ut R) A sq_sys (@walk_ys R) None tt) = (st', Ok tt) &
    forall i, (i < 2)%N -> holds (@never R) st' i (a_smooth A (@walk_y R) (trace_min R) 2 i.+1)].
Proof. exact: (C28_unscented tt walk_regular (isT : (1 < size (@walk_ys R))%N) sq_keys walk_params walk_params sq_configured). Qed.
End Case.

(** the hypotheses are met: real algebraic numbers, no ill-conditioned 1x1 matrices *)
Example C28_case := walk_posterior [rcfType of realalg].
Example C28_case_value := walk_filt [rcfType of realalg].
Example C28_nonlinear_case := sq_sweep [rcfType of realalg].
Example C29_case := walk_fixed [rcfType of realalg].
Print Assumptions C28_forward. Print Assumptions C28_sweep. Print Assumptions C28_kalman. Print Assumptions C28_unscented.
Print Assumptions C28_posterior. Print Assumptions C29_fixed_point. Print Assumptions C29_unscented.
