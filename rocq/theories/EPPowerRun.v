(** * Runs of the estimator with any power on scalar affine models, as damped belief propagation *)
Set Warnings "-notation-overridden,-ambiguous-paths".
From mathcomp Require Import all_ssreflect all_algebra.
From Verif Require Import Base ND NDFacts PosDef LinAlg LinAlgFacts Gauss GaussFacts Nodes NodesFacts EPInv EPGauss
  Transforms TransformFacts Estimator EstimatorFacts EPEst SpecGauss SpecAssumed SpecBP EPValue EPChain EPSweep EPSetup EPPower EPBelief
  EPCase Prop_EP Prop_EPKalman.
Set Implicit Arguments.
Unset Strict Implicit.
Unset Printing Implicit Defensive.
Import GRing.Theory Num.Theory Order.Theory.
Local Open Scope ring_scope.

Section Props.
Variable R : rcfType.
Variable illcond : forall n, 'M[R]_n -> bool.
Variable W : Type.
Notation nd := (nd R).
Notation gauss := (gauss R).
Notation dfun := (dfun R).
Notation transform := (transform R W).
Notation state := (state gauss R dfun dfun nd W).
Variables (Kw T : Type) (t_zero : T) (tadd : T -> T -> T) (kw_tu0 : T -> Kw).
Notation system := (system gauss dfun dfun Kw T).
Notation V := ('M[R]_1 * 'M[R]_1)%type.
Notation ep_run := (@ep_run R illcond W).
Notation ep_sweep := (@ep_sweep R illcond W).
Notation holds := (@holds R illcond W).
Notation keywords := (@keywords R Kw T t_zero tadd kw_tu0).
Notation c := (trace_min R).

Variables (k : nat) (tm mm : transform) (S : lgssm R 1 k) (y : nat -> 'cV[R]_k) (sy : system) (kws : nat -> Kw) (ys : seq nd)
  (fa : option (seq Kw)) (w : W).
Notation N := (size ys).
Notation A := (affine_approx S).
(** the chain of an estimator with power [p] and damping [g] *)
Definition power_start (p g : R) : state :=
  setup 1 t_zero tadd kw_tu0 (@nsqueeze R) N (mk_estimator illcond tm mm (Nd2 (s_Q S)) (Nd2 (s_R S)) p g) sy ys fa w.
(** the transforms are exact on the functions given to the nodes *)
Definition exact_model := [/\ implements illcond tm mm A y sy kws ys, noise_ok S, keywords fa sy kws N & (1 < N)%N].
(** a power strictly between 0 and 1 for which the smoother's target keeps the precision 1e-10:
    so for every power when |A| <= 1 and the noise Q is at most 1e10 p^2 / (1 - p) *)
Definition gentle (p : R) := 0 < p < 1 /\ forall i, (i < N)%N -> (1 - p) * (s_A S i 0 0 ^+ 2 + c * s_Q S 0 0 / p) <= 1.
Definition nodes_ok (l : seq ev) := all (fun e => ev_node e < N)%N l.
Definition beliefs (g : R) (l : seq ev) : msgs R := bp_run S y N c g (map to_msg l) (@silent R).
(** natural parameters to mean and covariance *)
Definition mean_cov (u : V) : 'cV[R]_1 * 'M[R]_1 := (invmx u.1 *m u.2, invmx u.1).

Notation coded := (coded illcond).
Section Proofs.
Hypotheses (ic : regular illcond) (hm : exact_model).
Notation coded_at p g st x := (coded p g N tm mm (fun i => sy_trans sy (kws i)) (sy_meas sy) S
  (fun i => nsqueeze (nth (Nd0 0) ys i)) (sy_init sy) st.1 x).
Let modN : forall i, (i < N)%N -> [/\ acts illcond tm (sy_trans sy (kws i)) (affine_moments (s_A S i) (s_b S i)),
  acts illcond mm (sy_meas sy) (affine_moments (s_H S i) (s_c S i)) & natleast1 (nsqueeze (nth (Nd0 0) ys i)) = Nd1 (y i)].
Proof. by have [[h1 _ h2 _] _ _ _] := hm; move=> i hi; have [a1 a2] := h1 i hi; split=> //; exact: h2. Qed.
Let priorN : momv illcond (sy_init sy) (s_m0 S) (s_P0 S).
Proof. by have [[_ _ _ h] _ _ _] := hm; exact: momp_momv. Qed.
Let okN : noise_ok S. Proof. by have [] := hm. Qed.
Lemma start_coded p g : coded_at p g (power_start p g) (@silent R).
Proof.
have [_ _ hk hN] := hm.
exact: (@psetup_chain R illcond ic W Kw T nd t_zero tadd kw_tu0 (@nsqueeze R) p g k N tm mm A sy ys fa kws (Nd0 0) w hN (erefl N) hk).
Qed.
Lemma run_coded p g st x l : gentle p -> 0 <= g <= 1 -> nodes_ok l -> coded_at p g st x -> nonneg x ->
  exists st', ep_run l st = (st', Ok tt) /\ coded_at p g st' (bp_run S y N c g (map to_msg l) x).
Proof.
move=> [/andP[p0 p1] hp] g01 hl hc hx; case: st hc => h w0 hc.
have [h' [w' [h1 h2]]] := run_bp ic p0 (ltW p1) g01 okN modN priorN hp w0 hc hx (fun _ => p1) hl.
by exists (h', w').
Qed.
Lemma coded_holds p g st x i : coded_at p g st x -> nonneg x -> (i < N)%N -> holds st i (mean_cov (belief c x i)).
Proof.
move=> hc hx hi; have [n [h1 _ [_ _ _ hv]]] := hc i hi; apply: holds_of; exists n => //.
by have [] := nv_momv hv (belief_ge c _ hx).
Qed.
Lemma sweep_runE st : ep_sweep (iota 0 N) st = ep_run (sweep_events N) st.
Proof.
rewrite /ep_sweep; have [_ ->] := @sweep_run gauss R dfun dfun nd W (gmul illcond) (gdiv illcond) (gpow illcond) (gvalidate illcond)
  (@r_one_over R) (@r_one_minus R) (@r_sdiv R) (iota 0 N) st; exact: erefl.
Qed.
Lemma sweep_ok : nodes_ok (sweep_events N).
Proof.
have hio : all (fun i => i < N)%N (iota 0 N) by apply/allP=> i; rewrite mem_iota add0n.
rewrite /nodes_ok /sweep_events all_cat /smooth_events all_map all_rev (eq_all (a2 := fun i => i < N)%N) // hio andbT.
by elim: (iota 0 N) hio => //= j l IH /andP[-> /IH].
Qed.
Lemma reachN g l : 0 <= g <= 1 -> [/\ nonneg (beliefs g l), under S y N c (beliefs g l) & ends N (beliefs g l)].
Proof. by move=> hg; exact: reach (trace_min_gt0 R) okN hg _. Qed.

Lemma pow_run p g l : gentle p -> 0 <= g <= 1 -> nodes_ok l ->
  exists st : state, ep_run l (power_start p g) = (st, Ok tt) /\ coded_at p g st (beliefs g l).
Proof. by move=> hp hg hl; exact: run_coded hp hg hl (start_coded p g) (@nonneg_silent R). Qed.
Lemma coded_factors p g (st : state) x i : coded_at p g st x -> (i < N)%N -> exists n, [/\ lookup st.1 i = Some n,
  natv illcond (n_fwd n) (p *: left x i), natv illcond (n_meas n) (p *: obs x i) & natv illcond (n_back n) (p *: right x i)].
Proof. by move=> hc hi; have [n [h1 _ [[h2 _] [h3 _] [h4 _] _]]] := hc i hi; exists n. Qed.
Let pmA : proper_model A N. Proof. by have [[_ h _ _] _ _ _] := hm. Qed.
Let c0 := trace_min_gt0 R.
Let N0 : (0 < N)%N. Proof. by have [_ _ _ /ltnW] := hm. Qed.
Lemma mean_cov_best x i : (i < N)%N -> is_best S y N c x -> mean_cov (belief c x i) = a_smooth A y c N i.+1.
Proof.
move=> hi hx; rewrite (belief_best hi (hx i hi)).
have u : (a_smooth A y c N i.+1).2 \in unitmx by apply: posdef_unit; exact: (smooth_pd y (ltW c0) pmA).
by case: (a_smooth _ _ _ _ _) u => m P /= u; rewrite /mean_cov /= invmxK mulmxA mulmxV // mul1mx.
Qed.
Lemma coded_same p g (st st' : state) x x' i f z b : coded_at p g st x -> coded_at p g st' x' -> (i < N)%N ->
  [/\ left x i = f, obs x i = z & right x i = b] -> [/\ left x' i = f, obs x' i = z & right x' i = b] -> same_node illcond st st' i.
Proof.
move=> h h' hi [<- <- <-] [e1 e2 e3].
have [n [a1 _ [[a2 _] [a3 _] [a4 _] [a5 _]]]] := h i hi; have [n' [b1 _ []]] := h' i hi; rewrite e1 e2 e3 => -[b2 _] [b3 _] [b4 _] [b5 _].
by exists n, n'; split=> //; split; eexists; split; eassumption.
Qed.
Lemma pow_undamped p l l' : gentle p -> nodes_ok l -> nodes_ok l' ->
  exists st st' st'' : state, [/\ ep_run l (power_start p 1) = (st, Ok tt), ep_sweep (iota 0 N) st = (st', Ok tt),
    ep_run l' st' = (st'', Ok tt) & forall i, (i < N)%N -> holds st'' i (a_smooth A y c N i.+1) /\ same_node illcond st' st'' i].
Proof.
move=> hp hl hl'; have g1 : 0 <= (1 : R) <= 1 by rewrite ler01 lexx.
have [st [h1 h2]] := pow_run hp g1 hl; have [x1 x2 x3] := reachN l g1.
have [st' [h3 h4]] := run_coded hp g1 sweep_ok h2 x1.
have hb : is_best S y N c (bp_run S y N c 1 (map to_msg (sweep_events N)) (beliefs 1 l)) by exact: (@undamped R k S y N c 1 c0 okN _ (erefl _) N0 x3).
have hn l0 x : nonneg x -> nonneg (bp_run S y N c 1 l0 x) by exact: nonneg_run.
have [st'' [h5 h6]] := run_coded hp g1 hl' h4 (hn _ _ x1).
exists st, st', st''; split=> // [|i hi]; first by rewrite sweep_runE.
have hb' := best_run 1 c0 okN hb hl'; split; last exact: coded_same h4 h6 hi (hb i hi) (hb' i hi).
rewrite -(mean_cov_best hi hb'); apply: (coded_holds h6) => //; exact/hn/hn.
Qed.
Lemma pow_precision p g l : gentle p -> 0 <= g <= 1 -> nodes_ok l ->
  exists st : state, ep_run l (power_start p g) = (st, Ok tt) /\ forall i, (i < N)%N ->
  exists m P, holds st i (m, P) /\ (a_smooth A y c N i.+1).2 0 0 <= P 0 0 <= large_num R.
Proof.
move=> hp hg hl; have [st [h1 h2]] := pow_run hp hg hl; have [x1 x2 x3] := reachN l hg.
exists st; split=> // i hi; exists (mean_cov (belief c (beliefs g l) i)).1, (mean_cov (belief c (beliefs g l) i)).2.
split; first by rewrite -surjective_pairing; exact: coded_holds h2 x1 hi.
have b1 := belief_ge c i x1; have b2 := belief_le x2 hi; have b0 := lt_le_trans c0 b1.
rewrite /mean_cov [X in _ <= X <= _]/= inv11E; move: b2; rewrite /toV [X in _ <= X]/= inv11E => b2.
have s0 : 0 < (a_smooth A y c N i.+1).2 0 0 by apply/posdef11; exact: (smooth_pd y (ltW c0) pmA).
apply/andP; split; first by rewrite -[X in X <= _]invrK lef_pinv // posrE // invr_gt0.
by rewrite -[large_num R]invrK lef_pinv // ?posrE // invr_gt0 exprn_gt0 // ltr0n.
Qed.
Lemma pow_fixed p g l (st st' : state) : gentle p -> 0 < g <= 1 -> nodes_ok l -> ep_run l (power_start p g) = (st, Ok tt) ->
  ep_sweep (iota 0 N) st = (st', Ok tt) -> (forall i, (i < N)%N -> same_node illcond st st' i) ->
  forall i, (i < N)%N -> holds st i (a_smooth A y c N i.+1).
Proof.
move=> hp /andP[g0 g1] hl e1 e2 hf i hi; have hg : 0 <= g <= 1 by rewrite g1 ltW.
have [st1 [h1 h2]] := pow_run hp hg hl; have [x1 x2 x3] := reachN l hg.
have est : st1 = st by move: h1; rewrite e1; case.
subst st1.
have [st2 [h3 h4]] := run_coded hp hg sweep_ok h2 x1.
have est' : st2 = st' by move: h3; rewrite -sweep_runE e2; case.
subst st2.
have [/andP[p0 _] _] := hp; have pn : p != 0 by rewrite gt_eqF.
have hb := @fixed R k S y N c g c0 okN _ (lt0r_neq0 g0) N0 x3.
rewrite -(mean_cov_best hi (x := beliefs g l)); first exact: coded_holds h2 x1 hi.
apply: hb => j hj; have [n [n1 n2 n3 n4]] := coded_factors h2 hj; have [n' [m1 m2 m3 m4]] := coded_factors h4 hj.
have [k1 [k2 [k3 k4 [_ [u [u1 u2]] [v [v1 v2]] [t [t1 t2]]]]]] := hf j hj.
have ek1 : n = k1 by move: k3; rewrite n1; case.
have ek2 : n' = k2 by move: k4; rewrite m1; case.
subst k1 k2.
by split; apply: (scalerI pn);
  [rewrite (natv_fun m2 u2) (natv_fun n2 u1)|rewrite (natv_fun m3 v2) (natv_fun n3 v1)|rewrite (natv_fun m4 t2) (natv_fun n4 t1)].
Qed.
Lemma pow_bp p g l : gentle p -> 0 <= g <= 1 -> nodes_ok l ->
  exists st : state, ep_run l (power_start p g) = (st, Ok tt) /\ forall i, (i < N)%N ->
  holds st i (mean_cov (belief c (beliefs g l) i)) /\
  exists n, [/\ lookup st.1 i = Some n, natv illcond (n_fwd n) (p *: left (beliefs g l) i),
    natv illcond (n_meas n) (p *: obs (beliefs g l) i) & natv illcond (n_back n) (p *: right (beliefs g l) i)].
Proof.
move=> hp hg hl; have [st [h1 h2]] := pow_run hp hg hl; have [x1 _ _] := reachN l hg.
by exists st; split=> // i hi; split; [exact: coded_holds h2 x1 hi|exact: coded_factors h2 hi].
Qed.
Lemma pow_free p p' g l : gentle p -> gentle p' -> 0 <= g <= 1 -> nodes_ok l ->
  exists st st' : state, [/\ ep_run l (power_start p g) = (st, Ok tt), ep_run l (power_start p' g) = (st', Ok tt) &
  forall i, (i < N)%N -> exists m P, holds st i (m, P) /\ holds st' i (m, P)].
Proof.
move=> hp hp' hg hl; have [st [h1 h2]] := pow_bp hp hg hl; have [st' [h1' h2']] := pow_bp hp' hg hl.
exists st, st'; split=> // i hi; have [e _] := h2 i hi; have [e' _] := h2' i hi.
by exists (mean_cov (belief c (beliefs g l) i)).1, (mean_cov (belief c (beliefs g l) i)).2; rewrite -surjective_pairing.
Qed.
Lemma filter_ok : nodes_ok (filter_events (iota 0 N)).
Proof. by have := sweep_ok; rewrite /nodes_ok /sweep_events all_cat => /andP[]. Qed.
Lemma pow_one p g i : gentle p -> 0 < g < 1 -> (i.+1 < N)%N -> s_A S i.+1 0 0 != 0 ->
  1 - g <= g * s_Q S 0 0 * (obs_msg S y i.+1).1 0 0 -> let l := filter_events (iota 0 N) ++ [:: Back i] in
  exists (st st' : state) m P m' P', [/\ ep_run l (power_start p g) = (st, Ok tt), ep_run l (power_start 1 g) = (st', Ok tt),
    holds st i (m, P), holds st' i (m', P') & P 0 0 < P' 0 0].
Proof.
move=> hp /andP[g0 g1] hi ha hg l; have g01 : 0 <= g <= 1 by rewrite !ltW.
have hi' := ltnW hi; set x := forwarded S y N c g; have x0 : nonneg x := forwarded_pos y N c0 okN g01.
have hl : nodes_ok l by rewrite /nodes_ok all_cat -/(nodes_ok _) filter_ok /= hi'.
have [st [h1 h2]] := pow_run hp g01 hl; have [y1 _ _] := reachN l g01.
have eb : beliefs g l = bp_step S y N c g x (Right i) by rewrite /beliefs /bp_run map_cat foldl_cat.
have [e1 e2 e3] := @forwardedE R k S y N c g _ hi'; rewrite -/x in e1 e2 e3.
have mild1 j : (j < N)%N -> (1 - 1) * (s_A S j 0 0 ^+ 2 + c * s_Q S 0 0 / 1) <= 1 by rewrite subrr mul0r ler01.
have nob : has (fun e => if e is Back _ then true else false) (filter_events (iota 0 N)) -> (1 : R) < 1.
  suff -> : has (fun e => if e is Back _ then true else false) (filter_events (iota 0 N)) = false by [].
  by elim: (iota 0 N).
have := start_coded 1 g; case: (power_start 1 g) => h w0 hs.
have [h' [w' [r1 c1]]] := run_bp ic ltr01 (lexx 1) g01 okN modN priorN mild1 w0 hs (@nonneg_silent R) nob filter_ok.
have [G0 G1] := gap_bounds c0 okN g01 hi g1 hg.
set L1 := lmsg (s_A S i.+1 0 0) (s_b S i.+1 0 0) (s_Q S 0 0) (gap S x i).
set L := right_msg S c x i.
have L10 : pos L1 := lmsg_pos okN _ _ G0.
have lt1 : L1.1 0 0 < L.1 0 0 by exact: (lmsg_smono okN _ ha G0 G1).
pose x' := Msgs (left x) (obs x) (upd (right x) i (g *: L1)).
have x0' : nonneg x'.
  move=> j; have [n1 n2 n3] := x0 j; split=> //; rewrite /x' /= /upd; case: ifP => // _; exact: scale_pos (ltW g0) L10.
have eR : (right (bp_step S y N c g x (Right i)) i).1 0 0 = g * L.1 0 0.
  by rewrite /bp_step hi /= /toward eqxx e3 subr0 add0r mxE.
have [k1 k2 _] := x0 i; have bb := big3 k1 k2 (scale_pos (ltW g0) L10).
have := back_one ic ltr01 okN modN w' (erefl _) c1 x0 hi; cbv zeta; rewrite -/x -/L1 e3 subr0 add0r => /(_ bb) [h2' [w2 [r2 c2]]].
exists st, (h2', w2), (mean_cov (belief c (beliefs g l) i)).1, (mean_cov (belief c (beliefs g l) i)).2,
  (mean_cov (belief c x' i)).1, (mean_cov (belief c x' i)).2; split=> //.
- by rewrite /ep_run /l run_cat /mbind r1; exact: run1.
- rewrite -surjective_pairing; exact: coded_holds h2 y1 hi'.
- rewrite -surjective_pairing; exact: (@coded_holds 1 g (h2', w2) x' i c2 x0' hi').
have b1 := lt_le_trans c0 (belief_ge c i y1); have b2 := lt_le_trans c0 (belief_ge c i x0').
have f1 : (belief c (beliefs g l) i).1 0 0 = (weak c + left x i + obs x i).1 0 0 + g * L.1 0 0.
  by rewrite eb /belief [LHS]addV11 eR /bp_step hi.
have f2 : (belief c x' i).1 0 0 = (weak c + left x i + obs x i).1 0 0 + g * L1.1 0 0.
  by rewrite /belief [LHS]addV11; congr (_ + _); rewrite /x' /= /upd eqxx mxE.
have mc u : (mean_cov u).2 0 0 = (u.1 0 0)^-1 by rewrite /mean_cov [LHS]/= inv11E.
by rewrite !mc ltf_pinv ?posrE // f1 f2 ltr_add2l ltr_pmul2l.
Qed.
End Proofs.
End Props.
