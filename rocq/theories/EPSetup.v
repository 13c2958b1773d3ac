(** * The chain right after it is built; the unscented transform as a rule *)
Set Warnings "-notation-overridden,-ambiguous-paths".
From mathcomp Require Import all_ssreflect all_algebra.
From Verif Require Import Base ND NDFacts PosDef LinAlg LinAlgFacts Gauss GaussFacts Nodes NodesFacts EPInv EPGauss
  Transforms TransformFacts UTPsd CondGauss Estimator EstimatorFacts EPEst SpecGauss KalmanMath SpecAssumed EPValue EPChain EPSweep
  AssumedFacts.
Set Implicit Arguments.
Unset Strict Implicit.
Unset Printing Implicit Defensive.
Import GRing.Theory Num.Theory Order.Theory.
Local Open Scope ring_scope.

Section Setup.
Variable R : rcfType.
Variable illcond : forall n, 'M[R]_n -> bool.
Hypothesis ic : forall A : 'M[R]_1, ~~ illcond A.
Variable W : Type.
Notation nd := (nd R).
Notation gauss := (gauss R).
Notation dfun := (dfun R).
Notation transform := (transform R W).
Notation node := (node gauss R dfun dfun nd W).
Notation heap := (heap gauss R dfun dfun nd W).
Notation state := (state gauss R dfun dfun nd W).
Variables (Kw T Y0 : Type) (t_zero : T) (tadd : T -> T -> T) (kw_tu0 : T -> Kw) (squeeze : Y0 -> nd).
Notation system := (system gauss dfun dfun Kw T).
Notation kw_at := (kw_at t_zero tadd kw_tu0).

(** user code: [for n in nodes: n.marginal = g] (the attribute set at Nodes.py:40-43) *)
Definition set_marginal (g : gauss) (n : node) : node :=
  Node (n_index n) (n_dim n) (n_prev n) (n_next n) g (n_meas n) (n_back n) (n_fwd n)
    (n_trans n) (n_measf n) (n_y n) (n_prior n) (n_power n) (n_damp n) (n_ufwd n) (n_umeas n) (n_uback n).
Definition assign_marginals (g : gauss) (nodes : seq nat) (st : state) : state :=
  (mfor nodes (fun i => put i (set_marginal g)) st).1.

Variables (k N : nat) (tm mm : transform) (A : approx R 1 k) (sy : system) (ys : seq Y0) (fa : option (seq Kw))
  (kws : nat -> Kw) (y0 : Y0) (w : W).
Let e := mk_estimator illcond tm mm (Nd2 (a_Q A)) (Nd2 (a_R A)) 1 1.
Hypothesis hN : (1 < N)%N.
Hypothesis hys : size ys = N.
Hypothesis hkw : forall i, (i < N)%N -> kw_at fa (sy_dt sy) i = Some (kws i).
Notation chain := (chain illcond N tm mm (fun i => sy_trans sy (kws i)) (sy_meas sy) A
  (fun i => squeeze (nth y0 ys i)) (sy_init sy)).
Notation start := (node_system t_zero tadd kw_tu0 squeeze (iota 0 N) sy ys fa
    (@build_nodes gauss R dfun dfun nd W (@as_factor R) (@as_marginal R) 1 Kw T N 1 (Some e) None ([::], w)).1).1.

Lemma setup_chain : chain ((trace_min R)%:M, 0) start.1 (@zf R) (@zf R) (@zf R).
Proof.
have := @build_nodes_spec gauss R dfun dfun nd W (@as_factor R) (@as_marginal R) 1 Kw T N 1 (Some e) None [::] w hN.
case: build_nodes => -[h w'] r /= [_ hs _ _ hb].
have an : all (fun j => j < size (h, w').1)%N (iota 0 N) by apply/allP=> j; rewrite mem_iota hs !add0n.
have := @node_system_spec gauss R dfun dfun nd W Kw T Y0 t_zero tadd kw_tu0 squeeze (iota 0 N) sy ys fa (h, w') (iota_uniq _ _) an.
case: node_system => -[h1 w1] r1 /= [_ _ _ hl _] i hi.
have hfa : (N <= if fa is Some l then size l else size ys)%N.
  have hp : (N.-1 < N)%N by rewrite prednK // ltnW.
  have := hkw hp; rewrite /NodesFacts.kw_at; case: (fa) => [l|_]; last by rewrite hys.
  rewrite leqNgt => hd; apply/negP => hlt; move: hd; rewrite drop_oversize //.
  by rewrite -ltnS prednK // ltnW.
have hn : minn (size (iota 0 N)) (minn (size ys) (if fa is Some l then size l else size ys)) = N.
  by move: hfa; rewrite size_iota hys => hfa; rewrite (minn_idPl hfa) minnn.
have hy : ohead (drop i ys) = Some (nth y0 ys i) by rewrite (drop_nth y0) ?hys.
have := hl i _ _ _ _ (etrans _ (hb i hi)) hy (hkw hi); rewrite hn nth_iota // !add0n => /(_ hi erefl) h2.
eexists; split; first exact: h2.
- rewrite /node_at; case: i hi {hy h2} => [|i] hi /=.
    split; [split=> //|split=> //|split=> //|by split].
    by rewrite hN; case: (N) hN => [|[]].
  split; [split; [by rewrite add0n|]|split=> //|split=> //|by split].
  case: eqP => [ne|ne]; last case: ltnP => // hn2.
    by have -> : (i.+2 < N)%N = false by rewrite ne (ltn_predK hN) ltnn.
  by case: ne; apply/eqP; rewrite eqn_leq -ltnS (ltn_predK hN) hi -ltnS (ltn_predK hN).
- by case: (i == 0)%N; split=> //; rewrite !zfE /= ?addr0; do ?exact: nv_factor; exact: nv_marginal.
Qed.

Lemma assign_chain g base h f z b w' : nv illcond g base -> chain ((trace_min R)%:M, 0) h f z b ->
  (forall i, (i < N)%N -> [/\ f i = 0, z i = 0 & b i = 0]) ->
  chain base (assign_marginals g (iota 0 N) (h, w')).1 f z b.
Proof.
move=> hg hc h0 i hi; have [n [hn na [v1 v2 v3 _]]] := hc i hi.
have := @mfor_put gauss R dfun dfun nd W _ 0%N (iota 0 N) id (fun _ => set_marginal g) (h, w').
rewrite map_id => /(_ (iota_uniq _ _)) /=; rewrite /assign_marginals; case: mfor => -[h1 w1] r1 /= [_ _ _ hl _].
have := hl i; rewrite size_iota nth_iota // add0n hn => /(_ hi) /= e1.
exists (set_marginal g n); split=> //.
by have [e2 e3 e4] := h0 i hi; split=> //=; rewrite e2 e3 e4 !addr0.
Qed.
Lemma flat_chain : chain (0%:M, 0) (assign_marginals (@as_factor R 1) (iota 0 N) start).1 (@zf R) (@zf R) (@zf R).
Proof.
have := setup_chain; case: (start) => h w' /= hc; apply: assign_chain hc _ => //.
by have := nv_factor ic; congr EPValue.nv; rewrite -scalemx1 scale0r.
Qed.
End Setup.

(** ** the unscented transform computes a rule, and the rule is a joint distribution *)
Section UTRule.
Variable R : rcfType.
Variable illcond : forall n, 'M[R]_n -> bool.
Variables (n k : nat) (alpha beta kappa : R).
Notation npl := (ut_npl n alpha kappa).
Notation wm := (ut_wm n alpha kappa).
Notation wc := (ut_wc n alpha beta kappa).
Hypothesis pos : 0 < alpha ^+ 2 * (n%:R + kappa).

(** the factor the code computes, as a square root *)
Definition ut_root (P : 'M[R]_n) : 'M[R]_n :=
  if catch_any (sp_cholesky false (Nd2 P)) (jittered_chol false (Nd2 P)) is Ok (@Nd2 _ a b L)
  then (conform_mx (0 : 'M_n) L)^T else 0.
Lemma ut_rootE P : posdef P -> ut_root P *m (ut_root P)^T = P /\
  catch_any (sp_cholesky false (Nd2 P)) (jittered_chol false (Nd2 P)) = Ok (Nd2 (ut_root P)^T).
Proof.
move=> pP; case: (ut_factor pP.1) => [[_ [L hL eL]]|[nP _ _]|[nJ _]] //; last by case: nJ; exact: posdef_jit.
by rewrite /ut_root hL conform_mx_id trmxK.
Qed.

Let npl_gt0 : 0 < npl. Proof. by rewrite nplE. Qed.
Let npl0 : npl != 0. Proof. exact: lt0r_neq0. Qed.
Variable phi : 'cV[R]_n -> 'cV[R]_k.
Notation r := (sigma_rule alpha beta kappa ut_root phi).

(** the rule as weighted sums *)
Lemma ut_rule_sums m P : let x i := (row i (spts alpha kappa m (ut_root P)^T))^T in
  let mu := \sum_i wm i 0 *: phi (x i) in
  r m P = (mu, \sum_i wc i 0 *: ((phi (x i) - mu) *m (phi (x i) - mu)^T),
           \sum_i wc i 0 *: ((x i - m) *m (phi (x i) - mu)^T)).
Proof.
move=> x; have [r0 rp rm] := row_spts alpha kappa m (ut_root P)^T.
rewrite /sigma_rule -nplE; set c := (2%:R * npl)^-1; set mu' := _ + c *: \sum_j _.
have e0 : x (ic n) = m by rewrite /x r0 trmxK.
have ep j : x (ip j) = m + Num.sqrt npl *: col j (ut_root P) by rewrite /x rp linearD linearZ /= trmxK tr_row trmxK.
have em j : x (im j) = m - Num.sqrt npl *: col j (ut_root P) by rewrite /x rm linearB linearZ /= trmxK tr_row trmxK.
have elam : npl - n%:R = ut_lambda n alpha kappa by rewrite /ut_npl addrC addKr.
have emu : \sum_i wm i 0 *: phi (x i) = mu'.
  rewrite sum_pts e0 wm_c -elam /mu'; congr (_ + _); rewrite scaler_sumr; apply: eq_bigr => j _.
  by rewrite ep em wm_p wm_m scalerDr.
rewrite emu; apply/esym; congr (_, _, _).
  rewrite sum_pts e0 [wc (ic n) 0]mxE /= -elam -expr2; congr (_ + _); rewrite scaler_sumr; apply: eq_bigr => j _.
  by rewrite ep em wc_p wc_m scalerDr.
rewrite sum_pts e0 subrr mul0mx scaler0 add0r scaler_sumr; apply: eq_bigr => j _.
by rewrite ep em wc_p wc_m scalerDr.
Qed.

Lemma ut_rule_call (F : dfun R) g a m P : rowwise F phi -> g_mean illcond g = Ok a -> is_vec a m ->
  g_cov illcond g = Ok (Nd2 P) -> posdef P ->
  ut_transform illcond n alpha beta kappa F g = Ok (Nd1 (r_mean r m P), Nd2 (r_cov r m P), Nd2 (r_cross r m P)).
Proof.
move=> hF hm ha hP pP; have [_ hL] := ut_rootE pP.
by rewrite (ut_sums beta npl_gt0 hF hm ha hP (sympart_id pP.1) hL) /r_mean /r_cov /r_cross ut_rule_sums.
Qed.

Lemma bf_outer l m m' (w : 'I_l -> R) (x : 'I_l -> 'cV[R]_m) (y : 'I_l -> 'cV[R]_m') u v :
  bf (\sum_i w i *: (x i *m (y i)^T)) u v = \sum_i w i * ((u^T *m x i) 0 0 * (v^T *m y i) 0 0).
Proof.
rewrite /bf mulmx_sumr mulmx_suml summxE; apply: eq_bigr => i _.
rewrite -scalemxAr -scalemxAl mxE; congr (_ * _); rewrite mulmxA -(mulmxA (u^T *m x i)).
have -> : (y i)^T *m v = v^T *m y i by rewrite -[RHS]tr11 trmx_mul trmxK.
by rewrite mxE big_ord_recl big_ord0 addr0.
Qed.

Lemma ut_rule_proper V : (0 < n)%N -> 0 <= alpha ^+ 2 * kappa + n%:R * beta -> posdef V -> proper r V.
Proof.
move=> n0 hk pV m P pP; have [eP _] := ut_rootE pP.
rewrite /r_cov /r_cross ut_rule_sums /=; set x := fun i => (row i (spts alpha kappa m (ut_root P)^T))^T.
set mu := \sum_i wm i 0 *: _; set C := \sum_i wc i 0 *: _; set X := \sum_i wc i 0 *: _.
have sC : C^T = C by rewrite /C linear_sum; apply: eq_bigr => i _; rewrite linearZ /= trmx_mul trmxK.
apply: (schur_pd pP pV sC) => a b.
have xm : \sum_i wm i 0 *: x i = m.
  rewrite -[RHS](spts_mean npl0 m (ut_root P)^T); apply/colP=> j.
  by rewrite summxE mxE; apply: eq_bigr => i _; rewrite !mxE mulrC.
have eC : \sum_i wc i 0 *: ((x i - m) *m (x i - m)^T) = P.
  rewrite -[RHS]eP -[X in X *m _]trmxK -(spts_cov beta npl_gt0 npl0 m) Wm_mul diag_sum; apply: eq_bigr => i _.
  have rX : (row i (ctr n alpha kappa *m spts alpha kappa m (ut_root P)^T))^T = x i - m.
    rewrite ctr_mul (spts_mean npl0) linearB /= linearB /=; congr (_ - _).
    by apply/colP=> j; rewrite !mxE.
  by rewrite rX -[row i _]trmxK rX.
have := wvar_ge0 npl_gt0 (fun i => (a^T *m x i) 0 0 - (b^T *m phi (x i)) 0 0) n0 hk; congr (_ <= _).
rewrite -[P in RHS]eC /C /X !qf_outer bf_outer mulr_sumr -sumrB -big_split /=; apply: eq_bigr => i _.
set d1 := (a^T *m (x i - m)) 0 0; set d2 := (b^T *m (phi (x i) - mu)) 0 0.
have -> : (a^T *m x i) 0 0 - (b^T *m phi (x i)) 0 0 - \sum_i wm i 0 * ((a^T *m x i) 0 0 - (b^T *m phi (x i)) 0 0) = d1 - d2.
  have -> : \sum_i wm i 0 * ((a^T *m x i) 0 0 - (b^T *m phi (x i)) 0 0) = (a^T *m m) 0 0 - (b^T *m mu) 0 0.
    rewrite -xm /mu !mulmx_sumr !summxE -sumrB; apply: eq_bigr => j _.
    by rewrite -!scalemxAr mulrBr; congr (_ - _); rewrite [RHS]mxE.
  have sub (u : 'rV[R]_n) (p q : 'cV[R]_n) : (u *m (p - q)) 0 0 = (u *m p) 0 0 - (u *m q) 0 0.
    by rewrite mulmxBr mxE [in X in _ + X]mxE.
  have sub' (u : 'rV[R]_k) (p q : 'cV[R]_k) : (u *m (p - q)) 0 0 = (u *m p) 0 0 - (u *m q) 0 0.
    by rewrite mulmxBr mxE [in X in _ + X]mxE.
  by rewrite /d1 /d2 sub sub' !opprB addrACA [in RHS]addrACA; congr (_ + _); rewrite addrC.
rewrite sqrrB mulrDr mulrBr; congr (_ - _ + _).
by rewrite mulr_natl mulrnAr.
Qed.
End UTRule.

Section UTActs.
Variable R : rcfType.
Variable illcond : forall n, 'M[R]_n -> bool.
Variable W : Type.
Variables (alpha beta kappa : R).
Notation ut n := (pure_transform (W := W) (ut_transform illcond n alpha beta kappa)).

Lemma ut_follows n k (phi : 'cV[R]_n -> 'cV[R]_k) F : 0 < alpha ^+ 2 * (n%:R + kappa) -> rowwise F phi ->
  follows illcond (ut n) F (sigma_rule alpha beta kappa (@ut_root R n) phi).
Proof.
move=> pos hF g m P w [hm hP] pP; exists w, (Nd1 (r_mean (sigma_rule alpha beta kappa (@ut_root R n) phi) m P)).
by split=> //; rewrite /pure_transform (ut_rule_call beta pos hF hm _ hP pP (m := m)) //; left.
Qed.
Lemma arr1_vec a (m : 'M[R]_1) : arr1 a m -> is_vec a m.
Proof. by case=> ->; [left|right; rewrite tr11]. Qed.
Lemma ut_acts k (phi : 'cV[R]_1 -> 'cV[R]_k) F : 0 < alpha ^+ 2 * (1%:R + kappa) -> rowwise F phi ->
  acts illcond (ut 1) F (sigma_rule alpha beta kappa (@ut_root R 1) phi).
Proof.
move=> pos hF g m P w [[a hm ha] hP] pP; exists w, (Nd1 (r_mean (sigma_rule alpha beta kappa (@ut_root R 1) phi) m P)).
by split=> //; rewrite /pure_transform (ut_rule_call beta pos hF hm (arr1_vec ha) hP pP).
Qed.
(** affine functions *)
Lemma ut_acts_affine k (H : 'M[R]_(k, 1)) d F : 0 < alpha ^+ 2 * (1%:R + kappa) -> rowwise F (fun x => H *m x + d) ->
  acts illcond (ut 1) F (affine_moments H d).
Proof.
rewrite -nplE => pos hF g m P w [[a hm ha] hP] pP; exists w, (Nd1 (H *m m + d)); split=> //; rewrite /pure_transform.
have [e1 e2] := ut_rootE pP.
by rewrite (ut_affine beta pos hF hm (arr1_vec ha) hP (sympart_id pP.1) e2) trmxK e1.
Qed.
Lemma affine_proper n k (H : 'M[R]_(k, n)) d V : posdef V -> proper (affine_moments H d) V.
Proof.
move=> pV m P pP; rewrite /r_cov /r_cross /=; apply: schur_pd => //.
  by rewrite !trmx_mul trmxK pP.1 mulmxA.
move=> v u; have := (posdef_semi pP).2 (v - H^T *m u); rewrite (qfB _ _ pP.1); congr (_ <= _ - _ * _ + _).
  by rewrite bfMr.
by rewrite qf_congr'.
Qed.
Lemma acts_follows T F k (r : rule R 1 k) : acts illcond (W := W) T F r -> follows illcond T F r.
Proof. by move=> h g m P w hg pP; exact: h (momp_momv hg) pP. Qed.
End UTActs.

(** ** the recursions with the exact rules of an affine model *)
Section Affine.
Variables (R : rcfType) (n k : nat) (S : lgssm R n k) (y : nat -> 'cV[R]_k).
Hypothesis ok : noise_ok S.
Let A : approx R n k := Approx (fun j => affine_moments (s_A S j) (s_b S j)) (fun j => affine_moments (s_H S j) (s_c S j))
  (s_Q S) (s_R S) (s_m0 S) (s_P0 S).
Lemma a_filt_kf j : a_filt A y 0 j = kf S y j.
Proof.
elim: j => [|j IH] //; rewrite [LHS]/= IH; have pf := kf_pd y ok j; have pp := pC_pd y ok j.
rewrite (@tempered0 _ _ (a_pred A j (kf S y j)) pp) [RHS]/= /kstep /a_corr; congr (_, _).
by rewrite -[(a_pred A j _).2]/(pC S y j) /a_gain /r_cross /= /cnd_S -[(cnd_C _ _ _ in RHS)]/(pC S y j) trmx_mul trmxK pp.1 mulmxA.
Qed.
Lemma a_smooth_ks N j : (j <= N)%N -> a_smooth A y 0 N j = ks S y N j.
Proof.
have [_ pQ _] := ok; move: j; apply: (@back_ind N (fun j => a_smooth A y 0 N j = ks S y N j)); first by rewrite /a_smooth subnn /= a_filt_kf ks_last.
move=> i hi IH; rewrite (ks_step S y hi) -IH.
have -> : a_smooth A y 0 N i = a_back A i (a_filt A y 0 i) (a_smooth A y 0 N i.+1).
  by rewrite /a_smooth -(subnSK hi) [LHS]/= subnSK // subKn // ltnW.
have pf := kf_pd y ok i; rewrite a_filt_kf /a_back /sstep; congr (_, _).
rewrite /Sc /Jg (cnd_S_sub (s_A S i) pf pQ) /r_cross /a_pred /r_cov /= -/(cnd_C _ _ _) -/(cnd_J _ _ _).
by rewrite mulmxBr mulmxBl addrA addrAC.
Qed.
End Affine.
