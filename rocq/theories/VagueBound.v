(** * How much precision the default start adds *)
Set Warnings "-notation-overridden,-ambiguous-paths".
From Coq Require Import Ring Field.
From mathcomp Require Import all_ssreflect all_algebra.
From Verif Require Import Base FieldTac ND PosDef CondGauss LinAlg LinAlgFacts SpecGauss SpecAssumed EPValue EPChain EPSweep KalmanMath EPSetup SpecVague VagueFacts.
Set Implicit Arguments.
Unset Strict Implicit.
Unset Printing Implicit Defensive.
Import GRing.Theory Num.Theory Order.Theory.
Local Open Scope ring_scope.

Section Through.
Variable R : rcfType.
Implicit Types a q l r : R.
(** the precision left after a transition *)
Definition through (a q l : R) : R := (a ^+ 2 / l + q)^-1.
Lemma through_den (a q l : R) : 0 < q -> 0 < l -> 0 < a ^+ 2 / l + q.
Proof. by move=> q0 l0; rewrite ltr_paddl // divr_ge0 ?sqr_ge0 // ltW. Qed.
Lemma through_mono (a q l l' : R) : 0 < q -> 0 < l -> l <= l' -> through a q l <= through a q l'.
Proof.
move=> q0 l0 h; have l0' := lt_le_trans l0 h; rewrite /through lef_pinv ?posrE ?through_den // ler_add2r.
by rewrite ler_wpmul2l ?sqr_ge0 // lef_pinv ?posrE.
Qed.
Lemma through_scale (a q l r : R) : 0 < q -> 0 < l -> 1 <= r -> through a q (r * l) <= r * through a q l.
Proof.
move=> q0 l0 r1; have r0 := lt_le_trans ltr01 r1; have d := through_den a q0 l0; have d' := through_den a q0 (mulr_gt0 r0 l0).
have e : r * (a ^+ 2 / l + q)^-1 = ((a ^+ 2 / l + q) / r)^-1 by rewrite invfM invrK mulrC.
rewrite /through e lef_pinv ?posrE ?mulr_gt0 ?invr_gt0 // mulrDl invfM mulrA mulrAC ler_add2l ler_pdivr_mulr //.
by rewrite ler_pemulr // ltW.
Qed.
End Through.

Section Bound.
Variables (R : rcfType) (k : nat) (S : lgssm R 1 k) (y : nat -> 'cV[R]_k).
Hypothesis ok : noise_ok S.
Notation A := (model S).
Definition lam (c : R) (i : nat) : R := ((a_filt A y c i).2 0 0)^-1.
Definition seen (i : nat) : R := (info (s_H S i) (s_c S i) A y i).1 0 0.
Lemma seen_ge0 i : 0 <= seen i. Proof. by apply: info_ge0; have [] := ok. Qed.
Lemma var_gt0 c i : 0 <= c -> 0 < (a_filt A y c i).2 0 0.
Proof. by move=> c0; apply/posdef11; exact: (filt_pd y c0 (pm ok i)). Qed.
Lemma lam_gt0 c i : 0 <= c -> 0 < lam c i.
Proof. by move=> c0; rewrite invr_gt0 var_gt0. Qed.
Lemma q_gt0 : 0 < s_Q S 0 0. Proof. by apply/posdef11; have [] := ok. Qed.
Lemma lamS c i : 0 <= c -> lam c i.+1 = c + through (s_A S i 0 0) (s_Q S 0 0) (lam c i) + seen i.
Proof.
move=> c0; have [n1 n2 n3] := ok; pose p := a_pred A i (a_filt A y c i).
have pp : posdef p.2 := pr_pd y c0 (pm ok i.+1) (ltnSn i).
have : toV (a_filt A y c i.+1) = (c%:M, 0) + toV p + info (s_H S i) (s_c S i) A y i.
  by rewrite [in LHS]/= (corr_info (A := A) y (i := i) (fun m P => erefl) n3 (temp_pd c0 pp)) -(base_temp c0 pp).
move=> /(congr1 fst) e; have := congr1 (fun M : 'M[R]_1 => M 0 0) e.
rewrite -[(toV (a_filt A y c i.+1)).1]/(invmx (a_filt A y c i.+1).2) inv11E => e1; rewrite [LHS]e1.
rewrite -[(_ + _).1]/(c%:M + invmx p.2 + (info (s_H S i) (s_c S i) A y i).1) 2!mxE inv11E mxE eqxx; congr (_ + _ + _).
by rewrite /through /lam invrK /p /a_pred /r_cov /= mxE tr11 !mul11 expr2 mulrAC.
Qed.
Lemma lam_up c i : 0 <= c -> lam 0 i <= lam c i.
Proof.
move=> c0; elim: i => [|i IH]; first by rewrite /lam.
rewrite !lamS // add0r ler_add2r; apply: le_trans (through_mono _ q_gt0 (lam_gt0 i (lexx 0)) IH) _.
by rewrite ler_addr.
Qed.
Definition total (i : nat) : R := \sum_(j < i) (a_filt A y 0 j.+1).2 0 0.
Lemma total_ge0 i : 0 <= total i.
Proof. by apply: sumr_ge0 => j _; exact/ltW/var_gt0. Qed.
Lemma lam_low c i : 0 <= c -> lam c i <= (1 + c * total i) * lam 0 i.
Proof.
move=> c0; elim: i => [|i IH]; first by rewrite /total big_ord0 mulr0 addr0 mul1r /lam.
have r1 : 1 <= 1 + c * total i by rewrite ler_addl mulr_ge0 // total_ge0.
have e : (1 + c * total i.+1) * lam 0 i.+1 = (1 + c * total i) * lam 0 i.+1 + c.
  rewrite /total big_ord_recr /= -/(total i) mulrDr addrA mulrDl; congr (_ + _).
  have v0 : 0 < (a_filt A y 0 i.+1).2 0 0 by exact: var_gt0.
  by rewrite -mulrA [_ * lam 0 i.+1]mulfV ?mulr1 // gt_eqF.
rewrite e !lamS // add0r -addrA addrC ler_add2r mulrDr; apply: ler_add.
- apply: le_trans (through_mono _ q_gt0 (lam_gt0 i c0) IH) _.
  exact: through_scale q_gt0 (lam_gt0 i (lexx 0)) r1.
- by rewrite ler_pemull // seen_ge0.
Qed.
(** variances *)
Lemma var_bounds c i : 0 <= c -> (a_filt A y c i).2 0 0 <= (a_filt A y 0 i).2 0 0 <= (a_filt A y c i).2 0 0 * (1 + c * total i).
Proof.
move=> c0; have v := var_gt0 i c0; have v0 := var_gt0 i (lexx 0); apply/andP; split.
  by have := lam_up i c0; rewrite /lam lef_pinv ?posrE.
have := lam_low i c0; rewrite /lam -(ler_pmul2l v) mulfV ?gt_eqF // -(ler_pmul2r v0) mul1r mulrA mulfVK ?gt_eqF //.
Qed.
Lemma var_strict c i : 0 < c -> (a_filt A y c i.+1).2 0 0 < (a_filt A y 0 i.+1).2 0 0.
Proof.
move=> c1; have c0 := ltW c1; have v := var_gt0 i.+1 c0; have v0 := var_gt0 i.+1 (lexx 0).
have : lam 0 i.+1 < lam c i.+1.
  rewrite !lamS // add0r ltr_add2r; apply: le_lt_trans (through_mono _ q_gt0 (lam_gt0 i (lexx 0)) (lam_up i c0)) _.
  by rewrite ltr_addr.
by rewrite /lam ltf_pinv ?posrE.
Qed.
End Bound.

(** two marginals, one of a density that has an additional factor *)
Section Sharper.
Variable R : rcfType.
Add Field fieldR : (ffth R).
Lemma curvature (p q p' m m' a b : R) :
  (forall u, p * ((u - m) * (u - m)) + q * (u * u) + b <= p' * ((u - m') * (u - m')) + a) -> p + q <= p'.
Proof.
move=> h; rewrite leNgt; apply/negP=> lt; pose d := p + q - p'; have d0 : 0 < d by rewrite subr_gt0.
pose K := p' * (m' * m') + a - p * (m * m) - b.
have hK t : d * (t * t) <= K.
  have h1 := h t; have h2 := h (- t); rewrite -subr_ge0 in h1; rewrite -subr_ge0 in h2; have h3 := addr_ge0 h1 h2.
  have e : (K - d * (t * t)) * (1 + 1) = p' * ((t - m') * (t - m')) + a - (p * ((t - m) * (t - m)) + q * (t * t) + b) +
    (p' * ((- t - m') * (- t - m')) + a - (p * ((- t - m) * (- t - m)) + q * (- t * - t) + b)).
    by rewrite /K /d; fnorm R; ring.
  by rewrite -subr_ge0 -(pmulr_lge0 _ (addr_gt0 ltr01 ltr01)) e.
have K0 : 0 <= K by have := hK 0; rewrite mulr0 mulr0.
have t1 : 1 <= 1 + K / d by rewrite ler_addl divr_ge0 // ltW.
have := hK (1 + K / d); rewrite leNgt => /negP; apply.
have e : d * (1 + K / d) = d + K by rewrite mulrDr mulr1 mulrC mulfVK // gt_eqF.
rewrite mulrA e; apply: lt_le_trans (ler_pemulr _ t1); first by rewrite ltr_addr.
by rewrite addr_ge0 // ltW.
Qed.
Lemma nll11 (m : 'cV[R]_1) (P : 'M[R]_1) x : nll m P x = (P 0 0)^-1 * ((x 0 0 - m 0 0) * (x 0 0 - m 0 0)).
Proof. by rewrite /nll qf11 inv11E !mxE expr2. Qed.
Variables (k : nat) (S : lgssm R 1 k) (v : R) (y : nat -> 'cV[R]_k).
Lemma sharper N i m P m' P' : 0 < v -> (i < N)%N -> posterior S y N i.+1 m P -> vague_posterior S v y N i.+1 m' P' ->
  (P 0 0)^-1 + v^-1 <= (P' 0 0)^-1.
Proof.
move=> v0 hi [_ [z [h1 _]]] [_ [z' [_ h2]]]; apply: (@curvature _ _ _ (m 0 0) (m' 0 0) z' z) => u.
have [x [e1 e2]] := h2 u%:M; have := h1 x; rewrite nll11 in e2; rewrite e1 nll11 !mxE eqxx mulr1n => h3.
rewrite mxE eqxx mulr1n in e2; rewrite -e2 /vague_joint addrAC; apply: ler_add h3 _.
have ge j : 0 <= nll 0 v%:M (x (j : nat).+1).
  by rewrite nll11 mulr_ge0 -?expr2 ?sqr_ge0 // invr_ge0 mxE eqxx ltW.
rewrite (bigD1 (Ordinal hi)) //= e1 nll11 !mxE eqxx !mulr1n subr0 ler_addl; exact: sumr_ge0.
Qed.
(** both energies have the same minimum *)
Lemma posterior_level N i j m P m' P' z z' : posdef P -> posdef P' ->
  (forall x, nll m P (x i) + z <= joint S y N x) -> (forall u, exists x, x i = u /\ joint S y N x = nll m P u + z) ->
  (forall x, nll m' P' (x j) + z' <= joint S y N x) -> (forall u, exists x, x j = u /\ joint S y N x = nll m' P' u + z') -> z = z'.
Proof.
move=> pP pP' h1 h2 h3 h4; apply/le_anti/andP; split.
- have [x [_ e]] := h4 m'; have := h1 x; rewrite e nll_self add0r; apply: le_trans; rewrite ler_addr; exact: nll_ge0.
- have [x [_ e]] := h2 m; have := h3 x; rewrite e nll_self add0r; apply: le_trans; rewrite ler_addr; exact: nll_ge0.
Qed.
Lemma young (e a b : R) : 0 < e -> (a + b) * (a + b) <= (1 + e) * (b * b) + (1 + e^-1) * (a * a).
Proof.
move=> e0; have n0 : e <> 0 by apply/eqP; rewrite gt_eqF.
have h : 0 <= e * ((b - a / e) * (b - a / e)) by apply: mulr_ge0; [exact: ltW|rewrite -expr2 sqr_ge0].
have q : (1 + e) * (b * b) + (1 + e^-1) * (a * a) - (a + b) * (a + b) = e * ((b - a / e) * (b - a / e)) by fnorm R; field.
by rewrite -subr_ge0 q.
Qed.
Lemma blunter N i (m : nat -> 'cV[R]_1) (V : nat -> R) m' P' : 0 < v -> (i < N)%N -> (forall j, (j < N)%N -> posterior S y N j.+1 (m j) (V j)%:M) ->
  vague_posterior S v y N i.+1 m' P' -> (P' 0 0)^-1 <= (V i)^-1 * (1 + v^-1 * \sum_(j < N) V j).
Proof.
move=> v0 hi hp [pP' [z' [g1 _]]].
have V0 j : (j < N)%N -> 0 < V j by move=> hj; have [/posdef11] := hp j hj; rewrite mxE eqxx mulr1n.
have [pPi [z [h1 h2]]] := hp i hi; have Vi := V0 i hi.
pose T := \sum_(j < N) V j; have T0 : 0 <= T by apply: sumr_ge0 => j _; apply/ltW/V0; exact: ltn_ord.
pose K := (V i)^-1 * (v^-1 * T); have K0 : 0 <= K.
  by apply: mulr_ge0; [rewrite invr_ge0 ltW|apply: mulr_ge0 => //; rewrite invr_ge0 ltW].
apply/ler_addgt0Pr => d d0; pose e := d / (K + 1); have K1 : 0 < K + 1 by rewrite ltr_paddl ?ltr01.
have e0 : 0 < e by rewrite divr_gt0.
have eK : e * K <= d by rewrite /e mulrAC ler_pdivr_mulr // ler_pmul2l // ler_addl ler01.
have far (j : 'I_N) x : joint S y N x = nll (m i) (V i)%:M (x i.+1) + z ->
  (x j.+1 0 0 - m j 0 0) * (x j.+1 0 0 - m j 0 0) <= V j * nll (m i) (V i)%:M (x i.+1).
  move=> ex; have [pPj [zj [k1 k2]]] := hp j (ltn_ord j).
  have ez := posterior_level pPi pPj h1 h2 k1 k2; have := k1 x; rewrite ex -ez ler_add2r nll11 !mxE eqxx mulr1n => k3.
  by rewrite -ler_pdivr_mull //; exact: V0 (ltn_ord j).
have goal : (V i)^-1 * (1 + (1 + e) * (v^-1 * T)) <= (V i)^-1 * (1 + v^-1 * T) + d.
  have -> : (V i)^-1 * (1 + (1 + e) * (v^-1 * T)) = (V i)^-1 * (1 + v^-1 * T) + e * K.
    by rewrite /K mulrDl mul1r addrA [in LHS]mulrDr; congr (_ + _); rewrite mulrCA.
  by rewrite ler_add2l.
apply: le_trans goal; rewrite -[(P' 0 0)^-1]addr0.
pose L := (1 + e^-1) * (v^-1 * \sum_(j < N) (m j 0 0 * m j 0 0)).
apply: (@curvature _ _ _ (m' 0 0) (m i 0 0) (z + L) z') => u; rewrite mul0r addr0.
have [x [e1 e2]] := h2 u%:M; have := g1 x; rewrite e1 nll11 mxE eqxx mulr1n => h3.
apply: le_trans h3 _; rewrite -e1 in e2; rewrite /vague_joint e2.
set q := nll _ _ _; have qE : q = (V i)^-1 * ((u - m i 0 0) * (u - m i 0 0)) by rewrite /q e1 nll11 !mxE eqxx !mulr1n.
have sumb : \sum_(j < N) nll 0 v%:M (x j.+1) <= (1 + e) * (v^-1 * T) * q + L.
  have -> : (1 + e) * (v^-1 * T) * q + L = \sum_(j < N) (v^-1 * ((1 + e) * (V j * q) + (1 + e^-1) * (m j 0 0 * m j 0 0))).
    rewrite /L /T; under [RHS]eq_bigr do rewrite mulrDr; rewrite big_split /= -!mulr_sumr; congr (_ + _); last by rewrite mulrCA.
    by rewrite -mulr_suml -!mulrA mulrCA.
  apply: ler_sum => j _; rewrite nll11 !mxE eqxx mulr1n subr0 ler_pmul2l ?invr_gt0 //.
  have := young (m j 0 0) (x j.+1 0 0 - m j 0 0) e0; rewrite addrC subrK => h4; apply: le_trans h4 _.
  by rewrite ler_add2r ler_pmul2l ?addr_gt0 ?ltr01 //; exact: far.
have -> : (V i)^-1 * (1 + (1 + e) * (v^-1 * T)) * ((u - m i 0 0) * (u - m i 0 0)) + (z + L) = q + ((1 + e) * (v^-1 * T) * q + L) + z.
  by rewrite [z + L]addrC !addrA; congr (_ + _ + _); rewrite mulrAC -qE mulrDr mulr1 [q * _]mulrC.
by rewrite addrAC ler_add2r ler_add2l.
Qed.
End Sharper.
