(** * The sweeps over a one-dimensional chain compute the assumed-density filter and smoother *)
Set Warnings "-notation-overridden,-ambiguous-paths".
From mathcomp Require Import all_ssreflect all_algebra.
From Verif Require Import Base ND NDFacts PosDef CondGauss LinAlg LinAlgFacts Gauss GaussFacts Nodes NodesFacts EPInv EPGauss
  Transforms TransformFacts Estimator EstimatorFacts EPEst SpecAssumed EPValue EPChain.
Set Implicit Arguments.
Unset Strict Implicit.
Unset Printing Implicit Defensive.
Import GRing.Theory Num.Theory Order.Theory.
Local Open Scope ring_scope.

(** ** values *)
Section Values.
Variable R : rcfType.
Notation V := ('M[R]_1 * 'M[R]_1)%type.
Variables (k N : nat) (A : approx R 1 k) (y : nat -> 'cV[R]_k) (c : R).
Hypothesis c0 : 0 <= c.
Hypothesis pm : proper_model A N.
Let base : V := (c%:M, 0).
Notation fl := (a_filt A y c).
Notation sm := (a_smooth A y c N).
Definition pr j := a_pred A j (fl j).
Definition fT j : V := toV (pr j).
Definition zT j : V := toV (fl j.+1) - (base + fT j).
Definition bT j : V := toV (sm j.+1) - toV (fl j.+1).

Lemma base_toV g : posdef g.2 -> ofV (base + toV g) = tempered c g.
Proof. by move=> pg; rewrite /ofV /toV /tempered /moments_of /natural /= add0r scalemx1 addrC. Qed.
Lemma pos_base (P : 'M[R]_1) : posdef P -> posdef (c%:M + invmx P).
Proof. by move=> /posdef_inv p; apply: posdefDr => //; apply/possemi11; rewrite mxE. Qed.
Lemma base_temp g : posdef g.2 -> base + toV g = toV (tempered c g).
Proof. by move=> pg; rewrite -base_toV // ofVK //; apply/posdef_unit/pos_base. Qed.
Lemma temp_pd (g : 'cV[R]_1 * 'M[R]_1) : posdef g.2 -> posdef (tempered c g).2.
Proof. by move=> pg; rewrite -base_toV //=; apply/posdef_inv/pos_base. Qed.
Lemma inv_le (P Q : 'M[R]_1) : posdef P -> posdef Q -> P 0 0 <= Q 0 0 -> invmx Q 0 0 <= invmx P 0 0.
Proof. by move=> /posdef11 p /posdef11 q h; rewrite !inv11E lef_pinv. Qed.
Lemma temp_le (g : 'cV[R]_1 * 'M[R]_1) : posdef g.2 -> (tempered c g).2 0 0 <= g.2 0 0.
Proof.
move=> pg; rewrite -base_toV //= -[X in _ <= (X : 'M_1) 0 0](invmxK g.2).
apply: inv_le; [exact: posdef_inv|exact: pos_base|by rewrite !mxE ler_addr].
Qed.
Lemma corr_pd i g : (i < N)%N -> posdef g.2 -> posdef (a_corr A y i g).2.
Proof. by move=> hi pg; have [_ h] := pm.1 i hi; have [] := h g.1 g.2 pg. Qed.
Lemma corr_le i g : (i < N)%N -> posdef g.2 -> (a_corr A y i g).2 0 0 <= g.2 0 0.
Proof.
move=> hi pg; have [_ h] := pm.1 i hi; have [/posdef_inv /posdef_semi ps _] := h g.1 g.2 pg.
have := possemi_congr (r_cross (a_h A i) g.1 g.2) ps => /possemi11 hh.
by rewrite /a_corr /= mxE ger_addl mxE oppr_le0.
Qed.
Lemma filt_pd i : (i <= N)%N -> posdef (fl i).2.
Proof.
elim: i => [|i IH] hi; first exact: pm.2.
have [h _] := pm.1 i hi; have [pp _] := h (fl i).1 (fl i).2 (IH (ltnW hi)).
exact: (corr_pd (g := tempered c (a_pred A i (fl i))) hi (temp_pd (g := a_pred A i (fl i)) pp)).
Qed.
Lemma pr_pd i : (i < N)%N -> posdef (pr i).2.
Proof. by move=> hi; have [h _] := pm.1 i hi; have [] := h (fl i).1 (fl i).2 (filt_pd (ltnW hi)). Qed.
Lemma filt_temp i : (i < N)%N -> (fl i.+1).2 0 0 <= (tempered c (pr i)).2 0 0.
Proof. by move=> hi; exact: (corr_le (g := tempered c (pr i)) hi (temp_pd (pr_pd hi))). Qed.
Lemma filt_pr i : (i < N)%N -> (fl i.+1).2 0 0 <= (pr i).2 0 0.
Proof. by move=> hi; apply: le_trans (filt_temp hi) _; apply/temp_le/pr_pd. Qed.

Lemma smooth_last : sm N = fl N.
Proof. by rewrite /a_smooth subnn. Qed.
Lemma smoothS j : (j < N)%N -> sm j = a_back A j (fl j) (sm j.+1).
Proof.
move=> hj; rewrite /a_smooth -[(N - j)%N](ltn_predK (m := 0)) ?subn_gt0 // -subnS /=.
by rewrite subnSK // subKn // ltnW.
Qed.
Lemma back_pd j g next : (j < N)%N -> posdef g.2 -> posdef next.2 -> posdef (a_back A j g next).2.
Proof.
move=> hj pg pn; have [h _] := pm.1 j hj; have [pC pS] := h g.1 g.2 pg; rewrite /a_back /=.
set X := r_cross _ _ _ in pS *; set C := _ + _ in pC pS *; set J := X *m _.
have -> : g.2 + J *m (next.2 - C) *m J^T = (g.2 - X *m invmx C *m X^T) + J *m next.2 *m J^T.
  rewrite mulmxBr mulmxBl addrA addrAC; congr (_ - _ + _).
  by rewrite /J -(mulmxA X) mulVmx ?posdef_unit // mulmx1 trmx_mul (sym_inv pC.1) mulmxA.
by apply: posdefD => //; apply/possemi_congr/posdef_semi.
Qed.
Lemma smooth_facts i : (i <= N)%N -> posdef (sm (N - i)).2 /\ (sm (N - i)).2 0 0 <= (fl (N - i)).2 0 0.
Proof.
elim: i => [|i IH] hi; first by rewrite subn0 smooth_last; split; first exact: filt_pd.
have [p1 l1] := IH (ltnW hi); set j := (N - i.+1)%N.
have ej : (N - i)%N = j.+1 by rewrite -subSn.
rewrite ej in p1 l1; have hj : (j < N)%N by rewrite -ej leq_subr.
have pf := filt_pd (ltnW hj); rewrite smoothS //; split; first exact: back_pd.
have l2 := le_trans l1 (filt_pr hj); rewrite /a_back /= -/(pr j).
set J := _ *m invmx _; rewrite mxE ger_addl tr11 !mul11 mulrAC mulr_ge0_le0 ?subr_ge0 //.
  by rewrite -expr2 sqr_ge0.
by rewrite mxE [X in _ + X]mxE subr_le0.
Qed.
Lemma smooth_pd j : (j <= N)%N -> posdef (sm j).2.
Proof. by move=> hj; rewrite -(subKn hj); have [] := smooth_facts (leq_subr j N). Qed.
Lemma smooth_le j : (j <= N)%N -> (sm j).2 0 0 <= (fl j).2 0 0.
Proof. by move=> hj; rewrite -(subKn hj); have [] := smooth_facts (leq_subr j N). Qed.

Hypothesis tmok : forall i, (i < N)%N -> trace_min R <= c + ((pr i).2 0 0)^-1.
Lemma big_temp i : (i < N)%N -> big (base + fT i).
Proof. by move=> hi; rewrite /big /= !mxE /= inv11E; exact: tmok. Qed.
Lemma big_filt i : (i < N)%N -> big (toV (fl i.+1)).
Proof.
move=> hi; apply: le_trans (big_temp hi) _; rewrite /fT (base_temp (pr_pd hi)).
by apply: inv_le; [exact: filt_pd|apply/temp_pd/pr_pd|exact: filt_temp].
Qed.
Lemma big_smooth i : (i < N)%N -> big (toV (sm i.+1)).
Proof.
by move=> hi; apply: le_trans (big_filt hi) _; apply: inv_le; [exact: smooth_pd|exact: filt_pd|exact: smooth_le].
Qed.
Lemma bT_ge0 i : (i < N)%N -> 0 <= (bT i).1 0 0.
Proof.
by move=> hi; rewrite !mxE subr_ge0; apply: inv_le; [exact: smooth_pd|exact: filt_pd|exact: smooth_le].
Qed.
Lemma sum_filt i : base + fT i + zT i = toV (fl i.+1).
Proof. by rewrite /zT sum_b. Qed.
Lemma sum_smooth i : base + fT i + zT i + bT i = toV (sm i.+1).
Proof. by rewrite sum_filt /bT sum_b. Qed.
End Values.

(** ** information form of an affine measurement *)
Section Info.
Variable R : rcfType.
Variables (k : nat) (Hm : 'M[R]_(k, 1)) (d : 'cV[R]_k).
Definition affine_rule : rule R 1 k := fun m P => (Hm *m m + d, Hm *m P *m Hm^T, P *m Hm^T).
Variables (A : approx R 1 k) (y : nat -> 'cV[R]_k) (i : nat).
Hypotheses (aff : forall m P, a_h A i m P = affine_rule m P) (pR : posdef (a_R A)).
Definition info : 'M[R]_1 * 'M[R]_1 := (Hm^T *m invmx (a_R A) *m Hm, Hm^T *m invmx (a_R A) *m (y i - d)).
Lemma corr_info g : posdef g.2 -> toV (a_corr A y i g) = toV g + info.
Proof.
case: g => m P /= pP; rewrite /a_corr /a_gain /r_mean /r_cov /r_cross !aff /=.
set K := _ *m invmx _; have eK : K = cnd_J P (a_R A) Hm by [].
have eS : P - K *m (P *m Hm^T)^T = cnd_S P (a_R A) Hm by rewrite trmx_mul trmxK pP.1 mulmxA eK.
have iS : invmx (cnd_S P (a_R A) Hm) = invmx P + Hm^T *m invmx (a_R A) *m Hm by rewrite (cnd_S_inv Hm pP pR) invmxK.
have uS := posdef_unit (cnd_S_pd Hm pP pR).
rewrite eS /toV /= eK (cnd_J_info Hm pP pR) iS; congr (_, _).
rewrite mulmxDr; have -> : (invmx P + Hm^T *m invmx (a_R A) *m Hm) *m (cnd_S P (a_R A) Hm *m Hm^T *m invmx (a_R A) *m (y i - (Hm *m m + d)))
   = Hm^T *m invmx (a_R A) *m (y i - (Hm *m m + d)).
  by rewrite -iS -!mulmxA mulKmx.
rewrite mulmxDl -addrA; congr (_ + _).
by rewrite opprD addrA addrAC [in X in _ + X]mulmxBr mulmxA addrC subrK.
Qed.
Lemma info_ge0 : 0 <= info.1 0 0.
Proof. by apply/possemi11; rewrite /info /=; apply/possemi_congrT/posdef_semi/posdef_inv. Qed.
End Info.

(** ** the sweeps *)
Section Sweep.
Variable R : rcfType.
Variable illcond : forall n, 'M[R]_n -> bool.
Hypothesis ic : forall A : 'M[R]_1, ~~ illcond A.
Variable W : Type.
Notation nd := (nd R).
Notation gauss := (gauss R).
Notation dfun := (dfun R).
Notation transform := (transform R W).
Notation V := ('M[R]_1 * 'M[R]_1)%type.
Notation do_ev := (@do_ev gauss R dfun dfun nd W (gmul illcond) (gdiv illcond) (gpow illcond)
  (gvalidate illcond) (@r_one_over R) (@r_one_minus R) (@r_sdiv R)).
Notation run := (@run gauss R dfun dfun nd W (gmul illcond) (gdiv illcond) (gpow illcond)
  (gvalidate illcond) (@r_one_over R) (@r_one_minus R) (@r_sdiv R)).
Variables (k N : nat) (tm mm : transform) (F : nat -> dfun) (H : dfun) (A : approx R 1 k) (y : nat -> 'cV[R]_k)
  (ys : nat -> nd) (g0 : gauss) (c : R).
Let base : V := (c%:M, 0).
Notation chain := (chain illcond N tm mm F H A ys g0 base).
Hypothesis c0 : 0 <= c.
Hypothesis mod : forall i, (i < N)%N -> [/\ acts illcond tm (F i) (a_f A i), acts illcond mm H (a_h A i),
  proper (a_f A i) (a_Q A), proper (a_h A i) (a_R A) & natleast1 (ys i) = Nd1 (y i)].
Hypothesis prior : momv illcond g0 (a_m0 A) (a_P0 A) /\ posdef (a_P0 A).
Hypothesis tmok : forall i, (i < N)%N -> trace_min R <= c + ((pr A y c i).2 0 0)^-1.
Notation fl := (a_filt A y c).
Notation sm := (a_smooth A y c N).
Notation fT := (fT A y c).
Notation zT := (zT A y c).
Notation bT := (bT N A y c).
Lemma pmN : proper_model A N.
Proof. by split=> [j hj|]; [have [_ _ h1 h2 _] := mod hj; split|exact: prior.2]. Qed.
Let pm := pmN.
Definition zf : nat -> V := fun _ => 0.
Lemma zfE i : zf i = 0. Proof. by []. Qed.
Definition upto (i : nat) (f : nat -> V) : nat -> V := fun j => if (j < i)%N then f j else 0.
Definition from (i : nat) (f : nat -> V) : nat -> V := fun j => if (i <= j)%N then f j else 0.

Lemma run1 ev st st' : do_ev ev st = (st', Ok tt) -> run [:: ev] st = (st', Ok tt).
Proof. by rewrite /= /mbind => ->. Qed.
Lemma run_step l ev st st1 st2 : run l st = (st1, Ok tt) -> do_ev ev st1 = (st2, Ok tt) -> run (rcons l ev) st = (st2, Ok tt).
Proof. by move=> h1 h2; rewrite -cats1 run_cat /mbind h1; exact: run1. Qed.

Lemma filt_of i : (i < N)%N -> ofV (toV (fl i.+1)) = fl i.+1.
Proof. by move=> hi; apply: toVK; apply/posdef_unit/(filt_pd y c0 pm). Qed.
Lemma temp_of i : (i < N)%N -> ofV (base + fT i) = tempered c (pr A y c i).
Proof. by move=> hi; apply: base_toV; exact: (pr_pd y c0 pm). Qed.
Lemma cav_val f z i : (forall j, (j < i)%N -> f j = fT j /\ z j = zT j) -> (i < N)%N ->
  cav_big base f z i /\ cav_fwd A base f z i = fl i.
Proof.
move=> h hi; case: i h hi => [|i] h hi; first by split.
have [e1 e2] := h i (ltnSn i); rewrite /cav_big /cav_fwd e1 e2 (sum_filt A y c i) filt_of ?(ltnW hi) //.
by split=> //; apply: (big_filt c0 pm tmok); exact: ltnW.
Qed.

Lemma forward_pass h w i : chain h zf zf zf -> (i <= N)%N ->
  exists h' w', run (filter_events (iota 0 i)) (h, w) = ((h', w'), Ok tt) /\ chain h' (upto i fT) (upto i zT) zf.
Proof.
move=> hc; elim: i => [|i IH] hi; first by exists h, w; split.
have [h1 [w1 [r1 c1]]] := IH (ltnW hi).
have eu : forall j, (j < i)%N -> upto i fT j = fT j /\ upto i zT j = zT j by move=> j hj; rewrite /upto hj.
have [b1 e1] := cav_val eu hi.
have u0 f : upto i f i = 0 by rewrite /upto ltnn.
have [h2 [w2 [r2 c2]]] : exists h' w', do_ev (Fwd i) (h1, w1) = ((h', w'), Ok tt) /\
    chain h' (upd (upto i fT) i (fT i)) (upto i zT) zf.
  have := fwd_val ic mod prior w1 c1 hi b1; cbv zeta; rewrite e1 -/(pr A y c i) -/(fT i) u0 zfE !addr0; apply.
  exact: (big_temp tmok).
have uf : upd (upto i fT) i (fT i) i = fT i by rewrite /upd eqxx.
have [h3 [w3 [r3 c3]]] : exists h' w', do_ev (Meas i) (h2, w2) = ((h', w'), Ok tt) /\
    chain h' (upd (upto i fT) i (fT i)) (upd (upto i zT) i (zT i)) zf.
  have := meas_val ic mod w2 c2 hi; cbv zeta; rewrite uf zfE !addr0 temp_of // -/(fl i.+1); apply; first exact: (big_temp tmok).
  exact: (big_filt c0 pm tmok).
exists h3, w3; split.
  rewrite -addn1 iotaD /filter_events map_cat flatten_cat /= add0n.
  by rewrite -[[:: Fwd i; Meas i]]/(rcons [:: Fwd i] (Meas i)) -rcons_cat; apply: run_step r3; rewrite cats1; apply: run_step r1 r2.
apply: chain_ext c3 => j hj; rewrite /upd /upto; split=> //; case: (ltngtP j i) => [lt|gt|->].
- by rewrite ltnS ltnW.
- by rewrite ltnS leqNgt gt.
- by rewrite ltnSn.
- by rewrite ltnS ltnW.
- by rewrite ltnS leqNgt gt.
- by rewrite ltnSn.
Qed.
Lemma forward_done h w : chain h zf zf zf ->
  exists h' w', run (filter_events (iota 0 N)) (h, w) = ((h', w'), Ok tt) /\ chain h' fT zT zf.
Proof.
move=> hc; have [h' [w' [h1 h2]]] := forward_pass w hc (leqnn N); exists h', w'; split=> //.
by apply: chain_ext h2 => j hj; rewrite /upto hj.
Qed.

Lemma back_step_val h w b i : chain h fT zT b -> (i.+1 < N)%N -> b i.+1 = bT i.+1 ->
  exists h' w', do_ev (Back i) (h, w) = ((h', w'), Ok tt) /\ chain h' fT zT (upd b i (bT i)).
Proof.
move=> hc hi hb; have := back_val ic mod w hc hi; cbv zeta; rewrite hb (sum_filt A y c i) (sum_smooth N A y c i.+1) filt_of ?(ltnW hi) //.
have ps := smooth_pd y c0 pm hi; rewrite toVK ?posdef_unit // -(smoothS A y c hi); apply.
- by apply: (big_filt c0 pm tmok); exact: ltnW.
- exact: (big_smooth c0 pm tmok).
- by apply: (smooth_pd y c0 pm); exact: ltnW.
- by apply: (big_smooth c0 pm tmok); exact: ltnW.
Qed.
Lemma bT_last : (0 < N)%N -> bT N.-1 = 0.
Proof. by move=> hN; rewrite /bT prednK // smooth_last subrr. Qed.

Lemma backward_pass h w i : (0 < N)%N -> chain h fT zT zf -> (i <= N)%N ->
  exists h' w', run [seq Back j | j <- rev (iota (N - i) i)] (h, w) = ((h', w'), Ok tt) /\ chain h' fT zT (from (N - i) bT).
Proof.
move=> hN hc; elim: i => [|i IH] hi.
  exists h, w; split=> //; apply: chain_ext hc => j hj; split=> //; by rewrite /from subn0 leqNgt hj.
have [h1 [w1 [r1 c1]]] := IH (ltnW hi); set j := (N - i.+1)%N.
have ej : (N - i)%N = j.+1 by rewrite -subSn.
rewrite ej in r1 c1; have hj : (j < N)%N by rewrite -ej leq_subr.
have es : [seq Back x | x <- rev (iota j i.+1)] = rcons [seq Back x | x <- rev (iota j.+1 i)] (Back j).
  by rewrite /= rev_cons map_rcons.
have [h2 [w2 [r2 c2]]] : exists h' w', do_ev (Back j) (h1, w1) = ((h', w'), Ok tt) /\ chain h' fT zT (upd (from j.+1 bT) j (bT j)).
  case: (leqP N j.+1) => hj1.
    have e : j = N.-1 by apply/eqP; rewrite eqn_leq -ltnS prednK // hj /= -ltnS prednK.
    have [w' e1] := back_last ic w1 c1 hN; rewrite -e in e1; exists h1, w'; split=> //.
    apply: chain_ext c1 => x hx; split=> //; rewrite /upd; case: eqP => // ->.
    by rewrite [in RHS]e bT_last // /from ltnn.
  apply: back_step_val => //; by rewrite /from leqnn.
exists h2, w2; split; first by rewrite es; apply: run_step r1 r2.
apply: chain_ext c2 => x hx; split=> //; rewrite /upd /from; by case: (ltngtP x j) => // ->.
Qed.

(** one sweep from the start *)
Lemma first_sweep h w : (0 < N)%N -> chain h zf zf zf ->
  exists h' w', run (filter_events (iota 0 N) ++ smooth_events (iota 0 N)) (h, w) = ((h', w'), Ok tt) /\ chain h' fT zT bT.
Proof.
move=> hN hc; have [h1 [w1 [r1 c1]]] := forward_done w hc.
have [h2 [w2 [r2 c2]]] := backward_pass w1 hN c1 (leqnn N).
exists h2, w2; split; last by move: c2; rewrite subnn; apply: chain_ext.
by rewrite run_cat /mbind r1 /smooth_events; move: r2; rewrite subnn.
Qed.

(** after it, every update keeps all values when the measurement rule is affine *)
Lemma steady Hm d h w ev : (forall i, (i < N)%N -> forall m P, a_h A i m P = affine_rule Hm d m P) -> posdef (a_R A) ->
  chain h fT zT bT -> (ev_node ev < N)%N ->
  exists h' w', do_ev ev (h, w) = ((h', w'), Ok tt) /\ chain h' fT zT bT.
Proof.
move=> aff pR hc; case: ev => i /= hi.
- have [b1 e1] := cav_val (fun j (_ : (j < i)%N) => conj (erefl (fT j)) (erefl (zT j))) hi.
  have := fwd_val ic mod prior w hc hi b1; cbv zeta; rewrite e1 -/(pr A y c i) -/(fT i) (sum_smooth N A y c i).
  case=> [|h' [w' [r' c']]]; first exact: (big_smooth c0 pm tmok).
  exists h', w'; split=> //; apply: chain_ext c' => j hj; split=> //; by rewrite /upd; case: eqP => // ->.
- have bc : big (base + fT i + bT i).
    by apply: le_trans (big_temp tmok hi) _; rewrite [X in _ <= X]mxE ler_addl; exact: (bT_ge0 y c0 pm).
  have pc := (posdef_inv (big_posdef bc)); rewrite invmxK in pc.
  have po : posdef (ofV (base + fT i + bT i)).2 by exact: posdef_inv.
  have ez : zT i = info Hm d A y i.
    have pt := temp_pd c0 (pr_pd y c0 pm hi).
    rewrite /zT -[toV (fl i.+1)]/(toV (a_corr A y i (tempered c (pr A y c i)))) (corr_info y (aff i hi) pR) //.
    by rewrite -(base_temp c0 (pr_pd y c0 pm hi)) addrC addrA addNr add0r.
  have eu : toV (a_corr A y i (ofV (base + fT i + bT i))) = base + fT i + bT i + zT i.
    by rewrite (corr_info y (aff i hi) pR) // ez ofVK // posdef_unit.
  have := meas_val ic mod w hc hi bc; cbv zeta; rewrite eu [_ + bT i + zT i]addrAC (sum_smooth N A y c i).
  case=> [|h' [w' [r' c']]]; first exact: (big_smooth c0 pm tmok).
  exists h', w'; split=> //; apply: chain_ext c' => j hj; split=> //; rewrite /upd; case: eqP => // ->.
  by rewrite -(sum_smooth N A y c i) [_ + zT i + bT i]addrAC [X in X - _]addrC addrK.
- case: (leqP N i.+1) => hi1.
    have e : i = N.-1 by have -> : N = i.+1 by apply/eqP; rewrite eqn_leq hi1 hi.
    have hN : (0 < N)%N := leq_ltn_trans (leq0n i) hi.
    by have [w' e1] := back_last ic w hc hN; exists h, w'; rewrite e.
  have [h' [w' [r' c']]] := back_step_val w hc hi1 erefl; exists h', w'; split=> //.
  apply: chain_ext c' => j hj; split=> //; by rewrite /upd; case: eqP => // ->.
Qed.
Lemma steady_run Hm d h w l : (forall i, (i < N)%N -> forall m P, a_h A i m P = affine_rule Hm d m P) -> posdef (a_R A) ->
  chain h fT zT bT -> all (fun ev => ev_node ev < N)%N l ->
  exists h' w', run l (h, w) = ((h', w'), Ok tt) /\ chain h' fT zT bT.
Proof.
move=> aff pR hc; elim: l h w hc => [|ev l IH] h w hc /=; first by exists h, w.
case/andP=> he hl; have [h1 [w1 [r1 c1]]] := steady w aff pR hc he.
by have [h2 [w2 [r2 c2]]] := IH h1 w1 c1 hl; exists h2, w2; rewrite /mbind r1.
Qed.

(** what the getters of a node return *)
Lemma marg_mom h f z b i u : chain h f z b -> (i < N)%N -> base + f i + z i + b i = toV u -> posdef u.2 -> big (toV u) ->
  exists2 n, lookup h i = Some n & momv illcond (n_marg n) u.1 u.2.
Proof.
move=> hc hi e pu hb; have [n [hn _ [_ _ _ hm]]] := hc i hi; exists n => //.
by rewrite e in hm; have [h1 _] := nv_momv hm hb; rewrite toVK ?posdef_unit // in h1.
Qed.
End Sweep.
