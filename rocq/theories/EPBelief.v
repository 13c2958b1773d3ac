(** * On affine scalar models the updates are damped belief propagation, whatever the power *)
Set Warnings "-notation-overridden,-ambiguous-paths".
From Coq Require Import Ring Field.
From mathcomp Require Import all_ssreflect all_algebra.
From Verif Require Import Base FieldTac ND NDFacts PosDef LinAlg LinAlgFacts Gauss GaussFacts Nodes NodesFacts EPInv EPGauss
  Transforms TransformFacts Estimator EstimatorFacts EPEst SpecGauss SpecAssumed SpecBP EPValue EPChain EPSweep EPSetup EPPower.
Set Implicit Arguments.
Unset Strict Implicit.
Unset Printing Implicit Defensive.
Import GRing.Theory Num.Theory Order.Theory.
Local Open Scope ring_scope.

(** ** the message to the left *)
Section Scalar.
Variable R : rcfType.
Add Field fieldR : (ffth R).
Notation V := ('M[R]_1 * 'M[R]_1)%type.
Implicit Types (a b q : 'M[R]_1) (C L : V).
Definition lmsg (a b q : R) (L : V) : V :=
  ((a ^+ 2 * L.1 0 0 / (1 + q * L.1 0 0))%:M, (a * (L.2 0 0 - b * L.1 0 0) / (1 + q * L.1 0 0))%:M).
Lemma V_eq (u v : V) : u.1 0 0 = v.1 0 0 -> u.2 0 0 = v.2 0 0 -> u = v.
Proof. by case: u v => [u1 u2] [v1 v2] /= h1 h2; rewrite (mx11_eq h1) (mx11_eq h2). Qed.
Lemma add11 (X Y : 'M[R]_1) : (X + Y) 0 0 = X 0 0 + Y 0 0. Proof. by rewrite mxE. Qed.
Lemma sub11 (X Y : 'M[R]_1) : (X - Y) 0 0 = X 0 0 - Y 0 0. Proof. by rewrite !mxE. Qed.
Lemma lmsgZ (p a b q : R) L : 0 < p -> 0 < 1 + q * L.1 0 0 -> lmsg a b (p^-1 * q) (p *: L) = p *: lmsg a b q L.
Proof.
move=> p0 d0; have pn : p <> 0 by apply/eqP; rewrite gt_eqF.
have e : p^-1 * q * (p * L.1 0 0) = q * L.1 0 0 by fnorm R; field.
by rewrite /lmsg /= !mxE e; apply: V_eq; rewrite /= !mxE /=; move/lt0r_neq0/eqP: d0 => d0; fnorm R; field.
Qed.
(** scalar forms *)
Lemma back_scalar (A b Q c1 c2 l1 l2 : R) : 0 < c1 -> 0 < Q -> 0 < (A ^+ 2 / c1 + Q)^-1 + l1 -> 
  let S := A * c1^-1 * A + Q in let mu := A * (c1^-1 * c2) + b in
  let M1 := S^-1 + l1 in let M2 := S^-1 * mu + l2 in let J := c1^-1 * A * S^-1 in
  let v := c1^-1 + J * (M1^-1 - S) * J in
  [/\ 0 < v, 0 < 1 + Q * l1, v^-1 = c1 + A ^+ 2 * l1 / (1 + Q * l1) &
      v^-1 * (c1^-1 * c2 + J * (M1^-1 * M2 - mu)) = c2 + A * (l2 - b * l1) / (1 + Q * l1)].
Proof.
move=> c0 Q0 M0 S mu M1 M2 J v.
have eS : S = A ^+ 2 / c1 + Q by rewrite /S; fnorm R; field; apply/eqP; rewrite gt_eqF.
have S0 : 0 < S by rewrite eS ltr_paddl // divr_ge0 ?sqr_ge0 // ltW.
rewrite -eS in M0.
have d0 : 0 < 1 + S * l1 by rewrite -(mulfV (lt0r_neq0 S0)) -mulrDr mulr_gt0.
have D0 : 0 < 1 + Q * l1.
  case: (lerP 0 l1) => hl; first by rewrite ltr_paddr ?ltr01 // mulr_ge0 // ltW.
  apply: lt_le_trans d0 _; rewrite ler_add2l ler_nmul2r // eS ler_addr divr_ge0 ?sqr_ge0 //; exact: ltW.
have num : c1 * (1 + S * l1) = c1 * (1 + Q * l1) + A ^+ 2 * l1.
  by rewrite eS; fnorm R; field; apply/eqP; rewrite gt_eqF.
have n0 : 0 < c1 * (1 + Q * l1) + A ^+ 2 * l1 by rewrite -num mulr_gt0.
have c1n : c1 <> 0 by apply/eqP; rewrite gt_eqF.
have dn : 1 + Q * l1 <> 0 by apply/eqP; rewrite gt_eqF.
have nn : c1 * (1 + Q * l1) + A ^+ 2 * l1 <> 0 by apply/eqP; rewrite gt_eqF.
have Sn : A * A + Q * c1 <> 0.
  by apply/eqP; rewrite gt_eqF // -expr2 ltr_paddl ?sqr_ge0 // mulr_gt0.
have n2 : c1 + l1 * (A * A + Q * c1) <> 0.
  by have -> : c1 + l1 * (A * A + Q * c1) = c1 * (1 + Q * l1) + A ^+ 2 * l1 by fnorm R; ring.
have ev : v = (1 + Q * l1) / (c1 * (1 + Q * l1) + A ^+ 2 * l1).
  by rewrite /v /J /M1 /S; fnorm R; field; do ?split.
split=> //.
- by rewrite ev divr_gt0.
- by rewrite ev; fnorm R; field; do ?split.
- by rewrite ev /J /M1 /M2 /mu /S; fnorm R; field; do ?split.
Qed.
Section Mx.
Variables (k : nat) (A : approx R 1 k) (a b : 'M[R]_1) (i : nat) (Q : 'M[R]_1).
Hypotheses (aff : forall m P, a_f A i m P = affine_moments a b m P) (eQ : a_Q A = Q) (pQ : posdef Q).
Lemma pred_scalar C : 0 < C.1 0 0 -> (a_pred A i (ofV C)).2 0 0 = (a 0 0) ^+ 2 / C.1 0 0 + Q 0 0.
Proof.
by move=> c0; rewrite /a_pred /r_cov aff eQ /= mxE tr11 !mul11 inv11E expr2 mulrAC.
Qed.
Lemma back_msg C L : 0 < C.1 0 0 -> let t := toV (a_pred A i (ofV C)) + L in 0 < t.1 0 0 ->
  [/\ posdef (a_back A i (ofV C) (ofV t)).2, 0 < 1 + Q 0 0 * L.1 0 0 &
      toV (a_back A i (ofV C) (ofV t)) = C + lmsg (a 0 0) (b 0 0) (Q 0 0) L].
Proof.
move=> c0 t t0; have q0 := (posdef11 Q).1 pQ.
have t0' : 0 < ((a 0 0) ^+ 2 / C.1 0 0 + Q 0 0)^-1 + L.1 0 0 by rewrite -pred_scalar // -inv11E; move: t0; rewrite /t /= mxE.
have [v0 d0 ev em] := back_scalar (b 0 0) (C.2 0 0) (L.2 0 0) c0 q0 t0'.
pose S := a *m invmx C.1 *m a^T + Q; pose mu := a *m (invmx C.1 *m C.2) + b; pose J := invmx C.1 *m a^T *m invmx S.
have ea : a_back A i (ofV C) (ofV t) =
    (invmx C.1 *m C.2 + J *m (invmx (invmx S + L.1) *m (invmx S *m mu + L.2) - mu),
     invmx C.1 + J *m (invmx (invmx S + L.1) - S) *m J^T).
  by rewrite /t /a_back /a_pred /r_cov /r_cross /r_mean !aff eQ.
rewrite ea.
have eS : S 0 0 = a 0 0 * (C.1 0 0)^-1 * a 0 0 + Q 0 0 by rewrite /S add11 tr11 !mul11 inv11E.
have em' : mu 0 0 = a 0 0 * ((C.1 0 0)^-1 * C.2 0 0) + b 0 0 by rewrite /mu add11 !mul11 inv11E.
have eJ : J 0 0 = (C.1 0 0)^-1 * a 0 0 * (S 0 0)^-1 by rewrite /J tr11 !mul11 !inv11E.
clearbody J mu S.
have ev2 : (invmx C.1 + J *m (invmx (invmx S + L.1) - S) *m J^T) 0 0 = (C.1 0 0)^-1 + J 0 0 * (((S 0 0)^-1 + L.1 0 0)^-1 - S 0 0) * J 0 0.
  by rewrite add11 tr11 !mul11 sub11 !inv11E add11 inv11E.
rewrite -eS -em' -eJ in v0 ev em; split=> //; first by apply/posdef11; rewrite /= ev2.
apply: V_eq; rewrite /toV [LHS]/=; first by rewrite inv11E ev2 ev !mxE.
by rewrite tr11 !(mul11, sub11, add11, inv11E) em !mxE.
Qed.
End Mx.
End Scalar.

Definition to_msg (e : ev) : msg := match e with Fwd i => Left i | Meas i => Obs i | Back i => Right i end.
Definition sweep_events (N : nat) : seq ev := filter_events (iota 0 N) ++ smooth_events (iota 0 N).

(** ** belief propagation *)
Section BP.
Variables (R : rcfType) (k : nat) (S : lgssm R 1 k) (y : nat -> 'cV[R]_k) (N : nat) (c g : R).
Hypotheses (c0 : 0 < c) (ok : noise_ok S).
Notation V := ('M[R]_1 * 'M[R]_1)%type.
Notation msgs := (msgs R).
Definition aff_model : approx R 1 k := Approx (fun j => affine_moments (s_A S j) (s_b S j))
  (fun j => affine_moments (s_H S j) (s_c S j)) (s_Q S) (s_R S) (s_m0 S) (s_P0 S).
Notation A := aff_model.
Notation base := (weak c).
Notation fT := (fT A y c).
Notation zT := (zT A y c).
Notation bT := (bT N A y c).
Notation step := (bp_step S y N c g).
Notation left_msg := (left_msg S c).
Notation right_msg := (right_msg S c).
Notation obs_msg := (obs_msg S y).
Let pmA : proper_model A N.
Proof. by have [n1 n2 n3] := ok; split=> // j hj; split; apply: affine_proper. Qed.
Let c0' : 0 <= c := ltW c0.
Lemma q_gt0 : 0 < s_Q S 0 0. Proof. by apply/posdef11; have [] := ok. Qed.
Lemma left_msgE x i : left_msg x i = toV (a_pred A i (cav_fwd A base (left x) (obs x) i)).
Proof. by case: i. Qed.
Lemma right_msgE x i : right_msg x i = lmsg (s_A S i.+1 0 0) (s_b S i.+1 0 0) (s_Q S 0 0) (base + obs x i.+1 + right x i.+1).
Proof. by []. Qed.
Lemma obs_msgE i : obs_msg i = info (s_H S i) (s_c S i) A y i.
Proof. by []. Qed.

Definition pos (u : V) : Prop := 0 <= u.1 0 0.
Definition nonneg (x : msgs) : Prop := forall i, [/\ pos (left x i), pos (obs x i) & pos (right x i)].
Lemma posD u v : pos u -> pos v -> pos (u + v).
Proof. by move=> hu hv; rewrite /pos [X in _ <= X]mxE addr_ge0. Qed.
Lemma toV_pos (m : 'cV[R]_1 * 'M[R]_1) : posdef m.2 -> pos (toV m).
Proof. by move=> /posdef11 h; rewrite /pos /= inv11E invr_ge0 ltW. Qed.
Lemma base_le u : pos u -> c <= (base + u).1 0 0.
Proof. by move=> h; rewrite [X in _ <= X]mxE /= mxE eqxx mulr1n ler_addl. Qed.
Lemma base_gt0 u : pos u -> 0 < (base + u).1 0 0.
Proof. by move=> h; apply: lt_le_trans c0 _; exact: base_le. Qed.
Lemma cav_pd x i : nonneg x -> posdef (cav_fwd A base (left x) (obs x) i).2.
Proof.
move=> hx; case: i => [|i]; first by have [] := ok.
have [h1 h2 _] := hx i; rewrite /cav_fwd; apply/posdef_inv/posdef11; rewrite -addrA; exact: base_gt0 (posD h1 h2).
Qed.
Lemma left_pos x i : nonneg x -> pos (left_msg x i).
Proof.
move=> hx; rewrite left_msgE; apply: toV_pos; rewrite /a_pred /=.
by apply: posdefDr; [apply/possemi_congr/posdef_semi/cav_pd|have [] := ok].
Qed.
Lemma obs_pos i : pos (obs_msg i).
Proof. by rewrite obs_msgE; apply: info_ge0; have [] := ok. Qed.
Lemma lmsg_pos a b L : pos L -> pos (lmsg a b (s_Q S 0 0) L).
Proof.
rewrite /pos => hL; rewrite /= mxE eqxx mulr1n; apply: divr_ge0; first by rewrite mulr_ge0 ?sqr_ge0.
by rewrite addr_ge0 ?ler01 // mulr_ge0 // ltW // q_gt0.
Qed.
Lemma right_pos x i : nonneg x -> pos (right_msg x i).
Proof.
move=> hx; rewrite right_msgE; apply: lmsg_pos; have [_ h1 h2] := hx i.+1.
by rewrite -addrA; apply/ltW/base_gt0/posD.
Qed.

(** a damped step stays between the old and the new value *)
Hypothesis g01 : 0 <= g <= 1.
Lemma damp_ge (t : R) (u v : V) : t <= u.1 0 0 -> t <= v.1 0 0 -> t <= (u + g *: (v - u)).1 0 0.
Proof.
case/andP: g01 => h0 h1 hu hv; rewrite !mxE.
have -> : u.1 0 0 + g * (v.1 0 0 - u.1 0 0) = (1 - g) * u.1 0 0 + g * v.1 0 0 by rewrite mulrBl mul1r mulrBr addrA addrAC.
have -> : t = (1 - g) * t + g * t by rewrite -mulrDl subrK mul1r.
by apply: ler_add; apply: ler_wpmul2l; rewrite // subr_ge0.
Qed.
Lemma damp_le (t : R) (u v : V) : u.1 0 0 <= t -> v.1 0 0 <= t -> (u + g *: (v - u)).1 0 0 <= t.
Proof.
case/andP: g01 => h0 h1 hu hv; rewrite !mxE.
have -> : u.1 0 0 + g * (v.1 0 0 - u.1 0 0) = (1 - g) * u.1 0 0 + g * v.1 0 0 by rewrite mulrBl mul1r mulrBr addrA addrAC.
have -> : t = (1 - g) * t + g * t by rewrite -mulrDl subrK mul1r.
by apply: ler_add; apply: ler_wpmul2l; rewrite // subr_ge0.
Qed.
Lemma toward_ge (t : nat -> R) (f : nat -> V) i (v : V) : (forall j, t j <= (f j).1 0 0) -> t i <= v.1 0 0 -> forall j, t j <= (toward g f i v j).1 0 0.
Proof. by move=> hf hv j; rewrite /toward; case: eqP => [->|_] //; apply: damp_ge. Qed.
Lemma toward_le (t : nat -> R) (f : nat -> V) i (v : V) j : (f j).1 0 0 <= t j -> (j = i -> v.1 0 0 <= t i) -> (toward g f i v j).1 0 0 <= t j.
Proof. by move=> hf hv; rewrite /toward; case: eqP => [e|_] //; subst j; apply: damp_le => //; exact: hv. Qed.
Lemma nonneg_step x m : nonneg x -> nonneg (step x m).
Proof.
move=> hx; case: m => i /=; last case: ifP => _ //.
- move=> j; have [h1 h2 h3] := hx j; split=> //=; apply: (@toward_ge (fun=> 0)) => [l|]; first by have [] := hx l.
  exact: left_pos.
- move=> j; have [h1 h2 h3] := hx j; split=> //=; apply: (@toward_ge (fun=> 0)) => [l|]; first by have [] := hx l.
  exact: obs_pos.
- move=> j; have [h1 h2 h3] := hx j; split=> //=; apply: (@toward_ge (fun=> 0)) => [l|]; first by have [] := hx l.
  exact: right_pos.
Qed.
Lemma nonneg_silent : nonneg (@silent R).
Proof. by move=> i; rewrite /pos /= mxE. Qed.

(** *** the messages of the smoother *)
Lemma rot4 (U : zmodType) (a f z b : U) : a + f + z + b = f + (a + z + b).
Proof. by rewrite !addrA [f + a]addrC. Qed.
Definition best : msgs := Msgs fT zT bT.
Let fl_pd i : (i <= N)%N -> posdef (a_filt A y c i).2 := filt_pd y c0' pmA (i := i).
Lemma fT_pos i : (i < N)%N -> pos (fT i).
Proof. by move=> hi; apply: toV_pos; exact: (pr_pd y c0' pmA). Qed.
Lemma cav_best i : (i < N)%N -> cav_fwd A base fT zT i = a_filt A y c i.
Proof.
case: i => [|i] hi //; rewrite /cav_fwd -[base]/(c%:M, 0) (sum_filt A y c i).
by apply: toVK; apply/posdef_unit/fl_pd/ltnW.
Qed.
Lemma left_best i : (i < N)%N -> left_msg best i = fT i.
Proof. by move=> hi; rewrite left_msgE /= cav_best. Qed.
Lemma obs_best i : (i < N)%N -> obs_msg i = zT i.
Proof.
move=> hi; have [_ _ pR] := ok; have pt := temp_pd c0' (pr_pd y c0' pmA hi).
rewrite obs_msgE /zT -[toV (a_filt A y c i.+1)]/(toV (a_corr A y i (tempered c (pr A y c i)))).
rewrite (corr_info (Hm := s_H S i) (d := s_c S i) (A := A) y (i := i) (fun m P => erefl) pR) //.
by rewrite -(base_temp c0' (pr_pd y c0' pmA hi)) addrC addrA addNr add0r.
Qed.
Lemma right_best i : (i.+1 < N)%N -> right_msg best i = bT i.
Proof.
move=> hi; have [_ pQ _] := ok; have hi' := ltnW hi.
have pf := fl_pd hi'; have ps := smooth_pd y c0' pmA (hi : (i.+2 <= N)%N).
have es : toV (a_smooth A y c N i.+2) = toV (a_pred A i.+1 (ofV (toV (a_filt A y c i.+1)))) + (base + zT i.+1 + bT i.+1).
  rewrite -(sum_smooth N A y c i.+1) toVK ?posdef_unit // -[toV (a_pred A i.+1 _)]/(fT i.+1).
  exact: rot4.
have C0 : 0 < (toV (a_filt A y c i.+1)).1 0 0 by apply/posdef11/posdef_inv.
have t0 : 0 < (toV (a_smooth A y c N i.+2)).1 0 0 by apply/posdef11/posdef_inv.
rewrite es in t0.
have [_ _ eb] := back_msg (A := A) (a := s_A S i.+1) (b := s_b S i.+1) (i := i.+1) (fun m P => erefl) (erefl _) pQ C0 t0.
rewrite -es toVK ?posdef_unit // toVK ?posdef_unit // -(smoothS A y c hi) in eb.
by rewrite right_msgE /EPSweep.bT eb [RHS]addrC addKr.
Qed.
Lemma right_last : (0 < N)%N -> bT N.-1 = 0.
Proof. by move=> hN; rewrite /EPSweep.bT prednK // smooth_last subrr. Qed.

(** *** no message is ever more precise than the smoother's *)
Definition under (x : msgs) : Prop := forall i, (i < N)%N ->
  [/\ (left x i).1 0 0 <= (fT i).1 0 0, (obs x i).1 0 0 <= (zT i).1 0 0 & (right x i).1 0 0 <= (bT i).1 0 0].
Lemma addV11 (u v : V) : (u + v).1 0 0 = u.1 0 0 + v.1 0 0. Proof. by rewrite mxE. Qed.
Lemma le_sum (u u' v v' : V) : u.1 0 0 <= u'.1 0 0 -> v.1 0 0 <= v'.1 0 0 -> (u + v).1 0 0 <= (u' + v').1 0 0.
Proof. by move=> h1 h2; rewrite !addV11 ler_add. Qed.
Lemma pred_mono i (C D : V) : 0 < C.1 0 0 -> C.1 0 0 <= D.1 0 0 ->
  (toV (a_pred A i (ofV C))).1 0 0 <= (toV (a_pred A i (ofV D))).1 0 0.
Proof.
move=> hC hD; have hD0 := lt_le_trans hC hD; have pd (E : V) : 0 < E.1 0 0 -> posdef (a_pred A i (ofV E)).2.
  move=> hE; rewrite /a_pred /=; apply: posdefDr; last by have [] := ok.
  by apply/possemi_congr/posdef_semi/posdef_inv/posdef11.
apply: inv_le; [exact: pd|exact: pd|].
have ps := pred_scalar (A := A) (i := i) (a := s_A S i) (b := s_b S i) (Q := s_Q S) (fun m P => erefl) (erefl _).
rewrite !ps //.
by rewrite ler_add2r; apply: ler_wpmul2l; rewrite ?sqr_ge0 // lef_pinv.
Qed.
Lemma lmsg_mono a b (L M : V) : pos L -> L.1 0 0 <= M.1 0 0 ->
  (lmsg a b (s_Q S 0 0) L).1 0 0 <= (lmsg a b (s_Q S 0 0) M).1 0 0.
Proof.
rewrite /pos => hL hM; have hM0 := le_trans hL hM; have q0 := ltW q_gt0.
have d (l : R) : 0 <= l -> 0 < 1 + s_Q S 0 0 * l by move=> hl; rewrite ltr_paddr ?ltr01 // mulr_ge0.
rewrite /= !mxE eqxx !mulr1n -![a ^+ 2 * _ / _]mulrA; apply: ler_wpmul2l; first exact: sqr_ge0.
rewrite ler_pdivr_mulr ?d // mulrAC ler_pdivl_mulr ?d // !mulrDr !mulr1 ler_add //.
by rewrite mulrCA [X in _ <= X]mulrCA [M.1 0 0 * _]mulrC.
Qed.
Lemma under_step x m : nonneg x -> under x -> under (step x m).
Proof.
move=> hx hu; case: m => i; rewrite /bp_step; last case: ifP => hi //; move=> j hj; have [u1 u2 u3] := hu j hj; split=> //.
- apply: (@toward_le (fun j => (fT j).1 0 0)) => // ej; subst j.
  rewrite -left_best // !left_msgE; case: i hj {u1 u2 u3} => [|i] hj //; rewrite /cav_fwd; apply: pred_mono.
    by have [h1 h2 _] := hx i; rewrite -addrA; exact: base_gt0 (posD h1 h2).
  have [v1 v2 _] := hu i (ltnW hj); exact: le_sum (le_sum (lexx _) v1) v2.
- by apply: (@toward_le (fun j => (zT j).1 0 0)) => // ej; subst j; rewrite obs_best.
- apply: (@toward_le (fun j => (bT j).1 0 0)) => // ej; subst j.
  rewrite -right_best // !right_msgE; apply: lmsg_mono.
    by have [_ h1 h2] := hx i.+1; rewrite -addrA; exact: ltW (base_gt0 (posD h1 h2)).
  have [_ v1 v2] := hu i.+1 hi; exact: le_sum (le_sum (lexx _) v1) v2.
Qed.
Lemma best_pos i : (i < N)%N -> [/\ pos (fT i), pos (zT i) & pos (bT i)].
Proof.
move=> hi; split; [exact: fT_pos|by rewrite -obs_best //; exact: obs_pos|exact: (bT_ge0 y c0' pmA)].
Qed.
Lemma under_silent : under (@silent R).
Proof. by move=> i hi; have [h1 h2 h3] := best_pos hi; split; rewrite /= mxE. Qed.
Lemma belief_le x i : under x -> (i < N)%N -> (belief c x i).1 0 0 <= (toV (a_smooth A y c N i.+1)).1 0 0.
Proof.
move=> hu hi; have [h1 h2 h3] := hu i hi; rewrite -(sum_smooth N A y c i) -[(c%:M, 0)]/base /belief.
exact: le_sum (le_sum (le_sum (lexx _) h1) h2) h3.
Qed.
Lemma belief_ge x i : nonneg x -> c <= (belief c x i).1 0 0.
Proof. by move=> hx; have [h1 h2 h3] := hx i; rewrite /belief -!addrA; exact: base_le (posD h1 (posD h2 h3)). Qed.

(** the last node never hears from the right *)
Definition ends (x : msgs) : Prop := right x N.-1 = 0.
Lemma ends_step x m : ends x -> ends (step x m).
Proof.
rewrite /ends => hx; case: m => i //=; case: ifP => hi //=; rewrite /toward; case: eqP => // e.
by case: (N) hi e => [|n] //= hi e; move: hi; rewrite -e ltnn.
Qed.

(** *** what a sweep computes *)
Notation brun := (bp_run S y N c g).
Lemma brun_cat l1 l2 x : brun (l1 ++ l2) x = brun l2 (brun l1 x).
Proof. by rewrite /bp_run foldl_cat. Qed.
Lemma left_msg_eq x x' i : (forall j, (j < i)%N -> left x j = left x' j /\ obs x j = obs x' j) -> left_msg x i = left_msg x' i.
Proof. by case: i => [|i] h //; rewrite /SpecBP.left_msg; have [-> ->] := h i (ltnSn i). Qed.
Lemma right_msg_eq x x' i : obs x i.+1 = obs x' i.+1 -> right x i.+1 = right x' i.+1 -> right_msg x i = right_msg x' i.
Proof. by rewrite /SpecBP.right_msg => -> ->. Qed.
Definition mixed (u v : V) : V := u + g *: (v - u).
Lemma fwd_part x i : let X := brun (map to_msg (filter_events (iota 0 i))) x in
  [/\ forall j, (j < i)%N -> left X j = mixed (left x j) (left_msg X j) /\ obs X j = mixed (obs x j) (obs_msg j),
      forall j, (i <= j)%N -> left X j = left x j /\ obs X j = obs x j & right X =1 right x].
Proof.
elim: i => [|i [h1 h2 h3]]; first by [].
cbv zeta; rewrite -[in iota _ _]addn1 iotaD /filter_events map_cat flatten_cat map_cat brun_cat /= add0n.
set X0 := brun _ x in h1 h2 h3 *; set X := Msgs _ _ _; have [e1 e2] := h2 i (leqnn i).
have eX j : (j < i)%N -> left X j = left X0 j /\ obs X j = obs X0 j.
  by move=> hj; rewrite /X /= /toward (ltn_eqF hj).
split=> // j hj.
- rewrite (@left_msg_eq X X0) => [|l hl]; last by apply: eX; apply: leq_trans hl _; rewrite -ltnS.
  move: hj; rewrite ltnS leq_eqVlt => /orP[/eqP->|hj].
    by rewrite /X /= /toward eqxx e1 e2.
  by rewrite /toward (ltn_eqF hj); exact: h1.
- by rewrite /X /= /toward (gtn_eqF hj); exact/h2/ltnW.
Qed.
Lemma back_part x i : (i <= N)%N -> let X := brun (map to_msg [seq Back j | j <- rev (iota (N - i) i)]) x in
  [/\ left X =1 left x, obs X =1 obs x, forall j, (N - i <= j)%N -> (j.+1 < N)%N -> right X j = mixed (right x j) (right_msg X j) &
      forall j, (j < N - i)%N || (N <= j.+1)%N -> right X j = right x j].
Proof.
elim: i => [|i IH] hi /=.
  split=> // j h1 h2; by move: h1; rewrite subn0 leqNgt (ltnW h2).
have [h1 h2 h3 h4] := IH (ltnW hi); set j0 := (N - i.+1)%N.
have ej : (N - i)%N = j0.+1 by rewrite -subSn.
rewrite ej in h1 h2 h3 h4; rewrite rev_cons map_rcons map_rcons -cats1 brun_cat /=.
set X0 := brun _ x in h1 h2 h3 h4 *; case: ifP => hj0; last first.
  split=> // j hj; last by apply: h4; case/orP: hj => [/ltnW hj|->]; rewrite ?orbT // ltnS hj.
  move=> hj1; have hlt : (j0 < j)%N by rewrite ltn_neqAle hj andbT; apply: contraFneq hj0 => ->.
  exact: h3.
set X := Msgs _ _ _.
have eX j : j != j0 -> right X j = right X0 j by move=> /negbTE hj; rewrite /X /= /toward hj.
have eo : obs X =1 obs X0 by [].
split=> //.
- move=> j; rewrite leq_eqVlt => /orP[/eqP<-|hj] hj1.
    have -> : right_msg X j0 = right_msg X0 j0 by apply: right_msg_eq; rewrite ?eo // eX ?gtn_eqF.
    by rewrite /X /= /toward eqxx h4 ?ltnSn.
  have -> : right_msg X j = right_msg X0 j by apply: right_msg_eq; rewrite ?eo // eX // gtn_eqF // ltnW.
  by rewrite eX ?gtn_eqF // h3.
- move=> j hj; rewrite eX; first by apply: h4; case/orP: hj => [/ltnW hj|->]; rewrite ?orbT // ltnS hj.
  case/orP: hj => [/ltn_eqF->//|hj]; apply: contraTneq hj => ->; by rewrite -ltnNge.
Qed.
Lemma sweep_eqs x : (0 < N)%N -> let X := brun (map to_msg (sweep_events N)) x in forall i, (i < N)%N ->
  [/\ left X i = mixed (left x i) (left_msg X i), obs X i = mixed (obs x i) (obs_msg i) &
      right X i = if (i.+1 < N)%N then mixed (right x i) (right_msg X i) else right x i].
Proof.
move=> hN /= i hi; rewrite /sweep_events map_cat brun_cat.
have [h1 h2 h3] := fwd_part x N; set X1 := brun _ x in h1 h2 h3 *.
have := back_part X1 (leqnn N); rewrite subnn /smooth_events; set X := brun _ X1; move=> [k1 k2 k3 k4].
have [e1 e2] := h1 i hi; rewrite k1 k2 e1 e2; split=> //.
  by congr mixed; apply: left_msg_eq => j _; rewrite k1 k2.
by case: ltnP => hi1; [rewrite k3 // h3|rewrite k4 ?hi1 ?orbT // h3].
Qed.

Lemma solves_best x : (0 < N)%N -> ends x -> (forall i, (i < N)%N ->
  [/\ left x i = left_msg x i, obs x i = obs_msg i & (i.+1 < N)%N -> right x i = right_msg x i]) ->
  forall i, (i < N)%N -> [/\ left x i = fT i, obs x i = zT i & right x i = bT i].
Proof.
move=> hN he hs; have ho i : (i < N)%N -> obs x i = zT i by move=> hi; have [_ -> _] := hs i hi; exact: obs_best.
have hl i : (i < N)%N -> left x i = fT i.
  elim/ltn_ind: i => i IH hi; have [-> _ _] := hs i hi; rewrite -left_best //; apply: left_msg_eq => j hj.
  by have hj' := ltn_trans hj hi; rewrite IH // ho.
have hr i : (i < N)%N -> right x (N.-1 - i) = bT (N.-1 - i).
  elim: i => [|i IH] hi; first by rewrite subn0 right_last.
  have e : (N.-1 - i)%N = (N.-1 - i.+1).+1 by rewrite -subSn //; case: (N) hN hi.
  have hlt : ((N.-1 - i.+1).+1 < N)%N by rewrite -e; case: (N) hN => // n _; rewrite /= ltnS leq_subr.
  have [_ _ ->] := hs _ (ltnW hlt) => //; rewrite -right_best //; apply: right_msg_eq; first by rewrite ho.
  by rewrite -e IH // ltnW.
move=> i hi; split; [exact: hl|exact: ho|].
have e : i = (N.-1 - (N.-1 - i))%N by rewrite subKn // -ltnS prednK.
by rewrite e; apply: hr; case: (N) hN => // n _; rewrite /= ltnS leq_subr.
Qed.
Lemma belief_best x i : (i < N)%N -> [/\ left x i = fT i, obs x i = zT i & right x i = bT i] ->
  belief c x i = toV (a_smooth A y c N i.+1).
Proof. by move=> hi [e1 e2 e3]; rewrite /belief e1 e2 e3; exact: sum_smooth. Qed.

(** a sweep without damping solves the equations *)
Lemma undamped x : g = 1 -> (0 < N)%N -> ends x -> let X := brun (map to_msg (sweep_events N)) x in
  forall i, (i < N)%N -> [/\ left X i = fT i, obs X i = zT i & right X i = bT i].
Proof.
move=> g1 hN he X; have m1 u v : mixed u v = v by rewrite /mixed g1 scale1r addrC subrK.
have hX := sweep_eqs x hN; apply: solves_best => //.
  by rewrite /ends; have [_ _ ->] := hX N.-1 (etrans (congr1 (leq^~ N) (prednK hN)) (leqnn N)); rewrite prednK // ltnn.
by move=> i hi; have [e1 e2 e3] := hX i hi; rewrite e1 e2 !m1; split=> // hi1; rewrite e3 hi1 m1.
Qed.
(** so does a state that a damped sweep leaves as it is *)
Lemma fixed x : g != 0 -> (0 < N)%N -> ends x -> let X := brun (map to_msg (sweep_events N)) x in
  (forall i, (i < N)%N -> [/\ left X i = left x i, obs X i = obs x i & right X i = right x i]) ->
  forall i, (i < N)%N -> [/\ left x i = fT i, obs x i = zT i & right x i = bT i].
Proof.
move=> gn hN he X hf.
have m1 u v : mixed u v = u -> u = v.
  rewrite /mixed -[RHS]addr0 => /addrI /eqP; rewrite scaler_eq0 (negbTE gn) subr_eq0 /= => /eqP ->; by [].
have hX := sweep_eqs x hN; apply: solves_best => // i hi.
have [e1 e2 e3] := hX i hi; have [f1 f2 f3] := hf i hi; rewrite -/X in e1 e2 e3.
split; [|by apply: m1; rewrite -e2 f2|].
  by rewrite -(@left_msg_eq X) => [|j hj]; [apply: m1; rewrite -e1 f1|have [-> -> _] := hf j (ltn_trans hj hi)].
move=> hi1; rewrite hi1 in e3; have [_ g2 g3] := hf i.+1 hi1.
by rewrite -(right_msg_eq g2 g3); apply: m1; rewrite -e3 f3.
Qed.
(** after one forward pass, the message of power 1 to the left is weaker when [g < 1] *)
Lemma lmsg_smono a b (L M : V) : a != 0 -> pos L -> L.1 0 0 < M.1 0 0 ->
  (lmsg a b (s_Q S 0 0) L).1 0 0 < (lmsg a b (s_Q S 0 0) M).1 0 0.
Proof.
rewrite /pos => a0 hL hM; have hM0 := ltW (le_lt_trans hL hM); have q0 := ltW q_gt0.
have d (l : R) : 0 <= l -> 0 < 1 + s_Q S 0 0 * l by move=> hl; rewrite ltr_paddr ?ltr01 // mulr_ge0.
rewrite /= !mxE eqxx !mulr1n -![a ^+ 2 * _ / _]mulrA ltr_pmul2l; last by rewrite lt_def sqr_ge0 sqrf_eq0 a0.
rewrite ltr_pdivr_mulr ?d // mulrAC ltr_pdivl_mulr ?d // !mulrDr !mulr1 ltr_le_add //.
by rewrite mulrCA [X in _ <= X]mulrCA [M.1 0 0 * _]mulrC.
Qed.
Definition forwarded : msgs := brun (map to_msg (filter_events (iota 0 N))) (@silent R).
Lemma forwardedE i : (i < N)%N -> [/\ left forwarded i = g *: left_msg forwarded i, obs forwarded i = g *: obs_msg i & right forwarded i = 0].
Proof.
move=> hi; have [h1 _ h3] := fwd_part (@silent R) N; have [e1 e2] := h1 i hi; rewrite h3.
by rewrite -/forwarded in e1 e2 *; rewrite {1}e1 e2 /mixed /= !subr0 !add0r.
Qed.
Lemma forwarded_pos : nonneg forwarded.
Proof.
suff h l x : nonneg x -> nonneg (brun l x) by apply: h; exact: nonneg_silent.
by elim: l x => //= m l IH x hx; apply: IH; exact: nonneg_step.
Qed.
Lemma through_le i (C : V) : 0 < C.1 0 0 -> 0 < (toV (a_pred A i (ofV C))).1 0 0 <= (s_Q S 0 0)^-1.
Proof.
move=> hC; rewrite /toV inv11E (pred_scalar (A := A) (i := i) (a := s_A S i) (b := s_b S i) (Q := s_Q S) (fun m P => erefl) (erefl _)) //.
have h : s_Q S 0 0 <= s_A S i 0 0 ^+ 2 / C.1 0 0 + s_Q S 0 0 by rewrite ler_addr divr_ge0 ?sqr_ge0 // ltW.
have h0 := lt_le_trans q_gt0 h.
by rewrite invr_gt0 h0 lef_pinv // ?posrE ?q_gt0.
Qed.
Lemma gapE (b u o r : V) : (b + g *: u + o + r - u).1 0 0 = (b + o + r).1 0 0 - (1 - g) * u.1 0 0.
Proof.
have e : b + g *: u + o + r - u = b + o + r + (g - 1) *: u.
  by rewrite scalerBl scale1r addrA; congr (_ - u); rewrite -!addrA; congr (b + _); rewrite addrC -addrA.
by rewrite e addV11 -mulNr opprB; congr (_ + _); rewrite /= mxE.
Qed.
Lemma gap_bounds i (x := forwarded) (G := belief c x i.+1 - toV (a_pred A i.+1 (ofV (base + left x i + obs x i)))) :
  (i.+1 < N)%N -> g < 1 -> 1 - g <= g * s_Q S 0 0 * (obs_msg i.+1).1 0 0 ->
  pos G /\ G.1 0 0 < (base + obs x i.+1 + right x i.+1).1 0 0.
Proof.
move=> hi g1 hg; have [e1 e2 e3] := forwardedE hi; have [k1 k2 _] := forwarded_pos i.
have C0 : 0 < (base + left x i + obs x i).1 0 0 by rewrite -addrA; exact: base_gt0 (posD k1 k2).
have /andP[t0 t1] := through_le i.+1 C0.
have eG : G.1 0 0 = (base + obs x i.+1 + right x i.+1).1 0 0 - (1 - g) * (left_msg x i.+1).1 0 0.
  rewrite /G /belief -/x -[toV (a_pred A i.+1 _)]/(left_msg x i.+1) {1}/x e1 -/x; set u := left_msg x i.+1.
  exact: gapE.
move: t0 t1; rewrite -[toV _]/(left_msg x i.+1) => t0 t1; split.
  rewrite /pos eG subr_ge0; apply: (@le_trans _ _ ((1 - g) / s_Q S 0 0)); first by rewrite ler_wpmul2l // subr_ge0 ltW.
  rewrite ler_pdivr_mulr ?q_gt0 //; apply: le_trans hg _; rewrite /x e2 e3 addr0.
  have -> : (base + g *: obs_msg i.+1).1 0 0 = base.1 0 0 + g * (obs_msg i.+1).1 0 0 by rewrite addV11; congr (_ + _); rewrite mxE.
  rewrite mulrDl mulrAC ler_addr mulr_ge0 ?(ltW q_gt0) //.
  have z : pos 0 by rewrite /pos mxE.
  by have := base_le z; rewrite addr0; apply: le_trans.
by rewrite eG ltr_subl_addr ltr_addl mulr_gt0 // subr_gt0.
Qed.

(** the messages of the smoother are kept by every step *)
Definition is_best (x : msgs) : Prop := forall i, (i < N)%N -> [/\ left x i = fT i, obs x i = zT i & right x i = bT i].
Lemma toward_id (f : nat -> V) i v j : v = f i -> toward g f i v j = f j.
Proof. by move=> ->; rewrite /toward; case: eqP => // ->; rewrite subrr scaler0 addr0. Qed.
Lemma best_step x m : is_best x -> (match m with Left i | Obs i | Right i => i end < N)%N -> is_best (step x m).
Proof.
move=> hx; case: m => i hi; rewrite /bp_step.
- have e : left_msg x i = left x i.
    have [-> _ _] := hx i hi; rewrite -left_best //; apply: left_msg_eq => j hj.
    by have [-> -> _] := hx j (ltn_trans hj hi).
  move=> j hj; have [h1 h2 h3] := hx j hj; split=> //; by rewrite -h1; exact: toward_id.
- have e : obs_msg i = obs x i by have [_ -> _] := hx i hi; exact: obs_best.
  move=> j hj; have [h1 h2 h3] := hx j hj; split=> //; by rewrite -h2; exact: toward_id.
- case: ifP => hi1 //; have e : right_msg x i = right x i.
    have [_ _ ->] := hx i hi; rewrite -right_best //; have [_ h2 h3] := hx i.+1 hi1; exact: right_msg_eq.
  move=> j hj; have [h1 h2 h3] := hx j hj; split=> //; by rewrite -h3; exact: toward_id.
Qed.
Lemma best_run l x : is_best x -> all (fun e => ev_node e < N)%N l -> is_best (brun (map to_msg l) x).
Proof.
elim: l x => [|e l IH] x hx //= /andP[he hl]; apply: IH => //; apply: best_step => //.
by case: e he.
Qed.
Lemma brun_inv l x : nonneg x -> under x -> ends x -> [/\ nonneg (brun l x), under (brun l x) & ends (brun l x)].
Proof.
elim: l x => [|m l IH] x h1 h2 h3 //=; apply: IH; [exact: nonneg_step|exact: under_step|exact: ends_step].
Qed.
Lemma reach l : [/\ nonneg (brun l (@silent R)), under (brun l (@silent R)) & ends (brun l (@silent R))].
Proof. by apply: brun_inv; [exact: nonneg_silent|exact: under_silent|]. Qed.
End BP.

(** ** the updates of the code *)
Section Link.
Variable R : rcfType.
Add Field fieldR2 : (ffth R).
Variable illcond : forall n, 'M[R]_n -> bool.
Hypothesis ic : forall A : 'M[R]_1, ~~ illcond A.
Variable W : Type.
Notation nd := (nd R).
Notation gauss := (gauss R).
Notation dfun := (dfun R).
Notation transform := (transform R W).
Notation V := ('M[R]_1 * 'M[R]_1)%type.
Notation do_ev := (@do_ev gauss R dfun dfun nd W (gmul illcond) (gdiv illcond) (gpow illcond)
  (gvalidate illcond) (@r_one_over R) (@r_one_minus R) (@r_sdiv R)).
Notation run := (@run gauss R dfun dfun nd W (gmul illcond) (gdiv illcond) (gpow illcond)
  (gvalidate illcond) (@r_one_over R) (@r_one_minus R) (@r_sdiv R)).
Variables (p g : R) (k N : nat) (tm mm : transform) (F : nat -> dfun) (H : dfun) (S : lgssm R 1 k) (y : nat -> 'cV[R]_k)
  (ys : nat -> nd) (g0 : gauss).
Notation c := (trace_min R).
Notation A := (aff_model S).
Hypotheses (p0 : 0 < p) (p1 : p <= 1) (g01 : 0 <= g <= 1) (ok : noise_ok S).
Hypothesis mod : forall i, (i < N)%N -> [/\ acts illcond tm (F i) (affine_moments (s_A S i) (s_b S i)),
  acts illcond mm H (affine_moments (s_H S i) (s_c S i)) & natleast1 (ys i) = Nd1 (y i)].
Hypothesis prior : momv illcond g0 (s_m0 S) (s_P0 S).
(** the smoother's target keeps enough precision *)
Hypothesis mild : forall i, (i < N)%N -> (1 - p) * (s_A S i 0 0 ^+ 2 + c * s_Q S 0 0 / p) <= 1.
Notation base := (weak c).
Notation pchain := (pchain illcond p g N tm mm F H A ys g0 base).
Notation B := (weaker p A).
Let c0 : 0 < c := trace_min_gt0 R.
Let pQ' : posdef (p^-1 *: s_Q S). Proof. by have [_ h _] := ok; apply: PosDef.posdefZ; rewrite ?invr_gt0. Qed.
Let pR' : posdef (p^-1 *: s_R S). Proof. by have [_ _ h] := ok; apply: PosDef.posdefZ; rewrite ?invr_gt0. Qed.
Lemma modp i : (i < N)%N -> [/\ acts illcond tm (F i) (a_f A i), acts illcond mm H (a_h A i),
  proper (a_f A i) (a_Q A) /\ proper (a_f A i) (p^-1 *: a_Q A), proper (a_h A i) (p^-1 *: a_R A) & natleast1 (ys i) = Nd1 (y i)].
Proof.
move=> hi; have [h1 h2 h3] := mod hi; have [_ pQ pR] := ok.
by split=> //; [split|]; apply: affine_proper.
Qed.
Lemma priorp : momv illcond g0 (a_m0 A) (a_P0 A) /\ posdef (a_P0 A).
Proof. by split=> //; have [] := ok. Qed.
Lemma scale_pos (t : R) (u : V) : 0 <= t -> pos u -> pos (t *: u).
Proof. by move=> ht hu; rewrite /pos mxE mulr_ge0. Qed.
Lemma big_base (u : V) : pos u -> big (base + u). Proof. exact: base_le. Qed.

Lemma big3 (u v t : V) : pos u -> pos v -> pos t -> big (base + u + v + t).
Proof. by move=> h1 h2 h3; rewrite -!addrA; exact: big_base (posD h1 (posD h2 h3)). Qed.

Lemma target_scalar (a q C L : R) : c <= C -> 0 < q -> c <= L -> (1 - p) * (a ^+ 2 + c * q / p) <= 1 ->
  c <= (a ^+ 2 / C + p^-1 * q)^-1 + p * L.
Proof.
move=> hC q0 hL hm; have C0 := lt_le_trans c0 hC.
have s0 : 0 < a ^+ 2 / C + p^-1 * q by rewrite ltr_paddl ?divr_ge0 ?sqr_ge0 // ?(ltW C0) // mulr_gt0 ?invr_gt0.
have -> : c = (1 - p) * c + p * c by rewrite -mulrDl subrK mul1r.
apply: ler_add; last by rewrite ler_pmul2l.
rewrite -[X in _ <= X]mul1r ler_pdivl_mulr //; apply: le_trans hm; rewrite -[(1 - p) * c * _]mulrA; apply: ler_wpmul2l.
  by rewrite subr_ge0.
rewrite mulrDr [p^-1 * q]mulrC [c * (_ / C)]mulrA [c * (q / p)]mulrA; apply: ler_add => //.
by rewrite ler_pdivr_mulr // mulrC; apply: ler_wpmul2l => //; exact: sqr_ge0.
Qed.
Definition coded (h : heap gauss R dfun dfun nd W) (x : msgs R) : Prop := pchain h (left x) (obs x) (right x).
Notation step := (bp_step S y N c g).

Definition general (e : ev) : Prop := if e is Back _ then p < 1 else True.
Lemma do_ev_bp h w x e : coded h x -> nonneg x -> general e -> (ev_node e < N)%N ->
  exists h' w', do_ev e (h, w) = ((h', w'), Ok tt) /\ coded h' (step x (to_msg e)).
Proof.
move=> hc hx hge hi; have hx' := nonneg_step y N c0 ok g01 (to_msg e) hx; case: e hge hi hx' => i /= hge hi hx'.
- have cb : cav_big base (left x) (obs x) i.
    by case: i {hi hx' hge} => [|i] //=; have [h1 h2 _] := hx i; rewrite -addrA; exact: big_base (posD h1 h2).
  have := fwd_valp ic p0 modp priorp w hc hi cb; cbv zeta; rewrite -left_msgE; case.
    have [h1 h2 h3] := hx' i; rewrite /= /toward eqxx in h1.
    by apply: big3.
  move=> h' [w' [e1 e2]]; exists h', w'; split=> //; exact: e2.
- have [h1 h2 h3] := hx i; have z0 : pos ((1 - p) *: obs x i) by apply: scale_pos => //; rewrite subr_ge0.
  have bC : big (base + left x i + right x i + (1 - p) *: obs x i).
    by apply: big3.
  have := meas_valp ic p0 modp w (v := obs_msg S y i) hc hi bC; case.
  + have pC : posdef (ofV (base + left x i + right x i + (1 - p) *: obs x i)).2 by exact: big_posdef.
    rewrite (corr_info (A := B) (Hm := s_H S i) (d := s_c S i) y (i := i) (fun m P => erefl) pR') //.
    rewrite ofVK; last by rewrite -unitmx_inv posdef_unit.
    congr (_ + _); rewrite /info /obs_msg /= invmxZ ?unitmxZ ?unitfE ?invr_eq0 ?gt_eqF //; last first.
      by have [_ _ pR] := ok; exact: posdef_unit.
    by rewrite invrK -!scalemxAr -!scalemxAl.
  + have [k1 k2 k3] := hx' i; rewrite /= /toward eqxx in k2.
    by apply: big3.
  by move=> h' [w' [e1 e2]]; exists h', w'; split=> //; exact: e2.
- case: ltnP hx' => hi1 hx'; last first.
    by have [w' e1] := back_lastp ic w hc hi hi1; exists h, w'.
  have [h1 h2 h3] := hx i; have z0 : pos ((1 - p) *: right x i) by apply: scale_pos => //; rewrite subr_ge0.
  set C := base + left x i + obs x i + (1 - p) *: right x i.
  have bC : big C by rewrite /C; apply: big3.
  have C0 : 0 < C.1 0 0 := lt_le_trans c0 bC.
  have [_ m2 m3] := hx i.+1; pose L := base + obs x i.+1 + right x i.+1.
  have bL : c <= L.1 0 0 by rewrite /L -addrA; exact: base_le (posD m2 m3).
  have et : target p A base (left x) (obs x) (right x) i C = toV (a_pred B i.+1 (ofV C)) + p *: L.
    by rewrite /target (lt_eqF hge).
  have ps := pred_scalar (A := B) (i := i.+1) (a := s_A S i.+1) (b := s_b S i.+1) (Q := p^-1 *: s_Q S) (fun m P => erefl) (erefl _) C0.
  have bt : big (target p A base (left x) (obs x) (right x) i C).
    rewrite et /big addV11 [X in _ <= _ + X]mxE /toV inv11E ps [X in (_ + X)^-1]mxE.
    by apply: target_scalar => //; [exact: q_gt0|exact: mild].
  have t0 := lt_le_trans c0 bt; rewrite et in t0.
  have [pb d0 eb] := back_msg (A := B) (a := s_A S i.+1) (b := s_b S i.+1) (i := i.+1) (fun m P => erefl) (erefl _) pQ' C0 t0.
  have := back_valp ic p0 modp w (v := right_msg S c x i) hc hi1 bC bt; rewrite et; case.
  + exact: pb.
  + rewrite eb; congr (_ + _); rewrite right_msgE -/L mxE; apply: lmsgZ => //.
    by move: d0; rewrite !mxE [p^-1 * _]mulrC -mulrA mulKf // gt_eqF.
  + have [k1 k2 k3] := hx' i; rewrite /= /toward eqxx in k3.
    by apply: big3.
  by move=> h' [w' [e1 e2]]; exists h', w'; split=> //; exact: e2.
Qed.
(** power 1 conditions on the marginal of the next node instead *)
Definition gap (x : msgs R) (i : nat) : V :=
  belief c x i.+1 - toV (a_pred A i.+1 (ofV (base + left x i + obs x i))).
Lemma back_one h w x i : p = 1 -> coded h x -> nonneg x -> (i.+1 < N)%N ->
  let u := right x i + g *: (lmsg (s_A S i.+1 0 0) (s_b S i.+1 0 0) (s_Q S 0 0) (gap x i) - right x i) in
  big (base + left x i + obs x i + u) ->
  exists h' w', do_ev (Back i) (h, w) = ((h', w'), Ok tt) /\ pchain h' (left x) (obs x) (upd (right x) i u).
Proof.
move=> hp1 hc hx hi u hb; have [_ pQ _] := ok; have [h1 h2 h3] := hx i; have [m1 m2 m3] := hx i.+1.
have eB : B = A by rewrite /weaker hp1 invr1 !scale1r.
have eC : base + left x i + obs x i + (1 - p) *: right x i = base + left x i + obs x i.
  by rewrite hp1 subrr scale0r addr0.
have bC : big (base + left x i + obs x i) by rewrite -addrA; exact: big_base (posD h1 h2).
have C0 := lt_le_trans c0 bC.
have et : target p A base (left x) (obs x) (right x) i (base + left x i + obs x i) = belief c x i.+1.
  by rewrite /target hp1 eqxx.
have bt : big (belief c x i.+1) by exact: big3.
have ed : toV (a_pred A i.+1 (ofV (base + left x i + obs x i))) + gap x i = belief c x i.+1 by exact: sum_b.
have t0 := lt_le_trans c0 bt; rewrite -ed in t0.
have [pb d0 eb] := back_msg (A := A) (a := s_A S i.+1) (b := s_b S i.+1) (i := i.+1) (fun m P => erefl) (erefl _) pQ C0 t0.
have := back_valp ic p0 modp w (v := lmsg (s_A S i.+1 0 0) (s_b S i.+1 0 0) (s_Q S 0 0) (gap x i)) hc hi.
cbv zeta; rewrite eC et eB => /(_ bC bt); rewrite hp1 scale1r -ed => /(_ pb eb); apply; exact: hb.
Qed.
Notation brun := (bp_run S y N c g).
Lemma nonneg_run l x : nonneg x -> nonneg (brun l x).
Proof. by elim: l x => //= m l IH x hx; apply: IH; exact: (nonneg_step y N c0 ok g01). Qed.
Lemma run_bp l h w x : coded h x -> nonneg x -> (has (fun e => if e is Back _ then true else false) l -> p < 1) ->
  all (fun e => ev_node e < N)%N l ->
  exists h' w', run l (h, w) = ((h', w'), Ok tt) /\ coded h' (brun (map to_msg l) x).
Proof.
elim: l h w x => [|e l IH] h w x hc hx hp /=; first by exists h, w.
case/andP=> he hl.
have hge : general e by case: e hp {he} => //= i hp; exact: hp.
have [h1 [w1 [r1 c1]]] := do_ev_bp w hc hx hge he.
have hp' : has (fun e => if e is Back _ then true else false) l -> p < 1 by move=> h'; apply: hp => //=; rewrite h' orbT.
have [h2 [w2 [r2 c2]]] := IH h1 w1 _ c1 (nonneg_step y N c0 ok g01 (to_msg e) hx) hp' hl.
by exists h2, w2; rewrite /mbind r1.
Qed.
End Link.

(** ** the start *)
Section Setup.
Variable R : rcfType.
Variable illcond : forall n, 'M[R]_n -> bool.
Hypothesis ic : forall A : 'M[R]_1, ~~ illcond A.
Variable W : Type.
Notation nd := (nd R).
Notation gauss := (gauss R).
Notation dfun := (dfun R).
Notation transform := (transform R W).
Variables (Kw T Y0 : Type) (t_zero : T) (tadd : T -> T -> T) (kw_tu0 : T -> Kw) (squeeze : Y0 -> nd).
Notation system := (system gauss dfun dfun Kw T).
Notation kw_at := (kw_at t_zero tadd kw_tu0).
Variables (p g : R) (k N : nat) (tm mm : transform) (A : approx R 1 k) (sy : system) (ys : seq Y0) (fa : option (seq Kw))
  (kws : nat -> Kw) (y0 : Y0) (w : W).
Let e := mk_estimator illcond tm mm (Nd2 (a_Q A)) (Nd2 (a_R A)) p g.
Hypothesis hN : (1 < N)%N.
Hypothesis hys : size ys = N.
Hypothesis hkw : forall i, (i < N)%N -> kw_at fa (sy_dt sy) i = Some (kws i).
Notation start := (node_system t_zero tadd kw_tu0 squeeze (iota 0 N) sy ys fa
    (@build_nodes gauss R dfun dfun nd W (@as_factor R) (@as_marginal R) 1 Kw T N 1 (Some e) None ([::], w)).1).1.
Lemma psetup_chain : pchain illcond p g N tm mm (fun i => sy_trans sy (kws i)) (sy_meas sy) A
  (fun i => squeeze (nth y0 ys i)) (sy_init sy) (weak (trace_min R)) start.1 (fun=> 0) (fun=> 0) (fun=> 0).
Proof.
have := @build_nodes_spec gauss R dfun dfun nd W (@as_factor R) (@as_marginal R) 1 Kw T N 1 (Some e) None [::] w hN.
case: build_nodes => -[h w'] r /= [_ hs _ _ hb].
have an : all (fun j => j < size (h, w').1)%N (iota 0 N) by apply/allP=> j; rewrite mem_iota hs !add0n.
have := @node_system_spec gauss R dfun dfun nd W Kw T Y0 t_zero tadd kw_tu0 squeeze (iota 0 N) sy ys fa (h, w') (iota_uniq _ _) an.
case: node_system => -[h1 w1] r1 /= [_ _ _ hl _] i hi.
have hfa : (N <= if fa is Some l then size l else size ys)%N.
  have hp : (N.-1 < N)%N by rewrite prednK // ltnW.
  have := hkw hp; rewrite /NodesFacts.kw_at; case: (fa) => [l|_]; last by rewrite hys.
  rewrite leqNgt => hd; apply/negP => hlt; move: hd; rewrite drop_oversize //.
  by rewrite -ltnS prednK // ltnW.
have hn : minn (size (iota 0 N)) (minn (size ys) (if fa is Some l then size l else size ys)) = N.
  by move: hfa; rewrite size_iota hys => hfa; rewrite (minn_idPl hfa) minnn.
have hy : ohead (drop i ys) = Some (nth y0 ys i) by rewrite (drop_nth y0) ?hys.
have := hl i _ _ _ _ (etrans _ (hb i hi)) hy (hkw hi); rewrite hn nth_iota // !add0n => /(_ hi erefl) h2.
eexists; split; first exact: h2.
- rewrite /pnode_at; case: i hi {hy h2} => [|i] hi /=.
    split; [split=> //|split=> //|split=> //|by split].
    by rewrite hN; case: (N) hN => [|[]].
  split; [split; [by rewrite add0n|]|split=> //|split=> //|by split].
  case: eqP => [ne|ne]; last case: ltnP => // hn2.
    by have -> : (i.+2 < N)%N = false by rewrite ne (ltn_predK hN) ltnn.
  by case: ne; apply/eqP; rewrite eqn_leq -ltnS (ltn_predK hN) hi -ltnS (ltn_predK hN).
- by case: (i == 0)%N; split; rewrite ?scaler0 ?addr0; do ?exact: nv_factor; exact: nv_marginal.
Qed.
End Setup.
