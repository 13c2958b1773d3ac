(** * Damped belief propagation converges to the smoother's messages *)
Set Warnings "-notation-overridden,-ambiguous-paths".
From mathcomp Require Import all_ssreflect all_algebra.
From Verif Require Import Base ND NDFacts PosDef LinAlg LinAlgFacts Gauss GaussFacts Nodes NodesFacts EPInv EPGauss
  Transforms TransformFacts Estimator EstimatorFacts EPEst SpecGauss SpecAssumed SpecBP SpecLimit LimitFacts EPValue EPChain EPSweep EPSetup EPPower EPBelief.
Set Implicit Arguments.
Unset Strict Implicit.
Unset Printing Implicit Defensive.
Import GRing.Theory Num.Theory Order.Theory.
Local Open Scope ring_scope.

Section Converge.
Variables (R : rcfType) (k : nat) (S : lgssm R 1 k) (y : nat -> 'cV[R]_k) (N : nat) (c g : R).
Hypotheses (c0 : 0 < c) (ok : noise_ok S) (ar : archimedean R) (g01 : 0 < g <= 1) (N0 : (0 < N)%N).
Notation V := ('M[R]_1 * 'M[R]_1)%type.
Notation msgs := (msgs R).
Notation A := (aff_model S).
Notation base := (weak c).
Notation fT := (fT A y c).
Notation zT := (zT A y c).
Notation bT := (bT N A y c).
Notation best := (best S y N c).
Let pmA : proper_model A N.
Proof. by have [n1 n2 n3] := ok; split=> // j hj; split; apply: affine_proper. Qed.

Definition tendsU (f : nat -> V) (u : V) := tends (fun n => (f n).1 0 0) (u.1 0 0) /\ tends (fun n => (f n).2 0 0) (u.2 0 0).
Lemma addV22 (u v : V) : (u + v).2 0 0 = u.2 0 0 + v.2 0 0. Proof. by rewrite mxE. Qed.
Lemma tendsU_const u : tendsU (fun=> u) u. Proof. by split; exact: tends_const. Qed.
Lemma tendsUD f u h v : tendsU f u -> tendsU h v -> tendsU (fun n => f n + h n) (u + v).
Proof.
move=> [f1 f2] [h1 h2]; split.
  by rewrite addV11; apply: tends_ext (tendsD f1 h1) => n; rewrite addV11.
by rewrite addV22; apply: tends_ext (tendsD f2 h2) => n; rewrite addV22.
Qed.
Lemma tendsU_sub f u (phi : nat -> nat) : (forall n, (n <= phi n)%N) -> tendsU f u -> tendsU (fun n => f (phi n)) u.
Proof.
move=> hp [h1 h2]; split.
  exact: (@tends_sub R (fun n => (f n).1 0 0) _ phi).
exact: (@tends_sub R (fun n => (f n).2 0 0) _ phi).
Qed.
Lemma tendsU_async (moves : nat -> bool) (e u : nat -> V) l : (forall n, exists2 m, (n <= m)%N & moves m) ->
  (forall n, e n.+1 = if moves n then mixed g (e n) (u n) else e n) -> tendsU u l -> tendsU e l.
Proof.
move=> hm he [h1 h2]; split; [apply: (tends_async ar g01 hm) h1 => n|apply: (tends_async ar g01 hm) h2 => n]; rewrite he; case: ifP => // _;
  rewrite /mixed.
  by rewrite addV11; congr (_ + _); rewrite !mxE.
by rewrite addV22; congr (_ + _); rewrite !mxE.
Qed.
Lemma left_scalar x i (u := base + left x i + obs x i) : let a := s_A S i.+1 0 0 in let p := (a * (u.1 0 0)^-1 * a + s_Q S 0 0)^-1 in
  (left_msg S c x i.+1).1 0 0 = p /\ (left_msg S c x i.+1).2 0 0 = p * (a * ((u.1 0 0)^-1 * u.2 0 0) + s_b S i.+1 0 0).
Proof.
cbv zeta; rewrite /left_msg -/u; move: u => u; rewrite /through; cbv zeta; set P := s_A S i.+1 *m _ *m _ + _.
have eP : P 0 0 = s_A S i.+1 0 0 * (u.1 0 0)^-1 * s_A S i.+1 0 0 + s_Q S 0 0 by rewrite /P add11 !mul11 inv11E tr11.
by split; [rewrite [LHS]/= inv11E eP|rewrite [LHS]/= mul11 inv11E eP add11 !mul11 inv11E].
Qed.
Lemma left_tends (X : nat -> msgs) i : (i < N)%N ->
  (forall j, (j < i)%N -> tendsU (fun n => left (X n) j) (fT j) /\ tendsU (fun n => obs (X n) j) (zT j)) ->
  tendsU (fun n => left_msg S c (X n) i) (fT i).
Proof.
move=> hi hX; rewrite -(left_best y c0 ok hi); case: i hi hX => [|i] hi hX; first exact: tendsU_const.
have [l1 l2] := hX i (ltnSn i); have [hu1 hu2] := tendsUD (tendsUD (tendsU_const base) l1) l2.
have [p1 p2 _] := best_pos y c0 ok (ltnW hi).
have u0 : 0 < (base + fT i + zT i).1 0 0 by rewrite -addrA; exact: (base_gt0 c0 (posD p1 p2)).
have [e1 e2] := left_scalar best i; rewrite /= in e1 e2.
have d0 : 0 < s_A S i.+1 0 0 * ((base + fT i + zT i).1 0 0)^-1 * s_A S i.+1 0 0 + s_Q S 0 0.
  by rewrite ltr_paddl ?(q_gt0 ok) // mulrAC -expr2 mulr_ge0 ?sqr_ge0 // invr_ge0 ltW.
have hp := tendsV (lt0r_neq0 d0) (tendsD (tendsM (tendsM (tends_const (s_A S i.+1 0 0)) (tendsV (lt0r_neq0 u0) hu1)) (tends_const (s_A S i.+1 0 0))) (tends_const (s_Q S 0 0))).
split.
  by rewrite e1; apply: tends_ext hp => n; have [-> _] := left_scalar (X n) i.
have hm := tendsD (tendsM (tends_const (s_A S i.+1 0 0)) (tendsM (tendsV (lt0r_neq0 u0) hu1) hu2)) (tends_const (s_b S i.+1 0 0)).
by rewrite e2; apply: tends_ext (tendsM hp hm) => n; have [_ ->] := left_scalar (X n) i.
Qed.
Lemma right_scalar x i (u := base + obs x i.+1 + right x i.+1) : let a := s_A S i.+1 0 0 in let d := (1 + s_Q S 0 0 * u.1 0 0)^-1 in
  (right_msg S c x i).1 0 0 = a ^+ 2 * u.1 0 0 * d /\ (right_msg S c x i).2 0 0 = a * (u.2 0 0 - s_b S i.+1 0 0 * u.1 0 0) * d.
Proof. by cbv zeta; rewrite /right_msg -/u; move: u => u; split; rewrite mxE eqxx mulr1n. Qed.
Lemma right_tends (X : nat -> msgs) i : (i.+1 < N)%N -> tendsU (fun n => obs (X n) i.+1) (zT i.+1) ->
  tendsU (fun n => right (X n) i.+1) (bT i.+1) -> tendsU (fun n => right_msg S c (X n) i) (bT i).
Proof.
move=> hi l1 l2; rewrite -(right_best y c0 ok hi); have [hu1 hu2] := tendsUD (tendsUD (tendsU_const base) l1) l2.
have [_ p2 p3] := best_pos y c0 ok hi.
have u0 : 0 < (base + zT i.+1 + bT i.+1).1 0 0 by rewrite -addrA; exact: (base_gt0 c0 (posD p2 p3)).
have d0 : 0 < 1 + s_Q S 0 0 * (base + zT i.+1 + bT i.+1).1 0 0 by rewrite ltr_spaddl ?ltr01 // mulr_ge0 // ltW // (q_gt0 ok).
move: (base + zT i.+1 + bT i.+1) (right_scalar best i : let a := s_A S i.+1 0 0 in let d := (1 + s_Q S 0 0 * (base + zT i.+1 + bT i.+1).1 0 0)^-1 in
  (right_msg S c best i).1 0 0 = a ^+ 2 * (base + zT i.+1 + bT i.+1).1 0 0 * d /\ (right_msg S c best i).2 0 0 = a * ((base + zT i.+1 + bT i.+1).2 0 0 - s_b S i.+1 0 0 * (base + zT i.+1 + bT i.+1).1 0 0) * d) hu1 hu2 u0 d0.
cbv zeta => v [e1 e2]; rewrite /tendsU e1 e2 => hu1 hu2 u0 d0.
have hs n := right_scalar (X n) i; cbv zeta in hs.
pose U n := base + obs (X n) i.+1 + right (X n) i.+1.
have {}hs n : (right_msg S c (X n) i).1 0 0 = s_A S i.+1 0 0 ^+ 2 * (U n).1 0 0 * (1 + s_Q S 0 0 * (U n).1 0 0)^-1 /\
  (right_msg S c (X n) i).2 0 0 = s_A S i.+1 0 0 * ((U n).2 0 0 - s_b S i.+1 0 0 * (U n).1 0 0) * (1 + s_Q S 0 0 * (U n).1 0 0)^-1 := hs n.
have {}hu1 : tends (fun n => (U n).1 0 0) (v.1 0 0) := hu1; have {}hu2 : tends (fun n => (U n).2 0 0) (v.2 0 0) := hu2.
clearbody U; move: (s_A S i.+1 0 0) (s_Q S 0 0) (s_b S i.+1 0 0) d0 hs => a q b d0 hs.
have hd := tendsV (lt0r_neq0 d0) (tendsD (tends_const 1) (tendsM (tends_const q) hu1)).
split.
  by apply: (tends_ext _ (tendsM (tendsM (tends_const (a ^+ 2)) hu1) hd)) => n; have [-> _] := hs n.
by apply: (tends_ext _ (tendsM (tendsM (tends_const a) (tendsB hu2 (tendsM (tends_const b) hu1))) hd)) => n; have [_ ->] := hs n.
Qed.

(** a fair sequence of message updates *)
Variables (s : nat -> msg) (x : msgs).
Definition after t := bp_run S y N c g (mkseq s t) x.
Hypotheses (often : forall m t, (match m with Left i | Obs i | Right i => i end < N)%N -> exists2 t' : nat, (t <= t')%N & s t' = m) (hx : ends N x).
Lemma afterS t : after t.+1 = bp_step S y N c g (after t) (s t).
Proof. by rewrite /after /mkseq -addn1 iotaD map_cat /bp_run foldl_cat. Qed.
Lemma after_ends t : ends N (after t).
Proof. by elim: t => [|t IH] //; rewrite afterS; exact: ends_step. Qed.
Lemma fwd_tends i : (i < N)%N -> tendsU (fun t => left (after t) i) (fT i) /\ tendsU (fun t => obs (after t) i) (zT i).
Proof.
elim/ltn_ind: i => i IH hi; split.
  apply: (tendsU_async (moves := fun t => if s t is Left j then i == j else false) (u := fun t => left_msg S c (after t) i)) => [t|t|].
  - by have [t' ht e] := often (m := Left i) t hi; exists t' => //; rewrite e.
  - rewrite afterS; case: (s t) => j //=; last by case: ifP.
    by rewrite /toward /mixed; case: eqP => // ->.
  by apply: (left_tends (X := after) hi) => j hj; apply: IH => //; exact: ltn_trans hi.
apply: (tendsU_async (moves := fun t => if s t is Obs j then i == j else false) (u := fun=> obs_msg S y i)) => [t|t|].
- by have [t' ht e] := often (m := Obs i) t hi; exists t' => //; rewrite e.
- rewrite afterS; case: (s t) => j //=; last by case: ifP.
  by rewrite /toward /mixed; case: eqP => // ->.
by rewrite (obs_best y c0 ok hi); exact: tendsU_const.
Qed.
Lemma back_tends d i : (i + d.+1 = N)%N -> tendsU (fun t => right (after t) i) (bT i).
Proof.
elim: d i => [|d IH] i hd; have hi : (i < N)%N by rewrite -hd -addSnnS leq_addr.
  have ei : i = N.-1 by rewrite -hd addn1.
  rewrite ei (right_last S y c N0); have [h1 h2] := tendsU_const 0.
  by split; [apply: tends_ext h1|apply: tends_ext h2] => t; rewrite after_ends.
have hi1 : (i.+1 < N)%N by rewrite -hd addnS ltnS addnS ltnS leq_addr.
apply: (tendsU_async (moves := fun t => if s t is Right j then i == j else false) (u := fun t => right_msg S c (after t) i)) => [t|t|].
- by have [t' ht e] := often (m := Right i) t hi; exists t' => //; rewrite e.
- rewrite afterS; case: (s t) => j //=; case: ifP => hj /=; rewrite /toward /mixed; case: eqP => // ej; first by rewrite ej.
  by move: hj; rewrite -ej hi1.
have [_ ho] := fwd_tends hi1.
exact: right_tends hi1 ho (IH i.+1 (etrans (addSnnS _ _) hd)).
Qed.
Lemma belief_tends i : (i < N)%N -> tendsU (fun t => belief c (after t) i) (toV (a_smooth A y c N i.+1)).
Proof.
move=> hi; rewrite -(belief_best (x := best) hi (And3 erefl erefl erefl)); have [h1 h2] := fwd_tends hi.
have h3 := back_tends (d := (N - i.+1)%N) (etrans (addnS _ _) (subnKC hi)).
exact: tendsUD (tendsUD (tendsUD (tendsU_const base) h1) h2) h3.
Qed.
(** mean and variance *)
Lemma moments_tends i : (i < N)%N ->
  tends (fun t => ((belief c (after t) i).1 0 0)^-1 * (belief c (after t) i).2 0 0) ((a_smooth A y c N i.+1).1 0 0) /\
  tends (fun t => ((belief c (after t) i).1 0 0)^-1) ((a_smooth A y c N i.+1).2 0 0).
Proof.
move=> hi; have [h1 h2] := belief_tends hi; have ps := smooth_pd y (ltW c0) pmA hi; have /posdef11 p0 := ps.
move: h1 h2; rewrite /toV [X in tends _ X -> _]/= inv11E [X in _ -> tends _ X -> _]/= mul11 inv11E => h1 h2.
have n0 : ((a_smooth A y c N i.+1).2 0 0)^-1 != 0 by rewrite invr_eq0 lt0r_neq0.
have hv := tendsV n0 h1; rewrite invrK in hv; split=> //.
by have := tendsM hv h2; rewrite mulrA divff ?lt0r_neq0 // mul1r.
Qed.
End Converge.
