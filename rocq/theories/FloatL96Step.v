(** * The Lorenz model in double precision: rounding of one Runge-Kutta step *)
Set Warnings "-notation-overridden,-ambiguous-paths".
From Coq Require Import ZArith Reals Lra Lia Psatz.
From Flocq Require Import Core IEEE754.BinarySingleNaN.
From Verif Require Import Float FloatSpec FloatFacts FloatMetrics FloatMetricsSpec FloatMetricsFacts FloatMetricsErr FloatL96 FloatL96Spec FloatL96Facts FloatL96Num.
Local Open Scope R_scope.

(** a double within [e] roundings of [s] of a number of size at most [a] times [s] *)
Definition nr (s a e : R) (f : f64) (r : R) : Prop := fin f = true /\ Rabs r <= a * s /\ Rabs (val f - r) <= e * (u * s).
Definition scale (s : R) : Prop := bpow radix2 (-900) <= s <= bpow radix2 900.
Definition mild (t : R) : Prop := 0 <= t <= 1000000000000000.

Lemma u_mild : u * 1000000000000000 <= / 8.
Proof.
unfold u. change (bpow radix2 (-53)) with (/ IZR 9007199254740992). apply Rmult_le_reg_l with (IZR 9007199254740992); [lra|].
rewrite <- Rmult_assoc, Rinv_r by lra. lra.
Qed.
Lemma scale_pos s : scale s -> 0 < s.
Proof. intros [h _]. apply Rlt_le_trans with (2 := h). apply bpow_gt_0. Qed.
Lemma eta_scale s : scale s -> eta_min <= u * (u * s).
Proof.
intros [h _]. apply Rle_trans with (u * (u * bpow radix2 (-900))).
- unfold eta_min, u. rewrite <- !bpow_plus. apply bpow_le. lia.
- pose proof u_small. apply Rmult_le_compat_l; [lra|]. apply Rmult_le_compat_l; lra.
Qed.
Lemma rnd_close s t x : scale s -> mild t -> Rabs x <= (t + 1) * s ->
  Rabs (rnd x - x) <= (t + 2) * (u * s) /\ Rabs (rnd x) < big.
Proof.
intros hs ht h. destruct (any_rel x) as (e & d & b1 & b2 & r). pose proof (eta_scale s hs) as et. pose proof (scale_pos s hs) as sp.
pose proof u_small as us. unfold mild in ht.
assert (q : Rabs (rnd x - x) <= (t + 2) * (u * s)).
{ rewrite r. replace (x * (1 + e) + d - x) with (e * x + d) by ring. apply Rle_trans with (1 := Rabs_triang _ _). rewrite Rabs_mult.
  assert (Rabs e * Rabs x <= u * ((t + 1) * s)) by (apply Rmult_le_compat; auto using Rabs_pos).
  assert (u * (u * s) <= 1 * (u * s)) by (apply Rmult_le_compat_r; nra). nra. }
split; [assumption|]. replace (rnd x) with ((rnd x - x) + x) by ring. apply Rle_lt_trans with (1 := Rabs_triang _ _).
apply Rle_lt_trans with (bpow radix2 60 * s).
- change (bpow radix2 60) with (IZR 1152921504606846976). assert (u * s <= s) by nra.
  assert ((t + 2) * (u * s) <= (t + 2) * s) by (apply Rmult_le_compat_l; lra). nra.
- apply Rle_lt_trans with (bpow radix2 60 * bpow radix2 900).
  + apply Rmult_le_compat_l; [apply bpow_ge_0|]. apply hs.
  + rewrite <- bpow_plus. now apply bpow_lt.
Qed.
Lemma nr_weaken s a e a' e' f r : 0 < s -> a <= a' -> e <= e' -> nr s a e f r -> nr s a' e' f r.
Proof.
intros hs h1 h2 (h3 & h4 & h5). pose proof u_small. split; [assumption|]. split; [nra|]. assert (0 <= u * s) by nra. nra.
Qed.
(** an operation whose exact result on the doubles is [x] and on the numbers is [r] *)
Lemma nr_round s a e x r f : scale s -> mild a -> mild e -> Rabs r <= a * s -> Rabs (x - r) <= e * (u * s) ->
  (Rabs (rnd x) < big -> val f = rnd x /\ fin f = true) -> nr s a (e + a + 2) f r.
Proof.
intros hs ha he h1 h2 h3. pose proof (scale_pos s hs) as sp. pose proof u_small as us. pose proof u_mild as um. unfold mild in *.
assert (hx : Rabs x <= (a + 1) * s).
{ replace x with ((x - r) + r) by ring. apply Rle_trans with (1 := Rabs_triang _ _).
  assert (e * u <= 1) by nra. assert (e * (u * s) <= 1 * s) by (rewrite <- Rmult_assoc; apply Rmult_le_compat_r; lra). lra. }
destruct (rnd_close s a x hs ha hx) as [q b]. destruct (h3 b) as [v ff]. split; [assumption|]. split; [assumption|].
rewrite v. replace (rnd x - r) with ((rnd x - x) + (x - r)) by ring. apply Rle_trans with (1 := Rabs_triang _ _). lra.
Qed.
Lemma nr_add s a e a' e' x r y t : scale s -> mild (a + a') -> mild (e + e') -> nr s a e x r -> nr s a' e' y t ->
  nr s (a + a') (e + e' + (a + a') + 2) (fadd x y) (r + t).
Proof.
intros hs ha he (f1 & b1 & c1) (f2 & b2 & c2). apply nr_round with (val x + val y); try assumption.
- apply Rle_trans with (1 := Rabs_triang _ _). lra.
- replace (val x + val y - (r + t)) with ((val x - r) + (val y - t)) by ring. apply Rle_trans with (1 := Rabs_triang _ _). lra.
- now apply fadd_round.
Qed.
Lemma nr_opp s a e x r : nr s a e x r -> nr s a e (fopp x) (- r).
Proof.
intros (f & b & c). split; [now rewrite fin_opp|]. split; [now rewrite Rabs_Ropp|]. rewrite val_opp. replace (- val x - - r) with (- (val x - r)) by ring.
now rewrite Rabs_Ropp.
Qed.
Lemma nr_sub s a e a' e' x r y t : scale s -> mild (a + a') -> mild (e + e') -> nr s a e x r -> nr s a' e' y t ->
  nr s (a + a') (e + e' + (a + a') + 2) (fsub x y) (r - t).
Proof. intros hs ha he h1 h2. rewrite <- add_opp. apply nr_add; try assumption. now apply nr_opp. Qed.
Lemma nr_mul s s' a e a' e' x r y t : 0 < s -> 0 < s' -> scale (s * s') -> 0 <= a -> 0 <= a' -> 0 <= e -> 0 <= e' ->
  mild (a * a') -> mild (e * a' + a * e' + 1) -> mild (e * e') -> nr s a e x r -> nr s' a' e' y t ->
  nr (s * s') (a * a') (e * a' + a * e' + 1 + a * a' + 2) (fmul x y) (r * t).
Proof.
intros p1 p2 hs a0 a0' e0 e0' ha he hee (f1 & b1 & c1) (f2 & b2 & c2). pose proof u_small as us. pose proof u_mild as um.
assert (us1 : 0 < u * s) by nra. assert (us2 : 0 < u * s') by nra.
apply nr_round with (val x * val y); try assumption.
- rewrite Rabs_mult. replace (a * a' * (s * s')) with ((a * s) * (a' * s')) by ring. apply Rmult_le_compat; auto using Rabs_pos.
- replace (val x * val y - r * t) with ((val x - r) * t + (r * (val y - t) + (val x - r) * (val y - t))) by ring.
  apply Rle_trans with (1 := Rabs_triang _ _).
  assert (q1 : Rabs ((val x - r) * t) <= (e * (u * s)) * (a' * s')) by (rewrite Rabs_mult; apply Rmult_le_compat; auto using Rabs_pos).
  assert (q2 : Rabs (r * (val y - t)) <= (a * s) * (e' * (u * s'))) by (rewrite Rabs_mult; apply Rmult_le_compat; auto using Rabs_pos).
  assert (q3 : Rabs ((val x - r) * (val y - t)) <= (e * (u * s)) * (e' * (u * s'))) by (rewrite Rabs_mult; apply Rmult_le_compat; auto using Rabs_pos).
  pose proof (Rabs_triang (r * (val y - t)) ((val x - r) * (val y - t))) as tr.
  assert (q4 : (e * (u * s)) * (e' * (u * s')) <= 1 * (u * (s * s'))).
  { replace ((e * (u * s)) * (e' * (u * s'))) with (((e * e') * u) * (u * (s * s'))) by ring. apply Rmult_le_compat_r; [|unfold mild in hee; nra].
    assert (0 < s * s') by nra. nra. }
  replace ((e * a' + a * e' + 1) * (u * (s * s'))) with ((e * (u * s)) * (a' * s') + (a * s) * (e' * (u * s')) + 1 * (u * (s * s'))) by ring. lra.
- now apply fmul_round.
Qed.
Lemma nr_half s a e x r : scale s -> mild (a / 2) -> mild (e / 2) -> nr s a e x r -> nr s (a / 2) (e / 2 + a / 2 + 2) (fdiv x (fint 2)) (r / 2).
Proof.
intros hs ha he (f1 & b1 & c1). apply nr_round with (val x / val (fint 2)); try assumption.
- unfold Rdiv at 1. rewrite Rabs_mult, (Rabs_right (/ 2)) by lra. lra.
- rewrite val_two. replace (val x / 2 - r / 2) with ((val x - r) * / 2) by field. rewrite Rabs_mult, (Rabs_right (/ 2)) by lra. lra.
- apply fdiv_round; [assumption|]. rewrite val_two. lra.
Qed.
Lemma nr_exact s a x : Rabs (val x) <= a * s -> fin x = true -> nr s a 0 x (val x).
Proof. intros h f. split; [assumption|]. split; [assumption|]. rewrite Rminus_eq_0, Rabs_R0. lra. Qed.
Lemma scale1 : scale 1.
Proof. change 1 with (bpow radix2 0). split; apply bpow_le; lia. Qed.
Lemma nr_sixth : nr 1 (/ 6) 3 (fdiv (fint 1) (fint 6)) (/ 6).
Proof.
assert (v6 : val (fint 6) = 6) by now apply small_int. assert (v1 : val (fint 1) = 1) by now apply small_int.
apply nr_weaken with (/ 6) (0 + / 6 + 2); try lra. apply nr_round with (val (fint 1) / val (fint 6)); unfold mild; try lra.
- exact scale1.
- rewrite Rabs_right; lra.
- rewrite v1, v6. replace (1 / 6 - / 6) with 0 by field. rewrite Rabs_R0. lra.
- intros h. apply fdiv_round; [reflexivity|rewrite v6; lra|assumption].
Qed.
Lemma nr_two : nr 1 2 0 (fint 2) 2.
Proof. split; [reflexivity|]. split; [rewrite Rabs_right; lra|]. rewrite val_two, Rminus_eq_0, Rabs_R0. lra. Qed.

Section Step.
Variables (dt F : f64) (w : Z -> f64) (M : R).
Hypothesis hM : 1 <= M <= bpow radix2 400.
Hypothesis hdt : fin dt = true.
Hypothesis hdtM : Rabs (val dt) * M <= 1.
Hypothesis hF : fin F = true.
Hypothesis hFM : Rabs (val F) <= M.
Hypothesis hw : forall z, fin (w z) = true.
Hypothesis hwM : forall z, Rabs (val (w z)) <= M.
Notation h := (val dt).
Notation W := (fun z => val (w z)).
Notation G := (field (val F)).

Lemma sM : scale M.
Proof.
split; [apply Rle_trans with 1; [|lra]; change 1 with (bpow radix2 0); apply bpow_le; lia|]. apply Rle_trans with (1 := proj2 hM). apply bpow_le. lia.
Qed.
Lemma sMM : scale (M * M).
Proof.
split; [apply Rle_trans with 1; [|nra]; change 1 with (bpow radix2 0); apply bpow_le; lia|].
apply Rle_trans with (bpow radix2 400 * bpow radix2 400); [|rewrite <- bpow_plus; apply bpow_le; lia]. apply Rmult_le_compat; lra.
Qed.
Lemma sI : scale (/ M).
Proof.
split.
- apply Rle_trans with (/ bpow radix2 400); [rewrite <- bpow_opp; apply bpow_le; lia|]. apply Rinv_le; lra.
- apply Rle_trans with 1; [|change 1 with (bpow radix2 0); apply bpow_le; lia]. rewrite <- Rinv_1. apply Rinv_le; lra.
Qed.
Lemma nr_dt : nr (/ M) 1 0 dt h.
Proof. apply nr_exact; [|assumption]. rewrite Rmult_1_l. apply Rmult_le_reg_r with M; [lra|]. rewrite Rinv_l by lra. assumption. Qed.
Lemma nr_w z : nr M 1 0 (w z) (val (w z)).
Proof. apply nr_exact; [|apply hw]. rewrite Rmult_1_l. apply hwM. Qed.
Lemma nr_F : nr M 1 0 F (val F).
Proof. apply nr_exact; [|assumption]. now rewrite Rmult_1_l. Qed.
Lemma nr_square a e f r : 0 <= a -> 0 <= e -> nr M a e f r -> nr (M * M) a e f r.
Proof.
intros a0 e0 (h1 & h2 & h3). pose proof u_small. split; [assumption|]. assert (M <= M * M) by nra. split; [nra|].
assert (u * M <= u * (M * M)) by (apply Rmult_le_compat_l; lra). nra.
Qed.
Lemma IMM : / M * (M * M) = M. Proof. field. lra. Qed.
(** the derivative *)
Lemma nr_model v (V : Z -> R) a e z : 1 <= a -> 0 <= e -> a <= 1000 -> e <= 1000000 -> (forall y, nr M a e (v y) (V y)) ->
  nr (M * M) (2 * (a * a) + a + 1) (4 * (a * e) + 8 * (a * a) + 4 * a + e + 8) (zmodel F v z) (G V z).
Proof.
intros a1 e0 a2 e1 hv. pose proof sM as s1. pose proof sMM as s2. assert (P : 0 < M) by lra. assert (PP : 0 < M * M) by nra.
assert (aa : 1 <= a * a <= 1000000) by nra. assert (ae : 0 <= a * e <= 1000000000) by nra. assert (ee : 0 <= e * e <= 1000000000000) by nra.
unfold zmodel, g, field, slope. replace (z - 1)%Z with (z + -1)%Z by lia.
pose proof (nr_sub M a e a e _ _ _ _ s1 ltac:(unfold mild; lra) ltac:(unfold mild; lra) (hv (z + 2)%Z) (hv (z + -1)%Z)) as d1.
apply nr_weaken with (a' := 2 * a) (e' := 2 * e + 2 * a + 2) in d1; [|assumption|lra|lra].
pose proof (nr_mul M M a e (2 * a) (2 * e + 2 * a + 2) _ _ _ _ P P s2 ltac:(lra) ltac:(lra) ltac:(lra) ltac:(lra) ltac:(unfold mild; nra) ltac:(unfold mild; nra) ltac:(unfold mild; nra) (nr_opp _ _ _ _ _ (hv (z + 1)%Z)) d1) as d2.
apply nr_weaken with (a' := 2 * (a * a)) (e' := 4 * (a * e) + 4 * (a * a) + 2 * a + 3) in d2; [|assumption|lra|lra].
pose proof (nr_sub (M * M) (2 * (a * a)) (4 * (a * e) + 4 * (a * a) + 2 * a + 3) a e _ _ _ _ s2 ltac:(unfold mild; lra) ltac:(unfold mild; lra) d2 (nr_square a e _ _ ltac:(lra) e0 (hv z))) as d3.
apply nr_weaken with (a' := 2 * (a * a) + a) (e' := 4 * (a * e) + 6 * (a * a) + 3 * a + e + 5) in d3; [|assumption|lra|lra].
pose proof (nr_add (M * M) (2 * (a * a) + a) (4 * (a * e) + 6 * (a * a) + 3 * a + e + 5) 1 0 _ _ _ _ s2 ltac:(unfold mild; lra) ltac:(unfold mild; lra) d3 (nr_square 1 0 _ _ ltac:(lra) ltac:(lra) nr_F)) as d4.
apply nr_weaken with (4 := d4); lra.
Qed.
Lemma nr_move k K a e z : 0 <= a <= 1000000 -> 0 <= e <= 1000000 -> nr (M * M) a e (k z) (K z) ->
  nr M (a / 2 + 1) (e / 2 + 3 / 2 * a + 7) (zhalf dt w k z) (val (w z) + h / 2 * K z) /\
  nr M (a + 1) (e + 2 * a + 6) (zfull dt w k z) (val (w z) + h * K z).
Proof.
intros ha he hk. pose proof sM as s1. assert (P : 0 < M) by lra. assert (PP : 0 < M * M) by nra. assert (IP : 0 < / M) by now apply Rinv_0_lt_compat.
assert (s3 : scale (/ M * (M * M))) by now rewrite IMM.
pose proof (nr_mul (/ M) (M * M) 1 0 a e _ _ _ _ IP PP s3 ltac:(lra) ltac:(lra) ltac:(lra) ltac:(lra) ltac:(unfold mild; lra) ltac:(unfold mild; lra) ltac:(unfold mild; lra) nr_dt hk) as d1.
rewrite IMM in d1. apply nr_weaken with (a' := a) (e' := e + a + 3) in d1; [|assumption|lra|lra]. unfold zhalf, zfull. split.
- pose proof (nr_half M a (e + a + 3) _ _ s1 ltac:(unfold mild; lra) ltac:(unfold mild; lra) d1) as d2.
  pose proof (nr_add M 1 0 (a / 2) ((e + a + 3) / 2 + a / 2 + 2) _ _ _ _ s1 ltac:(unfold mild; lra) ltac:(unfold mild; lra) (nr_w z) d2) as d3.
  replace (h / 2 * K z) with (h * K z / 2) by field. apply nr_weaken with (4 := d3); lra.
- pose proof (nr_add M 1 0 a (e + a + 3) _ _ _ _ s1 ltac:(unfold mild; lra) ltac:(unfold mild; lra) (nr_w z) d1) as d3. apply nr_weaken with (4 := d3); lra.
Qed.
Definition A : Z -> R := G W.
Definition B : Z -> R := G (fun z => W z + h / 2 * A z).
Definition C : Z -> R := G (fun z => W z + h / 2 * B z).
Definition D : Z -> R := G (fun z => W z + h * C z).
Lemma nr_k1 z : nr (M * M) 4 20 (k1 dt F w z) (A z).
Proof. assert (0 < M * M) by nra. apply nr_weaken with (4 := nr_model w W 1 0 z ltac:(lra) ltac:(lra) ltac:(lra) ltac:(lra) nr_w); lra. Qed.
Lemma nr_k2 z : nr (M * M) 22 406 (k2 dt F w z) (B z).
Proof.
assert (0 < M * M) by nra. assert (P : 0 < M) by lra. unfold k2, B.
assert (q : forall y, nr M 3 24 (zhalf dt w (k1 dt F w) y) (W y + h / 2 * A y)).
{ intros y. destruct (nr_move (k1 dt F w) A 4 20 y ltac:(lra) ltac:(lra) (nr_k1 y)) as [d _]. apply nr_weaken with (4 := d); lra. }
apply nr_weaken with (4 := nr_model _ _ 3 24 z ltac:(lra) ltac:(lra) ltac:(lra) ltac:(lra) q); lra.
Qed.
Lemma nr_k3 z : nr (M * M) 301 14000 (k3 dt F w z) (C z).
Proof.
assert (0 < M * M) by nra. assert (P : 0 < M) by lra. unfold k3, C.
assert (q : forall y, nr M 12 250 (zhalf dt w (k2 dt F w) y) (W y + h / 2 * B y)).
{ intros y. destruct (nr_move (k2 dt F w) B 22 406 y ltac:(lra) ltac:(lra) (nr_k2 y)) as [d _]. apply nr_weaken with (4 := d); lra. }
apply nr_weaken with (4 := nr_model _ _ 12 250 z ltac:(lra) ltac:(lra) ltac:(lra) ltac:(lra) q); lra.
Qed.
Lemma nr_k4 z : nr (M * M) 183000 18500000 (k4 dt F w z) (D z).
Proof.
assert (0 < M * M) by nra. assert (P : 0 < M) by lra. unfold k4, D.
assert (q : forall y, nr M 302 14608 (zfull dt w (k3 dt F w) y) (W y + h * C y)).
{ intros y. destruct (nr_move (k3 dt F w) C 301 14000 y ltac:(lra) ltac:(lra) (nr_k3 y)) as [_ d]. apply nr_weaken with (4 := d); lra. }
apply nr_weaken with (4 := nr_model _ _ 302 14608 z ltac:(lra) ltac:(lra) ltac:(lra) ltac:(lra) q); lra.
Qed.
Lemma nr_twice (k : Z -> f64) (K : Z -> R) a e z : 0 <= a <= 1000000 -> 0 <= e <= 1000000 -> nr (M * M) a e (k z) (K z) -> nr (M * M) (2 * a) (2 * e + 2 * a + 3) (fmul (fint 2) (k z)) (2 * K z).
Proof.
intros ha he hk. assert (PP : 0 < M * M) by nra. assert (s3 : scale (1 * (M * M))) by (rewrite Rmult_1_l; exact sMM).
pose proof (nr_mul 1 (M * M) 2 0 a e _ _ _ _ Rlt_0_1 PP s3 ltac:(lra) ltac:(lra) ltac:(lra) ltac:(lra) ltac:(unfold mild; lra) ltac:(unfold mild; lra) ltac:(unfold mild; lra) nr_two hk) as d1.
rewrite Rmult_1_l in d1. apply nr_weaken with (4 := d1); lra.
Qed.
Lemma nr_step z : nr M 30610 6000000 (zstep dt F w z) (rk4 G h W z).
Proof.
pose proof sM as s1. pose proof sMM as s2. pose proof sI as s4. assert (P : 0 < M) by lra. assert (PP : 0 < M * M) by nra. assert (IP : 0 < / M) by now apply Rinv_0_lt_compat.
pose proof (nr_twice (k2 dt F w) B 22 406 z ltac:(lra) ltac:(lra) (nr_k2 z)) as e2. pose proof (nr_twice (k3 dt F w) C 301 14000 z ltac:(lra) ltac:(lra) (nr_k3 z)) as e3.
apply nr_weaken with (a' := 44) (e' := 859) in e2; [|assumption|lra|lra]. apply nr_weaken with (a' := 602) (e' := 28605) in e3; [|assumption|lra|lra].
pose proof (nr_add (M * M) 4 20 44 859 _ _ _ _ s2 ltac:(unfold mild; lra) ltac:(unfold mild; lra) (nr_k1 z) e2) as f2.
apply nr_weaken with (a' := 48) (e' := 929) in f2; [|assumption|lra|lra].
pose proof (nr_add (M * M) 48 929 602 28605 _ _ _ _ s2 ltac:(unfold mild; lra) ltac:(unfold mild; lra) f2 e3) as f3.
apply nr_weaken with (a' := 650) (e' := 30186) in f3; [|assumption|lra|lra].
pose proof (nr_add (M * M) 650 30186 183000 18500000 _ _ _ _ s2 ltac:(unfold mild; lra) ltac:(unfold mild; lra) f3 (nr_k4 z)) as f4.
apply nr_weaken with (a' := 183650) (e' := 19000000) in f4; [|assumption|lra|lra].
assert (s3 : scale (1 * / M)) by now rewrite Rmult_1_l.
pose proof (nr_mul 1 (/ M) (/ 6) 3 1 0 _ _ _ _ Rlt_0_1 IP s3 ltac:(lra) ltac:(lra) ltac:(lra) ltac:(lra) ltac:(unfold mild; lra) ltac:(unfold mild; lra) ltac:(unfold mild; lra) nr_sixth nr_dt) as g1.
rewrite Rmult_1_l in g1. apply nr_weaken with (a' := / 6) (e' := 7) in g1; [|assumption|lra|lra].
assert (s5 : scale (/ M * (M * M))) by now rewrite IMM.
pose proof (nr_mul (/ M) (M * M) (/ 6) 7 183650 19000000 _ _ _ _ IP PP s5 ltac:(lra) ltac:(lra) ltac:(lra) ltac:(lra) ltac:(unfold mild; lra) ltac:(unfold mild; lra) ltac:(unfold mild; lra) g1 f4) as g2.
rewrite IMM in g2. apply nr_weaken with (a' := 30609) (e' := 5000000) in g2; [|assumption|lra|lra].
pose proof (nr_add M 1 0 30609 5000000 _ _ _ _ s1 ltac:(unfold mild; lra) ltac:(unfold mild; lra) (nr_w z) g2) as g3.
replace (rk4 G h W z) with (W z + / 6 * h * (A z + 2 * B z + 2 * C z + D z)); [|unfold rk4; fold A; fold B; fold C; fold D; field].
apply nr_weaken with (4 := g3); lra.
Qed.
End Step.

Section Ring.
Variable n : nat.
Hypothesis pos : (0 < n)%nat.
Lemma step_error dt F x i z M : 1 <= M <= bpow radix2 400 -> ordinary dt -> Rabs (real dt) * M <= 1 -> ordinary F -> Rabs (real F) <= M ->
  (forall j, (j < n)%nat -> ordinary (x i j) /\ Rabs (real (x i j)) <= M) ->
  ordinary (lstep n dt F x i (column n z)) /\
  Rabs (real (lstep n dt F x i (column n z)) - rk4 (field (real F)) (real dt) (fun z => real (x i (column n z))) z) <= bpow radix2 (-30) * M.
Proof.
intros hM h1 h2 h3 h4 h5. rewrite (lstep_row n pos).
destruct (nr_step dt F (row n x i) M hM h1 h2 h3 h4) with (z := z) as (q1 & _ & q2).
- intros y. apply h5. now apply column_lt.
- intros y. apply h5. now apply column_lt.
- split; [exact q1|]. apply Rle_trans with (1 := q2). unfold u. change (bpow radix2 (-30)) with (bpow radix2 (23 + -53)). rewrite bpow_plus, Rmult_assoc.
  apply Rmult_le_compat_r; [apply Rmult_le_pos; [apply bpow_ge_0|lra]|]. change (bpow radix2 23) with (IZR 8388608). lra.
Qed.
End Ring.
