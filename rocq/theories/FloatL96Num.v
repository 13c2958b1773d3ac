(** * The Lorenz model in double precision: equilibrium, overflow and rounding *)
Set Warnings "-notation-overridden,-ambiguous-paths".
From Coq Require Import ZArith Reals Lra Lia Psatz.
From Flocq Require Import Core IEEE754.BinarySingleNaN.
From Verif Require Import Float FloatSpec FloatFacts FloatMetrics FloatMetricsSpec FloatMetricsFacts FloatMetricsErr FloatL96 FloatL96Spec FloatL96Facts.
Local Open Scope R_scope.

(** ** zeros *)
Lemma mul_zero x s : fin x = true -> exists t, fmul x (B754_zero s) = B754_zero t.
Proof. destruct x as [b|b| |b m e h]; try discriminate; intros _; eexists; reflexivity. Qed.
Lemma half_zero s : fdiv (B754_zero s) (fint 2) = B754_zero s.
Proof. destruct s; apply B2SF_inj; vm_compute; reflexivity. Qed.
Lemma add_zero x s : real x <> 0 -> fadd x (B754_zero s) = x.
Proof. destruct x as [b|b| |b m e h]; cbn; intros p; try (now destruct p); reflexivity. Qed.
Lemma zero_sub x s : real x <> 0 -> fsub (B754_zero s) x = fopp x.
Proof. destruct x as [b|b| |b m e h]; cbn; intros p; try (now destruct p); reflexivity. Qed.
Lemma add_opp x y : fadd x (fopp y) = fsub x y.
Proof. destruct x as [s|s| |s m e h], y as [t|t| |t m' e' h']; reflexivity. Qed.
Lemma opp_add x : fin x = true -> fadd (fopp x) x = fzero.
Proof. intros h. rewrite fadd_comm, add_opp. now apply fsub_self. Qed.
Lemma fin_opp x : fin (fopp x) = fin x. Proof. now destruct x. Qed.
Lemma val_opp x : val (fopp x) = - val x. Proof. apply B2R_Bopp. Qed.
Lemma nz_fin x : real x <> 0 -> fin x = true.
Proof. destruct x as [b|b| |b m e h]; cbn; intros p; try (now destruct p); reflexivity. Qed.

(** ** equilibrium *)
Section Rest.
Variables (dt F : f64).
Hypothesis hdt : ordinary dt.
Hypothesis hF : real F <> 0.
Lemma rest_g : g F F F F F = fzero.
Proof.
unfold g. pose proof (nz_fin F hF) as f. rewrite (fsub_self F f).
destruct (mul_zero (fopp F) false) as [t e]; [now rewrite fin_opp|]. change fzero with (B754_zero false : f64) at 1. rewrite e.
rewrite zero_sub by assumption. now apply opp_add.
Qed.
Lemma rest_model w z : (forall y, w y = F) -> zmodel F w z = fzero.
Proof. intros h. unfold zmodel. rewrite !h. exact rest_g. Qed.
Lemma rest_half w k z : (forall y, w y = F) -> (forall y, k y = fzero) -> zhalf dt w k z = F.
Proof. intros h hk. unfold zhalf. rewrite h, hk. destruct (mul_zero dt false hdt) as [t e]. unfold fzero. rewrite e, half_zero. now apply add_zero. Qed.
Lemma rest_full w k z : (forall y, w y = F) -> (forall y, k y = fzero) -> zfull dt w k z = F.
Proof. intros h hk. unfold zfull. rewrite h, hk. destruct (mul_zero dt false hdt) as [t e]. unfold fzero. rewrite e. now apply add_zero. Qed.
End Rest.

(** ** sizes *)
Lemma up_weaken s t x : (s <= t)%Z -> up_to s x -> up_to t x.
Proof. intros h [f b]. split; [assumption|]. apply Rle_trans with (1 := b). now apply bpow_le. Qed.
Lemma rnd_up t r : (-1074 <= t)%Z -> Rabs r <= bpow radix2 t -> Rabs (rnd r) <= bpow radix2 t.
Proof. intros h b. rewrite rnd_abs. apply rnd_le in b. now rewrite (rnd_id (bpow radix2 t)) in b by now apply repr_pow. Qed.
Lemma under_big t r : (t < 1024)%Z -> r <= bpow radix2 t -> r < big.
Proof. intros h b. apply Rle_lt_trans with (1 := b). now apply bpow_lt. Qed.
Lemma double_pow t : bpow radix2 t + bpow radix2 t = bpow radix2 (t + 1).
Proof. rewrite bpow_plus. change (bpow radix2 1) with 2. ring. Qed.
Lemma up_add t x y : (-1074 <= t < 1023)%Z -> up_to t x -> up_to t y -> up_to (t + 1) (fadd x y).
Proof.
intros ht [fx bx] [fy by_]. assert (b : Rabs (val x + val y) <= bpow radix2 (t + 1)).
{ apply Rle_trans with (1 := Rabs_triang _ _). rewrite <- double_pow. unfold real in *. lra. }
apply rnd_up in b; [|lia]. destruct (fadd_round x y fx fy (under_big (t + 1) _ ltac:(lia) b)) as [e f].
split; [exact f|]. unfold real. now rewrite e.
Qed.
Lemma up_sub t x y : (-1074 <= t < 1023)%Z -> up_to t x -> up_to t y -> up_to (t + 1) (fsub x y).
Proof.
intros ht hx [fy by_]. rewrite <- add_opp. apply up_add; [assumption|assumption|].
split; [unfold ordinary; change (fin (fopp y) = true); now rewrite fin_opp|]. unfold real. change (Rabs (val (fopp y)) <= bpow radix2 t). now rewrite val_opp, Rabs_Ropp.
Qed.
Lemma up_opp t x : up_to t x -> up_to t (fopp x).
Proof.
intros [f b]. split; [unfold ordinary; change (fin (fopp x) = true); now rewrite fin_opp|]. unfold real. change (Rabs (val (fopp x)) <= bpow radix2 t). now rewrite val_opp, Rabs_Ropp.
Qed.
Lemma up_mul s t x y : (-1074 <= s + t < 1024)%Z -> up_to s x -> up_to t y -> up_to (s + t) (fmul x y).
Proof.
intros ht [fx bx] [fy by_]. assert (b : Rabs (val x * val y) <= bpow radix2 (s + t)).
{ rewrite Rabs_mult, bpow_plus. apply Rmult_le_compat; auto using Rabs_pos. }
apply rnd_up in b; [|lia]. destruct (fmul_round x y fx fy (under_big (s + t) _ ltac:(lia) b)) as [e f].
split; [exact f|]. unfold real. now rewrite e.
Qed.
Lemma up_half t x : (-1073 <= t < 1024)%Z -> up_to t x -> up_to (t - 1) (fdiv x (fint 2)).
Proof.
intros ht [fx bx]. assert (b : Rabs (val x / val (fint 2)) <= bpow radix2 (t - 1)).
{ rewrite val_two. unfold Rdiv. rewrite Rabs_mult, (Rabs_right (/ 2)) by lra. unfold Z.sub. rewrite bpow_plus.
  change (bpow radix2 (-(1))) with (/ 2). apply Rmult_le_compat_r; [lra|assumption]. }
apply rnd_up in b; [|lia]. destruct (fdiv_round x (fint 2) fx ltac:(rewrite val_two; lra) (under_big (t - 1) _ ltac:(lia) b)) as [e f].
split; [exact f|]. unfold real. now rewrite e.
Qed.
Lemma up_two : up_to 1 (fint 2).
Proof. split; [reflexivity|]. unfold real. change (Rabs (val (fint 2)) <= bpow radix2 1). rewrite val_two, Rabs_right by lra. change (bpow radix2 1) with 2. lra. Qed.
Lemma up_sixth : up_to 0 (fdiv (fint 1) (fint 6)).
Proof.
assert (v6 : val (fint 6) = 6) by now apply small_int. assert (v1 : val (fint 1) = 1) by now apply small_int.
assert (b : Rabs (val (fint 1) / val (fint 6)) <= bpow radix2 0).
{ rewrite v1, v6. change (bpow radix2 0) with 1. rewrite Rabs_right; lra. }
apply rnd_up in b; [|lia]. destruct (fdiv_round (fint 1) (fint 6) eq_refl ltac:(rewrite v6; lra) (under_big 0 _ ltac:(lia) b)) as [e f].
split; [exact f|]. unfold real. now rewrite e.
Qed.
Lemma up_model F w e z : (0 <= e)%Z -> (2 * e + 3 < 1024)%Z -> up_to e F -> (forall y, up_to e (w y)) -> up_to (2 * e + 3) (zmodel F w z).
Proof.
intros h0 h hF hw. unfold zmodel, g. replace (2 * e + 3)%Z with ((2 * e + 2) + 1)%Z by lia. apply up_add; [lia| |apply up_weaken with e; [lia|assumption]].
replace (2 * e + 2)%Z with ((2 * e + 1) + 1)%Z by lia. apply up_sub; [lia| |apply up_weaken with e; [lia|apply hw]].
replace (2 * e + 1)%Z with (e + (e + 1))%Z by lia. apply up_mul; [lia|now apply up_opp|]. apply up_sub; [lia|apply hw|apply hw].
Qed.
Section Size.
Variables (dt F : f64) (w : Z -> f64) (e : Z).
Hypothesis he : (0 <= e <= 60)%Z.
Hypothesis hdt : up_to 0 dt.
Hypothesis hF : up_to e F.
Hypothesis hw : forall z, up_to e (w z).
Lemma up_k1 z : up_to (2 * e + 3) (k1 dt F w z).
Proof. apply up_model; try assumption; lia. Qed.
Lemma half_step k t z : (e <= t - 1)%Z -> (t < 1023)%Z -> up_to t (k z) -> up_to t (zhalf dt w k z).
Proof.
intros h1 h2 h. unfold zhalf. replace t with ((t - 1) + 1)%Z by lia. apply up_add; [lia|apply up_weaken with e; [lia|apply hw]|].
apply up_half; [lia|]. replace t with (0 + t)%Z by lia. apply up_mul; [lia|assumption|assumption].
Qed.
Lemma up_k2 z : up_to (4 * e + 9) (k2 dt F w z).
Proof.
replace (4 * e + 9)%Z with (2 * (2 * e + 3) + 3)%Z by lia. apply up_model; [lia|lia|apply up_weaken with e; [lia|assumption]|].
intros y. apply half_step; [lia|lia|apply up_k1].
Qed.
Lemma up_k3 z : up_to (8 * e + 21) (k3 dt F w z).
Proof.
replace (8 * e + 21)%Z with (2 * (4 * e + 9) + 3)%Z by lia. apply up_model; [lia|lia|apply up_weaken with e; [lia|assumption]|].
intros y. apply half_step; [lia|lia|apply up_k2].
Qed.
Lemma up_k4 z : up_to (16 * e + 47) (k4 dt F w z).
Proof.
replace (16 * e + 47)%Z with (2 * (8 * e + 22) + 3)%Z by lia. apply up_model; [lia|lia|apply up_weaken with e; [lia|assumption]|].
intros y. unfold zfull. replace (8 * e + 22)%Z with ((8 * e + 21) + 1)%Z by lia. apply up_add; [lia|apply up_weaken with e; [lia|apply hw]|].
replace (8 * e + 21)%Z with (0 + (8 * e + 21))%Z by lia. apply up_mul; [lia|assumption|apply up_k3].
Qed.
Lemma up_step z : up_to (16 * e + 49) (zstep dt F w z).
Proof.
unfold zstep, last. replace (16 * e + 49)%Z with ((16 * e + 48) + 1)%Z by lia. apply up_add; [lia|apply up_weaken with e; [lia|apply hw]|].
replace (16 * e + 48)%Z with (0 + (16 * e + 48))%Z by lia. apply up_mul; [lia| |].
- replace 0%Z with (0 + 0)%Z by lia. apply up_mul; [lia|exact up_sixth|assumption].
- replace (16 * e + 48)%Z with ((16 * e + 47) + 1)%Z by lia. apply up_add; [lia| |apply up_k4].
  apply up_weaken with (8 * e + 23)%Z; [lia|]. replace (8 * e + 23)%Z with ((8 * e + 22) + 1)%Z by lia. apply up_add; [lia| |].
  + apply up_weaken with (4 * e + 11)%Z; [lia|]. replace (4 * e + 11)%Z with ((4 * e + 10) + 1)%Z by lia. apply up_add; [lia|apply up_weaken with (2 * e + 3)%Z; [lia|apply up_k1]|].
    replace (4 * e + 10)%Z with (1 + (4 * e + 9))%Z by lia. apply up_mul; [lia|exact up_two|apply up_k2].
  + replace (8 * e + 22)%Z with (1 + (8 * e + 21))%Z by lia. apply up_mul; [lia|exact up_two|apply up_k3].
Qed.
End Size.

(** ** rings *)
Section Ring.
Variable n : nat.
Hypothesis pos : (0 < n)%nat.
Lemma no_overflow dt F x i j e : (0 <= e <= 60)%Z -> up_to 0 dt -> up_to e F -> (forall j, (j < n)%nat -> up_to e (x i j)) -> (j < n)%nat ->
  up_to (16 * e + 49) (lstep n dt F x i j).
Proof.
intros he hdt hF hx hj. rewrite <- (column_small n pos j hj), (lstep_row n pos). apply up_step; try assumption.
intros z. unfold row. apply hx. now apply column_lt.
Qed.
Lemma at_rest dt F k x i j : ordinary dt -> real F <> 0 -> (forall j, (j < n)%nat -> x i j = F) -> (j < n)%nat -> lorbit n dt F k x i j = F.
Proof.
intros hdt hF hx hj. rewrite (lorbit_col n pos) by assumption.
assert (hw : forall z, row n x i z = F) by (intros z; apply hx; now apply column_lt).
generalize (Z.of_nat j). induction k as [|k ih]; intros z; [apply hw|]. cbn [zorbit]. set (w := zorbit dt F k (row n x i)) in *.
assert (e1 : forall y, k1 dt F w y = fzero) by (intros y; now apply rest_model).
assert (e2 : forall y, k2 dt F w y = fzero) by (intros y; apply rest_model; [assumption|]; intros t; now apply rest_half).
assert (e3 : forall y, k3 dt F w y = fzero) by (intros y; apply rest_model; [assumption|]; intros t; now apply rest_half).
assert (e4 : forall y, k4 dt F w y = fzero) by (intros y; apply rest_model; [assumption|]; intros t; now apply rest_full).
unfold zstep, last. rewrite ih, e1, e2, e3, e4.
replace (fadd (fadd (fadd fzero (fmul (fint 2) fzero)) (fmul (fint 2) fzero)) fzero) with (B754_zero false : f64) by (apply B2SF_inj; vm_compute; reflexivity).
assert (f : fin (fmul (fdiv (fint 1) (fint 6)) dt) = true).
{ assert (b : Rabs (rnd (val (fdiv (fint 1) (fint 6)) * val dt)) < big).
  { apply Rle_lt_trans with (Rabs (val dt)); [|apply val_small]. rewrite rnd_abs. rewrite <- (rnd_id (Rabs (val dt))) by (apply generic_format_abs; apply repr_val).
    apply rnd_le. rewrite Rabs_mult. destruct up_sixth as [_ s]. change (bpow radix2 0) with 1 in s. unfold real in s. pose proof (Rabs_pos (val dt)). nra. }
  destruct up_sixth as [s _]. now destruct (fmul_round _ dt s hdt b). }
destruct (mul_zero _ false f) as [t e]. rewrite e. now apply add_zero.
Qed.
Lemma three_slope F x i j : (n = 1 \/ n = 3)%nat -> real F <> 0 -> (forall j, (j < n)%nat -> ordinary (x i j)) -> (j < n)%nat -> lmodel n F x i j = fsub F (x i j).
Proof.
intros hn hF hx hj. rewrite <- (column_small n pos j hj), (lmodel_row n pos). unfold zmodel, g.
assert (e : row n x i (Z.of_nat j + -1) = row n x i (Z.of_nat j + 2)).
{ unfold row, column. f_equal. f_equal. destruct hn as [-> | ->]; [now rewrite !Z.mod_1_r|].
  replace (Z.of_nat j + 2)%Z with (Z.of_nat j + -1 + 1 * Z.of_nat 3)%Z by lia. now rewrite Z_mod_plus_full. }
assert (hr : forall z, fin (row n x i z) = true) by (intros z; apply hx; now apply column_lt).
rewrite e, fsub_self by apply hr.
destruct (mul_zero (fopp (row n x i (Z.of_nat j + 1))) false) as [t e']; [now rewrite fin_opp|]. unfold fzero. rewrite e'.
unfold row. rewrite column_small by assumption. set (a := x i j). rewrite (fadd_comm _ F).
destruct (Req_dec (real a) 0) as [za|nz]; [|rewrite zero_sub by assumption; apply add_opp].
assert (fa : fin a = true) by (apply hx; assumption). destruct a as [b|b| |b m ex hb]; try discriminate fa.
- assert (s : exists s, fsub (B754_zero t) (B754_zero b) = B754_zero s) by (destruct t, b; eexists; reflexivity).
  destruct s as [s es]. rewrite es, add_zero by assumption. rewrite <- add_opp. symmetry. now apply (add_zero F (negb b)).
- exfalso. revert za. unfold real. cbn. intros za. apply eq_0_F2R in za. destruct b; discriminate za.
Qed.
(** rounding of one derivative *)
Lemma eta_u : eta_min <= u * u.
Proof. unfold eta_min, u. rewrite <- bpow_plus. apply bpow_le. lia. Qed.
Lemma u_tiny : u <= / 1000.
Proof. unfold u. apply Rle_trans with (bpow radix2 (-10)); [apply bpow_le; lia|]. cbn. lra. Qed.
Lemma step_abs x e : Rabs e <= u -> Rabs (x * (1 + e) - x) <= u * Rabs x.
Proof. intros h. replace (x * (1 + e) - x) with (e * x) by ring. rewrite Rabs_mult. apply Rmult_le_compat_r; [apply Rabs_pos|assumption]. Qed.
Lemma slope_error F x i j M : 1 <= M -> Rabs (real F) <= M -> (forall j, (j < n)%nat -> Rabs (real (x i j)) <= M) -> (j < n)%nat ->
  ordinary (lmodel n F x i j) ->
  Rabs (real (lmodel n F x i j) - slope (real F) (real (x i j)) (real (x i (column n (Z.of_nat j + 1)))) (real (x i (column n (Z.of_nat j + 2)))) (real (x i (column n (Z.of_nat j - 1)))))
  <= 12 * bpow radix2 (-53) * (M * M).
Proof.
intros hM hF hx hj. replace (lmodel n F x i j) with (g F (x i j) (x i (column n (Z.of_nat j + 1))) (x i (column n (Z.of_nat j + 2))) (x i (column n (Z.of_nat j - 1)))).
2:{ rewrite <- (column_small n pos j hj) at 5. rewrite (lmodel_row n pos). unfold zmodel, row. now rewrite (column_small n pos j hj). }
generalize (hx j hj) (hx _ (column_lt n pos (Z.of_nat j + 1))) (hx _ (column_lt n pos (Z.of_nat j + 2))) (hx _ (column_lt n pos (Z.of_nat j - 1))).
generalize (x i j) (x i (column n (Z.of_nat j + 1))) (x i (column n (Z.of_nat j + 2))) (x i (column n (Z.of_nat j - 1))).
intros a b c d ha hb hc hd. unfold g, slope, ordinary, real. intros h.
destruct (fadd_fin _ _ h) as [h1 [_ v1]]. destruct (fsub_fin _ _ h1) as [h2 [_ v2]]. destruct (fmul_fin _ _ h2) as [_ [h3 v3]]. destruct (fsub_fin _ _ h3) as [_ [_ v4]].
destruct (minus_rel (val c) (val d) (repr_val c) (repr_val d)) as [e4 [b4 r4]].
destruct (any_rel (val (fopp b) * val (fsub c d))) as [e3 [d3 [b3 [bd3 r3]]]].
destruct (minus_rel _ _ (repr_val (fmul (fopp b) (fsub c d))) (repr_val a)) as [e2 [b2 r2]].
destruct (plus_rel _ _ (repr_val (fsub (fmul (fopp b) (fsub c d)) a)) (repr_val F)) as [e1 [b1 r1]].
rewrite v1, r1. rewrite r2 in v2. rewrite r3 in v3. rewrite r4 in v4. rewrite val_opp in v3.
set (D := val (fsub c d)) in *. set (P := val (fmul (fopp b) (fsub c d))) in *. set (G := val (fsub (fmul (fopp b) (fsub c d)) a)) in *.
unfold real in *. pose proof u_small as us. pose proof u_tiny as ut. pose proof eta_u as eu. change (bpow radix2 (-53)) with u.
set (A := val a) in *; set (B := val b) in *; set (C := val c) in *; set (E := val d) in *; set (f := val F) in *.
clearbody A B C E f D P G. clear - hM hF ha hb hc hd v2 v3 v4 b1 b2 b3 b4 bd3 us ut eu.
assert (MM : M <= M * M) by nra. set (Q := M * M) in *. assert (Q1 : 1 <= Q) by lra.
assert (q4 : Rabs (D - (C - E)) <= u * (2 * M)).
{ rewrite v4. apply Rle_trans with (1 := step_abs _ _ b4). apply Rmult_le_compat_l; [lra|]. apply Rle_trans with (Rabs C + Rabs E); [|lra]. unfold Rminus. rewrite <- (Rabs_Ropp E). apply Rabs_triang. }
assert (qD : Rabs D <= 2 * M + u * (2 * M)).
{ replace D with ((D - (C - E)) + (C - E)) by ring. apply Rle_trans with (1 := Rabs_triang _ _). assert (Rabs (C - E) <= Rabs C + Rabs E) by (unfold Rminus; rewrite <- (Rabs_Ropp E); apply Rabs_triang). lra. }
assert (qBD : Rabs (- B * D) <= 2 * Q + u * (2 * Q)).
{ rewrite Rabs_mult, Rabs_Ropp. apply Rle_trans with (M * (2 * M + u * (2 * M))); [|unfold Q; apply Req_le; ring]. apply Rmult_le_compat; auto using Rabs_pos. }
assert (q3 : Rabs (P - - B * D) <= u * (2 * Q + u * (2 * Q)) + u * u).
{ rewrite v3. replace (- B * D * (1 + e3) + d3 - - B * D) with ((- B * D * (1 + e3) - - B * D) + d3) by ring. apply Rle_trans with (1 := Rabs_triang _ _).
  pose proof (step_abs (- B * D) e3 b3) as s. assert (u * Rabs (- B * D) <= u * (2 * Q + u * (2 * Q))) by (apply Rmult_le_compat_l; lra). lra. }
assert (qP : Rabs (P - - B * (C - E)) <= 4 * u * Q + 3 * (u * (u * Q))).
{ replace (P - - B * (C - E)) with ((P - - B * D) + - B * (D - (C - E))) by ring. apply Rle_trans with (1 := Rabs_triang _ _).
  assert (Rabs (- B * (D - (C - E))) <= M * (u * (2 * M))). { rewrite Rabs_mult, Rabs_Ropp. apply Rmult_le_compat; auto using Rabs_pos. }
  replace (M * (u * (2 * M))) with (2 * u * Q) in H by (unfold Q; ring). assert (u * u <= u * (u * Q)) by nra. lra. }
assert (uuQ : u * (u * Q) <= / 1000 * (u * Q)) by (apply Rmult_le_compat_r; nra).
assert (uQ : 0 <= u * Q) by nra. assert (uQ1 : u * Q <= / 1000 * Q) by nra.
assert (aP : Rabs (- B * (C - E)) <= 2 * Q).
{ rewrite Rabs_mult, Rabs_Ropp. apply Rle_trans with (M * (2 * M)); [|unfold Q; lra]. apply Rmult_le_compat; auto using Rabs_pos.
  apply Rle_trans with (Rabs C + Rabs E); [|lra]. unfold Rminus. rewrite <- (Rabs_Ropp E). apply Rabs_triang. }
assert (aP' : Rabs P <= 2.01 * Q).
{ replace P with ((P - - B * (C - E)) + - B * (C - E)) by ring. apply Rle_trans with (1 := Rabs_triang _ _). lra. }
assert (aG0 : Rabs (P - A) <= 3.01 * Q).
{ apply Rle_trans with (Rabs P + Rabs A); [|lra]. unfold Rminus. rewrite <- (Rabs_Ropp A). apply Rabs_triang. }
assert (qG : Rabs (G - (P - A)) <= 3.01 * (u * Q)).
{ rewrite v2. apply Rle_trans with (1 := step_abs _ _ b2). nra. }
assert (aG : Rabs G <= 3.02 * Q).
{ replace G with ((G - (P - A)) + (P - A)) by ring. apply Rle_trans with (1 := Rabs_triang _ _). lra. }
assert (aH : Rabs (G + f) <= 4.02 * Q) by (apply Rle_trans with (1 := Rabs_triang _ _); lra).
assert (qH : Rabs ((G + f) * (1 + e1) - (G + f)) <= 4.02 * (u * Q)).
{ apply Rle_trans with (1 := step_abs _ _ b1). nra. }
replace ((G + f) * (1 + e1) - (- B * (C - E) - A + f)) with (((G + f) * (1 + e1) - (G + f)) + ((G - (P - A)) + (P - - B * (C - E)))) by ring.
apply Rle_trans with (1 := Rabs_triang _ _). assert (Rabs ((G - (P - A)) + (P - - B * (C - E))) <= Rabs (G - (P - A)) + Rabs (P - - B * (C - E))) by apply Rabs_triang.
replace (12 * u * Q) with (12 * (u * Q)) by ring. lra.
Qed.
End Ring.
(** ** the measurement *)
Lemma square_sign x i j : lmeasure (fun i j => fopp (x i j)) i j = lmeasure x i j.
Proof.
unfold lmeasure. destruct (x i j) as [b|b| |b m e h] eqn:q; [destruct b; reflexivity|destruct b; reflexivity|reflexivity|]. clear q.
set (y := B754_finite b m e h : f64). assert (f : fin y = true) by reflexivity. assert (f' : fin (fopp y) = true) by reflexivity.
assert (a : Rabs (val (fopp y)) = Rabs (val y)) by now rewrite val_opp, Rabs_Ropp.
apply at_most_antisym; [apply nonneg_sq; now left|apply nonneg_sq; now left| |]; (apply sq_mono; [now left|right]); (split; [assumption|split; [assumption|lra]]).
Qed.
Lemma square_nonneg x i j : is_nan (x i j) = false -> nonneg (lmeasure x i j).
Proof.
intros h. apply nonneg_sq. destruct (x i j) as [b|b| |b m e hb]; try discriminate h; [left; reflexivity|right; eexists; reflexivity|left; reflexivity].
Qed.
Lemma square_error x i j : ordinary (lmeasure x i j) ->
  Rabs (real (lmeasure x i j) - real (x i j) * real (x i j)) <= bpow radix2 (-53) * (real (x i j) * real (x i j)) + bpow radix2 (-1075).
Proof.
intros h. destruct (fmul_fin _ _ h) as (_ & _ & e). change (real (lmeasure x i j)) with (val (fmul (x i j) (x i j))). rewrite e.
destruct (any_rel (val (x i j) * val (x i j))) as (d & z & b1 & b2 & r). rewrite r. change (real (x i j)) with (val (x i j)). set (q := val (x i j)) in *.
replace (q * q * (1 + d) + z - q * q) with (d * (q * q) + z) by ring. apply Rle_trans with (1 := Rabs_triang _ _). apply Rplus_le_compat; [|exact b2].
rewrite Rabs_mult, (Rabs_right (q * q)) by (apply Rle_ge; nra). apply Rmult_le_compat_r; [nra|exact b1].
Qed.
