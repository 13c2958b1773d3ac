(** * The Lorenz model in double precision: proofs *)
Set Warnings "-notation-overridden,-ambiguous-paths".
From Coq Require Import ZArith Reals Lra Lia Psatz.
From Flocq Require Import Core IEEE754.BinarySingleNaN.
From Verif Require Import Float FloatSpec FloatFacts FloatMetrics FloatMetricsSpec FloatMetricsFacts FloatMetricsErr FloatL96 FloatL96Spec.
Local Open Scope R_scope.

(** ** one row as a periodic sequence *)
Definition g (F a b c d : f64) : f64 := fadd (fsub (fmul (fopp b) (fsub c d)) a) F.
Definition zmodel F (w : Z -> f64) (z : Z) : f64 := g F (w z) (w (z + 1)%Z) (w (z + 2)%Z) (w (z + -1)%Z).
Definition zhalf dt (w k : Z -> f64) (z : Z) := fadd (w z) (fdiv (fmul dt (k z)) (fint 2)).
Definition zfull dt (w k : Z -> f64) (z : Z) := fadd (w z) (fmul dt (k z)).
Definition k1 (dt F : f64) w := zmodel F w.
Definition k2 dt F w := zmodel F (zhalf dt w (k1 dt F w)).
Definition k3 dt F w := zmodel F (zhalf dt w (k2 dt F w)).
Definition k4 dt F w := zmodel F (zfull dt w (k3 dt F w)).
Definition last dt (a k1 k2 k3 k4 : f64) := fadd a (fmul (fmul (fdiv (fint 1) (fint 6)) dt)
   (fadd (fadd (fadd k1 (fmul (fint 2) k2)) (fmul (fint 2) k3)) k4)).
Definition zstep dt F w (z : Z) := last dt (w z) (k1 dt F w z) (k2 dt F w z) (k3 dt F w z) (k4 dt F w z).
Fixpoint zorbit dt F k w := match k with O => w | S k' => zstep dt F (zorbit dt F k' w) end.
Definition row n (x : arr) i (z : Z) : f64 := x i (column n z).

Section Ring.
Variable n : nat.
Hypothesis pos : (0 < n)%nat.
Lemma column_add z c : Z.to_nat ((Z.of_nat (column n z) - c) mod Z.of_nat n) = column n (z - c).
Proof.
unfold column. f_equal. rewrite Z2Nat.id by (apply Z.mod_pos_bound; lia). unfold Z.sub. now rewrite Zplus_mod_idemp_l.
Qed.
Lemma column_small j : (j < n)%nat -> column n (Z.of_nat j) = j.
Proof. intros h. unfold column. rewrite Z.mod_small by lia. apply Nat2Z.id. Qed.
Lemma lmodel_row F x i z : lmodel n F x i (column n z) = zmodel F (row n x i) z.
Proof.
unfold lmodel, froll, zmodel, g, row. rewrite !column_add.
now replace (z - -1)%Z with (z + 1)%Z by lia; replace (z - -2)%Z with (z + 2)%Z by lia; replace (z - 1)%Z with (z + -1)%Z by lia.
Qed.
(** ** what a step depends on *)
Lemma zmodel_local F w v z y : (forall c, (-1 <= c <= 2)%Z -> w (z + c)%Z = v (y + c)%Z) -> zmodel F w z = zmodel F v y.
Proof.
intros h. unfold zmodel. rewrite !h by lia. specialize (h 0%Z). rewrite !Z.add_0_r in h. now rewrite h by lia.
Qed.
Lemma at0 (w v : Z -> f64) z y (P : Z -> Prop) : P 0%Z -> (forall c, P c -> w (z + c)%Z = v (y + c)%Z) -> w z = v y.
Proof. intros p h. specialize (h 0%Z p). now rewrite !Z.add_0_r in h. Qed.
Lemma model_local F w v z y a b : (forall c, (a - 1 <= c <= b + 2)%Z -> w (z + c)%Z = v (y + c)%Z) ->
  forall c, (a <= c <= b)%Z -> zmodel F w (z + c)%Z = zmodel F v (y + c)%Z.
Proof. intros h c hc. apply zmodel_local. intros d hd. rewrite <- !Z.add_assoc. apply h. lia. Qed.
Lemma k1_local dt F w v z y a b : (forall c, (a - 1 <= c <= b + 2)%Z -> w (z + c)%Z = v (y + c)%Z) ->
  forall c, (a <= c <= b)%Z -> k1 dt F w (z + c)%Z = k1 dt F v (y + c)%Z.
Proof. apply model_local. Qed.
Lemma k2_local dt F w v z y a b : (a <= b)%Z -> (forall c, (a - 2 <= c <= b + 4)%Z -> w (z + c)%Z = v (y + c)%Z) ->
  forall c, (a <= c <= b)%Z -> k2 dt F w (z + c)%Z = k2 dt F v (y + c)%Z.
Proof.
intros ab h. apply model_local. intros c hc. unfold zhalf. rewrite h by lia.
rewrite (k1_local dt F w v z y (a - 1) (b + 2)); [reflexivity| |lia]. intros d hd. apply h. lia.
Qed.
Lemma k3_local dt F w v z y a b : (a <= b)%Z -> (forall c, (a - 3 <= c <= b + 6)%Z -> w (z + c)%Z = v (y + c)%Z) ->
  forall c, (a <= c <= b)%Z -> k3 dt F w (z + c)%Z = k3 dt F v (y + c)%Z.
Proof.
intros ab h. apply model_local. intros c hc. unfold zhalf. rewrite h by lia.
rewrite (k2_local dt F w v z y (a - 1) (b + 2)); [reflexivity|lia| |lia]. intros d hd. apply h. lia.
Qed.
Lemma k4_local dt F w v z y a b : (a <= b)%Z -> (forall c, (a - 4 <= c <= b + 8)%Z -> w (z + c)%Z = v (y + c)%Z) ->
  forall c, (a <= c <= b)%Z -> k4 dt F w (z + c)%Z = k4 dt F v (y + c)%Z.
Proof.
intros ab h. apply model_local. intros c hc. unfold zfull. rewrite h by lia.
rewrite (k3_local dt F w v z y (a - 1) (b + 2)); [reflexivity|lia| |lia]. intros d hd. apply h. lia.
Qed.
Lemma zstep_local dt F w v z y : (forall c, (-4 <= c <= 8)%Z -> w (z + c)%Z = v (y + c)%Z) -> zstep dt F w z = zstep dt F v y.
Proof.
intros h. unfold zstep.
pose proof (h 0%Z) as h0. rewrite !Z.add_0_r in h0. rewrite h0 by lia.
pose proof (k1_local dt F w v z y 0 0) as e1. pose proof (k2_local dt F w v z y 0 0) as e2.
pose proof (k3_local dt F w v z y 0 0) as e3. pose proof (k4_local dt F w v z y 0 0) as e4.
specialize (e1 ltac:(intros; apply h; lia) 0%Z ltac:(lia)). specialize (e2 ltac:(lia) ltac:(intros; apply h; lia) 0%Z ltac:(lia)).
specialize (e3 ltac:(lia) ltac:(intros; apply h; lia) 0%Z ltac:(lia)). specialize (e4 ltac:(lia) ltac:(intros; apply h; lia) 0%Z ltac:(lia)).
rewrite !Z.add_0_r in *. now rewrite e1, e2, e3, e4.
Qed.
Lemma zorbit_local dt F k : forall w v z y, (forall c, (-4 * Z.of_nat k <= c <= 8 * Z.of_nat k)%Z -> w (z + c)%Z = v (y + c)%Z) ->
  zorbit dt F k w z = zorbit dt F k v y.
Proof.
induction k as [|k ih]; intros w v z y h; cbn [zorbit].
- specialize (h 0%Z). rewrite !Z.add_0_r in h. now apply h.
- apply zstep_local. intros c hc. apply ih. intros d hd. rewrite <- !Z.add_assoc. apply h. lia.
Qed.
Lemma zmodel_ext F w v z : (forall y, w y = v y) -> zmodel F w z = zmodel F v z.
Proof. intros h. apply zmodel_local. intros; apply h. Qed.
Lemma lstep_row dt F x i z : lstep n dt F x i (column n z) = zstep dt F (row n x i) z.
Proof.
unfold lstep. cbv zeta. rewrite !lmodel_row. unfold zstep, last, k4, k3, k2, k1.
assert (e2 : forall z, zmodel F (row n (fun i j => fadd (x i j) (fdiv (fmul dt (lmodel n F x i j)) (fint 2))) i) z = k2 dt F (row n x i) z).
{ intros y. apply zmodel_ext. intros t. unfold row at 1, zhalf. rewrite lmodel_row. reflexivity. }
rewrite e2.
set (X2 := fun i j => fadd (x i j) (fdiv (fmul dt (lmodel n F x i j)) (fint 2))) in *.
assert (e3 : forall z, zmodel F (row n (fun i j => fadd (x i j) (fdiv (fmul dt (lmodel n F X2 i j)) (fint 2))) i) z = k3 dt F (row n x i) z).
{ intros y. apply zmodel_ext. intros t. unfold row at 1, zhalf. rewrite lmodel_row, e2. reflexivity. }
rewrite e3.
set (X3 := fun i j => fadd (x i j) (fdiv (fmul dt (lmodel n F X2 i j)) (fint 2))) in *.
assert (e4 : forall z, zmodel F (row n (fun i j => fadd (x i j) (fmul dt (lmodel n F X3 i j))) i) z = k4 dt F (row n x i) z).
{ intros y. apply zmodel_ext. intros t. unfold row at 1, zfull. rewrite lmodel_row, e3. reflexivity. }
rewrite e4. reflexivity.
Qed.
Lemma zstep_ext dt F w v z : (forall y, w y = v y) -> zstep dt F w z = zstep dt F v z.
Proof. intros h. apply zstep_local. intros; apply h. Qed.
Lemma lorbit_row dt F k x i z : lorbit n dt F k x i (column n z) = zorbit dt F k (row n x i) z.
Proof.
revert z; induction k as [|k ih]; intros z; [reflexivity|]. cbn [lorbit zorbit]. rewrite lstep_row. apply zstep_ext. intros y. apply ih.
Qed.
Lemma lorbit_col dt F k x i j : (j < n)%nat -> lorbit n dt F k x i j = zorbit dt F k (row n x i) (Z.of_nat j).
Proof. intros h. rewrite <- lorbit_row. now rewrite column_small. Qed.

Lemma locality dt F k x y i l j : (forall c, (-4 * Z.of_nat k <= c <= 8 * Z.of_nat k)%Z -> x i (column n (j + c)) = y l (column n (j + c))) ->
  lorbit n dt F k x i (column n j) = lorbit n dt F k y l (column n j).
Proof. intros h. rewrite !lorbit_row. apply zorbit_local. exact h. Qed.
Lemma shift_nat j s : (j < n)%nat -> ((j + s) mod n = column n (Z.of_nat j + Z.of_nat s))%nat.
Proof. intros _. unfold column. rewrite <- Nat2Z.inj_add, <- Nat2Z.inj_mod. now rewrite Nat2Z.id. Qed.
Lemma rotation dt F k x s i j : (j < n)%nat ->
  lorbit n dt F k (fun i j => x i ((j + s) mod n)%nat) i j = lorbit n dt F k x i ((j + s) mod n)%nat.
Proof.
intros h. rewrite lorbit_col, shift_nat, lorbit_row by assumption. apply zorbit_local. intros c _. unfold row.
rewrite shift_nat; [|unfold column; apply Nat2Z.inj_lt; rewrite Z2Nat.id; apply Z.mod_pos_bound; lia].
f_equal. pose proof (column_add (Z.of_nat j + c) (- Z.of_nat s)) as e. unfold column at 1. unfold Z.sub in e. rewrite Z.opp_involutive in e. rewrite e. f_equal. lia.
Qed.
Lemma row_only dt F k x y i l j : (j < n)%nat -> (forall j, (j < n)%nat -> x i j = y l j) -> lorbit n dt F k x i j = lorbit n dt F k y l j.
Proof.
intros h e. rewrite !lorbit_col by assumption. apply zorbit_local. intros c _. unfold row. apply e.
unfold column; apply Nat2Z.inj_lt; rewrite Z2Nat.id; apply Z.mod_pos_bound; lia.
Qed.
Lemma column_lt z : (column n z < n)%nat.
Proof. unfold column; apply Nat2Z.inj_lt; rewrite Z2Nat.id; apply Z.mod_pos_bound; lia. Qed.
Lemma uniform dt F k x i a j l : (forall j, (j < n)%nat -> x i j = a) -> (j < n)%nat -> (l < n)%nat -> lorbit n dt F k x i j = lorbit n dt F k x i l.
Proof.
intros h hj hl. rewrite !lorbit_col by assumption. apply zorbit_local. intros c _. unfold row. rewrite !h; auto using column_lt.
Qed.

(** ** nan spreads *)
Lemma nan_add_l x y : is_nan x = true -> is_nan (fadd x y) = true. Proof. now destruct x, y. Qed.
Lemma nan_add_r x y : is_nan y = true -> is_nan (fadd x y) = true. Proof. now destruct x, y. Qed.
Lemma nan_sub_l x y : is_nan x = true -> is_nan (fsub x y) = true. Proof. now destruct x, y. Qed.
Lemma nan_sub_r x y : is_nan y = true -> is_nan (fsub x y) = true. Proof. now destruct x, y. Qed.
Lemma nan_mul_l x y : is_nan x = true -> is_nan (fmul x y) = true. Proof. now destruct x, y. Qed.
Lemma nan_mul_r x y : is_nan y = true -> is_nan (fmul x y) = true. Proof. now destruct x, y. Qed.
Lemma nan_div_l x y : is_nan x = true -> is_nan (fdiv x y) = true. Proof. now destruct x, y. Qed.
Lemma nan_opp x : is_nan x = true -> is_nan (fopp x) = true. Proof. now destruct x. Qed.
Definition nans (w : Z -> f64) z a b := forall c, (a <= c <= b)%Z -> is_nan (w (z + c)%Z) = true.
Lemma nan_model F w z a b : (a <= b)%Z -> nans w z a b -> nans (zmodel F w) z (a - 2) (b + 1).
Proof.
intros ab h c hc. unfold zmodel, g. apply nan_add_l.
assert (q : (c = a - 2 \/ c = a - 1 \/ a <= c <= b \/ c = b + 1)%Z) by lia. destruct q as [q|[q|[q|q]]].
- apply nan_sub_l, nan_mul_r, nan_sub_l. rewrite <- Z.add_assoc. apply h. lia.
- apply nan_sub_l, nan_mul_l, nan_opp. rewrite <- Z.add_assoc. apply h. lia.
- apply nan_sub_r. now apply h.
- apply nan_sub_l, nan_mul_r, nan_sub_r. rewrite <- Z.add_assoc. apply h. lia.
Qed.
Lemma nan_half dt w k z a b : nans k z a b -> nans (zhalf dt w k) z a b.
Proof. intros h c hc. apply nan_add_r, nan_div_l, nan_mul_r. now apply h. Qed.
Lemma nan_full dt w k z a b : nans k z a b -> nans (zfull dt w k) z a b.
Proof. intros h c hc. apply nan_add_r, nan_mul_r. now apply h. Qed.
Lemma nan_step dt F w z : is_nan (w z) = true -> nans (zstep dt F w) z (-8) 4.
Proof.
intros h. assert (h0 : nans w z 0 0). { intros c hc. replace c with 0%Z by lia. now rewrite Z.add_0_r. }
assert (h1 : nans (k1 dt F w) z (-2) 1) by (apply (nan_model F w z 0 0); [lia|assumption]).
assert (h2 : nans (k2 dt F w) z (-4) 2) by (apply (nan_model F (zhalf dt w (k1 dt F w)) z (-2) 1); [lia|now apply nan_half]).
assert (h3 : nans (k3 dt F w) z (-6) 3) by (apply (nan_model F (zhalf dt w (k2 dt F w)) z (-4) 2); [lia|now apply nan_half]).
assert (h4 : nans (k4 dt F w) z (-8) 4) by (apply (nan_model F (zfull dt w (k3 dt F w)) z (-6) 3); [lia|now apply nan_full]).
intros c hc. unfold zstep, last. apply nan_add_r, nan_mul_r, nan_add_r. now apply h4.
Qed.
Lemma nan_orbit dt F k w z : is_nan (w z) = true -> nans (zorbit dt F k w) z (-8 * Z.of_nat k) (4 * Z.of_nat k).
Proof.
intros h. induction k as [|k ih]; intros c hc.
- replace c with 0%Z by lia. now rewrite Z.add_0_r.
- cbn [zorbit]. set (c' := Z.max (-8 * Z.of_nat k) (Z.min (4 * Z.of_nat k) c)).
  replace (z + c)%Z with ((z + c') + (c - c'))%Z by lia. apply nan_step; [apply ih; lia|lia].
Qed.
Lemma nan_near dt F k x i j c : is_nan (x i (column n j)) = true -> (-8 * Z.of_nat k <= c <= 4 * Z.of_nat k)%Z ->
  is_nan (lorbit n dt F k x i (column n (j + c))) = true.
Proof. intros h hc. rewrite lorbit_row. now apply (nan_orbit dt F k (row n x i) j). Qed.
Lemma nan_all dt F k x i j l : is_nan (x i j) = true -> (j < n)%nat -> (l < n)%nat -> (n <= 12 * k + 1)%nat ->
  is_nan (lorbit n dt F k x i l) = true.
Proof.
intros h hj hl hk. set (c := ((Z.of_nat l - Z.of_nat j + 8 * Z.of_nat k) mod Z.of_nat n - 8 * Z.of_nat k)%Z).
assert (b : (-8 * Z.of_nat k <= c <= 4 * Z.of_nat k)%Z).
{ pose proof (Z.mod_pos_bound (Z.of_nat l - Z.of_nat j + 8 * Z.of_nat k) (Z.of_nat n)). lia. }
rewrite <- (column_small j hj) in h. pose proof (nan_near dt F k x i _ c h b) as r.
replace (column n (Z.of_nat j + c)) with l in r; [assumption|].
rewrite <- (column_small l hl) at 1. unfold column. f_equal. unfold c.
replace (Z.of_nat j + ((Z.of_nat l - Z.of_nat j + 8 * Z.of_nat k) mod Z.of_nat n - 8 * Z.of_nat k))%Z
   with ((Z.of_nat l - Z.of_nat j + 8 * Z.of_nat k) mod Z.of_nat n + (Z.of_nat j - 8 * Z.of_nat k))%Z by lia.
rewrite Zplus_mod_idemp_l. f_equal. lia.
Qed.
End Ring.
Lemma once_lost n dt F k x i j : ordinary (lorbit n dt F (S k) x i j) -> ordinary (lorbit n dt F k x i j).
Proof. intros h. cbn [lorbit] in h. unfold lstep in h. cbv zeta in h. apply fadd_fin in h. apply h. Qed.
