(** * C63: the shipped systems are usable, and what their noise parameters mean *)
Set Warnings "-notation-overridden,-ambiguous-paths".
From Coq Require Import Reals List Lra Lia.
From Verif Require Import Base Systems SpecSys SystemsFacts SystemInit SpecInit SystemInitFacts.
Import ListNotations.
Local Open Scope R_scope.

Ltac posl := repeat (apply Forall_cons; [lra|]); apply Forall_nil.

Theorem C63_growth : usable any ungm_model.
Proof.
split; [|split; [|split; [reflexivity|split; [exact I|split; [|split]]]]].
- intros t x h _. eexists; split; [reflexivity|]. apply amap_width; exact h.
- intros x h _. eexists; split; [reflexivity|]. apply amap_width; exact h.
- apply (diag_pd [5]). posl.
- apply (diag_pd [1]). posl.
- apply (diag_pd [10]). posl.
Qed.
(** constant velocity: usable exactly when Q_sigma delta_t and R_sigma are positive *)
Theorem C63_straight : forall q r ss dt, ss <> [] ->
  (usable any (bot_model q r (Some ss) dt) <-> 0 < q * dt /\ 0 < r).
Proof.
intros q r ss dt ne. pose proof (len_pos _ ss ne) as hn. split.
- intros (_ & _ & _ & _ & _ & hQ & hR). split; [now apply (proj1 (bot_Q_pd dt q))|]. now apply (proj1 (bot_R_pd (length ss) r hn)).
- intros [hq hr]. split; [|split; [|split; [reflexivity|split; [exact I|split; [|split]]]]].
  + intros t x h _. cbn [m_f bot_model]. rewrite bot_fE. replace (forallb _ _) with true.
    * eexists; split; [reflexivity|]. cbn [atleast_2d]. split; [|apply map_length]. apply Forall_forall. intros r0 h0.
      apply in_map_iff in h0 as [r1 [<- _]]. reflexivity.
    * symmetry. apply forallb_forall. intros r0 h0. unfold width in h. rewrite Forall_forall in h. apply PeanoNat.Nat.eqb_eq. exact (h r0 h0).
  + intros x h _. cbn [m_h m_meas bot_model]. apply bearing_width with (n := 4%nat); [lia|lia|exact ne|exact h].
  + apply (diag_pd [1/10; 1/10; 1/10; 1/10]). posl.
  + now apply bot_Q_pd.
  + now apply bot_R_pd.
Qed.
(** R_sigma is the variance of every bearing *)
Theorem C63_straight_variance : forall q r ss dt v, let m := bot_model q r ss dt in
  length v = m_meas m -> quad (m_R m) v = r * dot v v.
Proof. intros q r ss dt v m e. now apply bot_R_quad. Qed.

(** coordinated turn: which parameters are accepted, with which exceptions otherwise *)
Theorem C63_turn_accepts : forall q rs ss dt, let n := bott_meas_dim ss in
  ((exists m, bott_model q rs ss dt = Ok m) <-> (2 <= length q)%nat /\ (length rs = n \/ length rs = 1%nat \/ n = 1%nat)) /\
  ((length q < 2)%nat -> bott_model q rs ss dt = Err IndexErr) /\
  ((2 <= length q)%nat -> length rs <> n -> length rs <> 1%nat -> n <> 1%nat -> bott_model q rs ss dt = Err ValueErr).
Proof.
intros q rs ss dt n. pose proof (eye_ok n (map (fun r => r ^ 2) rs)) as E. rewrite map_length in E.
split; [|split].
- destruct q as [|q0 [|q1 q]]; cbn [bott_model length]; try (split; [intros [? h]; discriminate h|lia]). fold n.
  destruct (eye_times n _) as [c|e] eqn:ee; cbn [bind].
  + split; [intros _; split; [lia|]; apply E; eexists; reflexivity|intros _; eexists; reflexivity].
  + split; [intros [? h]; discriminate h|]. intros [_ h]. apply E in h as [? h]. discriminate h.
- destruct q as [|q0 [|q1 q]]; cbn [bott_model length]; try reflexivity. lia.
- destruct q as [|q0 [|q1 q]]; cbn [bott_model length]; try lia. fold n. intros _ h1 h2 h3. unfold eye_times. rewrite map_length.
  apply PeanoNat.Nat.eqb_neq in h1. apply PeanoNat.Nat.eqb_neq in h2. apply PeanoNat.Nat.eqb_neq in h3. rewrite h1, h2, h3. reflexivity.
Qed.
(** a single sensor with several R_sigma is accepted, but the noise covariance is not square *)
Theorem C63_turn_square : forall q rs ss dt m, bott_model q rs ss dt = Ok m ->
  (square (m_meas m) (m_R m) <-> length rs = m_meas m \/ length rs = 1%nat).
Proof.
intros q rs ss dt m. destruct q as [|q0 [|q1 q]]; try discriminate. cbn [bott_model].
unfold eye_times. rewrite map_length. set (n := bott_meas_dim ss).
assert (D : forall d, length d = n -> square n (diag d)).
{ intros d <-. split; [unfold diag; now rewrite map_length, seq_length|]. apply Forall_forall. intros r hr. unfold diag in hr.
  apply in_map_iff in hr as [i [<- _]]. now rewrite map_length, seq_length. }
destruct (PeanoNat.Nat.eqb_spec (length rs) n) as [e|ne].
- cbn [bind]. intros [= <-]. cbn [m_meas m_R]. split; [auto|intros _]. apply D. now rewrite map_length.
- destruct (PeanoNat.Nat.eqb_spec (length rs) 1) as [e|ne1].
  + cbn [bind]. intros [= <-]. cbn [m_meas m_R]. split; [auto|intros _]. apply D. apply repeat_length.
  + destruct (PeanoNat.Nat.eqb_spec n 1) as [e|ne2]; [|discriminate]. cbn [bind]. intros [= <-]. cbn [m_meas m_R].
    split; [|tauto]. intros [_ h]. inversion h as [|? ? h1 _]; subst. rewrite map_length in h1. now left.
Qed.
(** R_sigma holds standard deviations, one for all bearings or one for each; signs do not matter *)
Theorem C63_turn_deviation : forall q rs ss dt m, bott_model q rs ss dt = Ok m -> length rs = m_meas m \/ length rs = 1%nat ->
  exists sd, length sd = m_meas m /\ (length rs = m_meas m -> sd = rs) /\ (length rs = 1%nat -> sd = repeat (nth 0 rs 0) (m_meas m)) /\
  forall v, length v = m_meas m -> quad (m_R m) v = dot (times sd v) (times sd v).
Proof.
intros q rs ss dt m. destruct q as [|q0 [|q1 q]]; try discriminate. cbn [bott_model]. set (n := bott_meas_dim ss). intros h hl.
assert (hn : m_meas m = n). { destruct (eye_times n _); [|discriminate]. injection h as <-. reflexivity. }
rewrite hn in *. rewrite eye_spread in h by exact hl. injection h as <-. cbn [m_R]. exists (spread n rs).
split; [now apply spread_len|]. split; [|split].
- intros e. unfold spread. apply PeanoNat.Nat.eqb_eq in e. now rewrite e.
- intros e. unfold spread. destruct (PeanoNat.Nat.eqb_spec (length rs) n) as [e'|]; [|reflexivity].
  rewrite <- e', e. destruct rs as [|r [|? ?]]; try discriminate. reflexivity.
- intros v e. now apply spread_quad.
Qed.
Theorem C63_turn : forall q0 q1 rs ss dt, ss <> [] -> length rs = length ss \/ length rs = 1%nat ->
  exists m, bott_model [q0; q1] rs (Some ss) dt = Ok m /\
  (usable turning m <-> 0 < q0 * dt /\ 0 < dt * q1 /\ Forall (fun r => r <> 0) rs).
Proof.
intros q0 q1 rs ss dt ne hl. pose proof (len_pos _ ss ne) as hn. cbn [bott_model bott_meas_dim]. rewrite eye_spread by exact hl. cbn [bind].
eexists; split; [reflexivity|]. split.
- intros (_ & _ & _ & _ & _ & hQ & hR). cbn [m_dim m_Q m_meas m_R] in *.
  pose proof (proj1 (bott_Q_pd dt q0 q1) hQ). pose proof (proj1 (spread_pd (length ss) rs hl hn) hR). tauto.
- intros (h0 & h1 & hr). split; [|split; [|split; [reflexivity|split; [|split; [|split]]]]]; cbn [m_dim m_meas m_f m_h m_Q m_R m_mean m_cov].
  + intros t x hw hd. now apply bott_width.
  + intros x hw _. apply bearing_width with (n := 5%nat); [lia|lia|exact ne|exact hw].
  + unfold turning. cbn [nth bott_init_mean]. pose proof PI_RGT_0. lra.
  + apply (diag_pd [100; 10; 100; 10; 1/10000]). posl.
  + apply bott_Q_pd. tauto.
  + now apply spread_pd.
Qed.
(** the process noise is that of the constant velocity model, plus an independent one of the turn rate *)
Theorem C63_turn_process : forall q0 q1 rs ss dt m r' ss', bott_model [q0; q1] rs ss dt = Ok m ->
  forall x vx y vy w, quad (m_Q m) [x; vx; y; vy; w] = quad (m_Q (bot_model q0 r' ss' dt)) [x; y; vx; vy] + dt * q1 * w ^ 2.
Proof.
intros q0 q1 rs ss dt m r' ss'. cbn [bott_model]. destruct (eye_times _ _); [|discriminate]. cbn [bind]. intros [= <-] x vx y vy w.
cbn [m_Q bot_model]. rewrite quad5, quad4. ring.
Qed.
(** and so is its motion, in the limit of slow turns *)
Theorem C63_slow_turn : forall dt x vx y vy eps, 0 < eps -> exists delta, 0 < delta /\ forall w, w <> 0 -> Rabs w < delta ->
  exists x' vx' y' vy' z, bott_f dt (A1 [x; vx; y; vy; w]) = Ok (A2 [[x'; vx'; y'; vy'; w]]) /\
  bot_f dt (A1 [x; y; vx; vy]) = Ok (A2 [z]) /\
  Rabs (x' - nth 0 z 0) < eps /\ Rabs (y' - nth 1 z 0) < eps /\ Rabs (vx' - nth 2 z 0) < eps /\ Rabs (vy' - nth 3 z 0) < eps.
Proof.
intros dt x vx y vy eps he. destruct (slow_turn dt x vx y vy eps he) as [delta [hd h]]. exists delta. split; [exact hd|].
intros w hw hl. destruct (h w hw hl) as (x' & vx' & y' & vy' & e & h1 & h2 & h3 & h4).
exists x', vx', y', vy', (straight dt [x; y; vx; vy]). split.
- unfold bott_f. cbn [atleast_2d forallb length PeanoNat.Nat.eqb andb nth map]. destruct (Req_EM_T w 0); [contradiction|]. cbn [andb]. now rewrite e.
- split; [rewrite bot_fE; reflexivity|]. unfold straight; cbn [nth]. auto.
Qed.
(** the functions in use: both systems measure the bearings of the position, which is in columns 0, 1 and in columns 0, 2,
    and move as specified by the step size, whatever the time *)
Theorem C63_sees : forall q r ss dt qs rs m x y, ss <> [] -> bott_model qs rs (Some ss) dt = Ok m ->
  (m_h (bot_model q r (Some ss) dt) x = Ok y -> exists rows, y = A2 rows /\
    Forall2 (fun r b => Forall2 (fun s th => is_bearing th (nth 0 r 0 - s_x s) (nth 1 r 0 - s_y s)) ss b) (atleast_2d x) rows) /\
  (m_h m x = Ok y -> exists rows, y = A2 rows /\
    Forall2 (fun r b => Forall2 (fun s th => is_bearing th (nth 0 r 0 - s_x s) (nth 2 r 0 - s_y s)) ss b) (atleast_2d x) rows).
Proof.
intros q r ss dt qs rs m x y ne e. split; intros h.
- destruct (bearing_vals _ _ _ _ _ h) as [[e0 _]|]; [contradiction|assumption].
- destruct qs as [|q0 [|q1 qs]]; try discriminate. cbn [bott_model] in e. destruct (eye_times _ _); [|discriminate]. injection e as <-.
  destruct (bearing_vals _ _ _ _ _ h) as [[e0 _]|]; [contradiction|assumption].
Qed.
Theorem C63_moves : forall q r ss dt qs rs m t x, bott_model qs rs ss dt = Ok m ->
  (width 4 x -> m_f (bot_model q r ss dt) t x = Ok (A2 (map (straight dt) (atleast_2d x)))) /\
  (forall y, m_f m t x = Ok y -> exists rows, y = A2 rows /\
    Forall2 (fun r r' => length r' = 5%nat /\ nth 4 r' 0 = nth 4 r 0 /\ rotated (nth 4 r 0 * dt) r r' /\ centre r' = centre r)
      (atleast_2d x) rows).
Proof.
intros q r ss dt qs rs m t x e. split.
- intros h. cbn [m_f bot_model]. rewrite bot_fE. replace (forallb _ _) with true; [reflexivity|].
  symmetry. apply forallb_forall. intros r0 h0. unfold width in h. rewrite Forall_forall in h. apply PeanoNat.Nat.eqb_eq. exact (h r0 h0).
- intros y. destruct qs as [|q0 [|q1 qs]]; try discriminate. cbn [bott_model] in e. destruct (eye_times _ _); [|discriminate]. injection e as <-.
  cbn [m_f]. intros h. destruct (bott_rows _ _ _ h) as [rows [e F]]. exists rows. split; [exact e|].
  clear h e. induction F; constructor; tauto.
Qed.
(** the test system: bounded by the time, of period 10 in the state, and without noise *)
Theorem C63_test : (forall t x, Forall2 (fun a b => t / 10 <= b < t / 10 + 10) (entries x) (entries (test_f x t))) /\
  (forall t x, test_f (amap (fun a => a + 10) x) t = test_f x t) /\
  (forall v, length v = 1%nat -> quad (m_Q test_model) v = 0 /\ quad (m_R test_model) v = 0).
Proof.
split; [|split].
- intros t x. apply entries_amap. intros a. apply test_step.
- intros t x. destruct x as [v|rows]; cbn [test_f amap]; unfold test_f; cbn [amap]; f_equal.
  + rewrite map_map. apply map_ext. intros a. apply test_period.
  + rewrite map_map. apply map_ext. intros r. rewrite map_map. apply map_ext. intros a. apply test_period.
- intros v e. cbn [m_Q m_R test_model]. rewrite quad_diag by exact e. destruct v as [|a [|? ?]]; try discriminate. cbn. split; ring.
Qed.

(** ** the default arguments *)
Example C63_ex_sees : exists m x y y', bott_default = Ok m /\ m_h m x = Ok y /\ m_f m 0 x = Ok y'.
Proof.
destruct (proj2 (bott_ok 1 (A1 bott_init_mean))) as [y' h]; [repeat constructor; cbn [nth bott_init_mean]; pose proof PI_RGT_0; lra|].
exists (Model 5 4 (fun _ => bott_f 1) (bott_h (Some bott_sensors)) (bott_Q 1 (1/10) (175/1000000)) (diag (repeat ((sqrt 10 * (1/1000)) ^ 2) 4)) bott_init_mean bott_init_cov 1), (A1 bott_init_mean).
eexists. exists y'. split; [reflexivity|]. split; [reflexivity|exact h].
Qed.
Example C63_ex_straight : usable any bot_default.
Proof. apply C63_straight; [discriminate|lra]. Qed.
Example C63_ex_turn : exists m, bott_default = Ok m /\ usable turning m /\ forall v, length v = 4%nat -> quad (m_R m) v = / 100000 * dot v v.
Proof.
destruct (C63_turn (1/10) (175/1000000) [sqrt 10 * (1/1000)] bott_sensors 1 ltac:(discriminate) ltac:(now right)) as [m [e h]].
assert (s0 : 0 < sqrt 10) by (apply sqrt_lt_R0; lra). assert (s2 : sqrt 10 * sqrt 10 = 10) by (apply sqrt_sqrt; lra).
exists m. split; [exact e|]. split.
- apply h. repeat split; try lra. repeat constructor. intro k. lra.
- intros v hv. assert (hm : m_meas m = 4%nat) by (injection e as <-; reflexivity).
  destruct (C63_turn_deviation _ _ _ _ _ e ltac:(now right)) as (sd & _ & _ & h1 & h2). rewrite hm in *. rewrite (h2 v hv), (h1 eq_refl).
  destruct v as [|a [|b [|c [|d [|? ?]]]]]; try discriminate. cbn [nth repeat times combine map fst snd]. unfold times. cbn [combine map fst snd]. unfold dot; cbn [combine map fst snd fold_right].
  set (t := sqrt 10) in *. replace (/ 100000) with (t * t * / 1000000) by (rewrite s2; field). field.
Qed.
(** the same value of R_sigma is a variance there and a deviation here *)
Example C63_ex_negative : ~ usable any (bot_model 1 (-1) (Some bot_sensors) 1) /\
  exists m, bott_model [1; 1] [-1] (Some bott_sensors) 1 = Ok m /\ usable turning m.
Proof.
split.
- intros h. apply C63_straight in h; [lra|discriminate].
- destruct (C63_turn 1 1 [-1] bott_sensors 1 ltac:(discriminate) ltac:(now right)) as [m [e h]]. exists m. split; [exact e|].
  apply h. repeat split; try lra. repeat constructor. lra.
Qed.
Example C63_ex_reject : bott_model [1; 1] [1; 2; 3] (Some bott_sensors) 1 = Err ValueErr.
Proof. reflexivity. Qed.
Example C63_ex_single : exists m, bott_model [1; 1] [1; 2; 3] (Some [Sensor 0 0]) 1 = Ok m /\ ~ square 1 (m_R m).
Proof. eexists; split; [reflexivity|]. intros [_ h]. inversion h; subst. discriminate. Qed.

Print Assumptions C63_growth.
Print Assumptions C63_straight.
Print Assumptions C63_straight_variance.
Print Assumptions C63_turn_accepts.
Print Assumptions C63_turn_square.
Print Assumptions C63_turn_deviation.
Print Assumptions C63_turn.
Print Assumptions C63_turn_process.
Print Assumptions C63_slow_turn.
Print Assumptions C63_sees.
Print Assumptions C63_moves.
Print Assumptions C63_test.
