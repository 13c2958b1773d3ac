(** * C40, C41, C42: the growth model and the two bearings-only trackers

    These theorems are over the real numbers of the standard library, whose axioms they use
    (printed below). *)
Set Warnings "-notation-overridden,-ambiguous-paths".
From Coq Require Import Reals Lra List.
From Verif Require Import Base Systems SpecSys SystemsFacts.
Import ListNotations.
Local Open Scope R_scope.

(** ** C40 growth model *)

(** every entry of the next state is bounded by half the entry plus 20.5 *)
Theorem C40_step : forall x t,
  Forall2 (fun a b => Rabs b <= Rabs a / 2 + 41 / 2) (entries x) (entries (ungm_f x t)).
Proof. intros x t. apply entries_amap. intros a. apply ungm_step. Qed.

(** trajectories driven by noise of size at most B stay within max(|x_0|, 41 + 2B) for ever *)
Theorem C40_bounded : forall (t x w : nat -> R) B, 0 <= B ->
  (forall k, Rabs (w k) <= B) ->
  (forall k, exists y, ungm_f (A1 [x k]) (t k) = A1 [y] /\ x (S k) = y + w k) ->
  forall k, Rabs (x k) <= Rmax (Rabs (x 0%nat)) (41 + 2 * B).
Proof.
intros t x w B hB hw hx. apply (ungm_traj t x w B hB hw).
intros k. destruct (hx k) as [y [e ->]]. injection e as <-. reflexivity.
Qed.

(** and enter every neighbourhood of [-41 - 2B, 41 + 2B] geometrically fast *)
Theorem C40_absorbed : forall (t x w : nat -> R) B, 0 <= B ->
  (forall k, Rabs (w k) <= B) ->
  (forall k, exists y, ungm_f (A1 [x k]) (t k) = A1 [y] /\ x (S k) = y + w k) ->
  forall k, Rabs (x k) <= Rabs (x 0%nat) * (/ 2) ^ k + (41 + 2 * B) * (1 - (/ 2) ^ k).
Proof.
intros t x w B hB hw hx. apply (ungm_enter t x w B hB hw).
intros k. destruct (hx k) as [y [e ->]]. injection e as <-. reflexivity.
Qed.

(** the measurement loses exactly the sign *)
Theorem C40_measure : forall a b,
  (exists y, ungm_h (A1 [a]) = A1 [y] /\ 0 <= y) /\
  (ungm_h (A1 [a]) = ungm_h (A1 [b]) <-> a = b \/ a = - b).
Proof.
intros a b; split.
- eexists; split; [reflexivity|]. unfold ungm_h1. pose proof (pow2_ge_0 a). lra.
- unfold ungm_h, amap, ungm_h1; cbn [map]. split.
  + intros e. injection e as e. assert (h : (a - b) * (a + b) = 0) by (replace ((a - b) * (a + b)) with (a ^ 2 - b ^ 2) by ring; lra).
    apply Rmult_integral in h. destruct h; [left|right]; lra.
  + intros [-> | ->]; [reflexivity|]. replace ((- b) ^ 2) with (b ^ 2) by ring. reflexivity.
Qed.

(** ** C41 constant velocity model *)
Theorem C41_linear : forall dt a b x y, length x = 4%nat -> length y = 4%nat ->
  exists x' y', bot_f dt (A1 x) = Ok (A2 [x']) /\ bot_f dt (A1 y) = Ok (A2 [y']) /\
  bot_f dt (A1 (lin a x b y)) = Ok (A2 [lin a x' b y']).
Proof. exact bot_linear. Qed.

(** steps compose, for every array (errors included) *)
Theorem C41_flow : forall dt1 dt2 x, bind (bot_f dt1 x) (bot_f dt2) = bot_f (dt1 + dt2) x.
Proof. exact bot_compose. Qed.

(** each row moves straight on; arrays with a row of another length raise ValueError *)
Theorem C41_straight : forall dt x,
  (Forall (fun r => length r = 4%nat) (atleast_2d x) -> bot_f dt x = Ok (A2 (map (straight dt) (atleast_2d x)))) /\
  (Exists (fun r => length r <> 4%nat) (atleast_2d x) -> bot_f dt x = Err ValueErr).
Proof.
intros dt x. rewrite bot_fE. split; intros h.
- replace (forallb _ _) with true; [reflexivity|]. symmetry. apply forallb_forall. intros r hr.
  rewrite Forall_forall in h. apply PeanoNat.Nat.eqb_eq, h, hr.
- destruct (forallb _ _) eqn:e; [|reflexivity]. exfalso. apply Exists_exists in h as [r [hr hl]].
  rewrite forallb_forall in e. apply hl, PeanoNat.Nat.eqb_eq, e, hr.
Qed.

(** the process noise covariance is positive definite exactly when q dt > 0 *)
Theorem C41_noise_pd : forall dt q, pos_def 4 (bot_Q dt q) <-> 0 < q * dt.
Proof. exact bot_Q_pd. Qed.

(** the noise of a step of dt1 + dt2 is that of a step dt1, propagated, plus that of a step dt2 *)
Theorem C41_noise_split : forall dt1 dt2 q,
  madd (mmul 4 (mmul 4 (bot_F dt2) (bot_Q dt1 q)) (transpose 4 (bot_F dt2))) (bot_Q dt2 q) = bot_Q (dt1 + dt2) q.
Proof. exact bot_Q_split. Qed.

(** every entry of a measurement is the principal angle of the line of sight from its sensor *)
Theorem C41_bearing : forall ss x y, ss <> [] -> bot_h (Some ss) x = Ok y ->
  exists rows, y = A2 rows /\
    Forall2 (fun r b => Forall2 (fun s th => is_bearing th (nth 0 r 0 - s_x s) (nth 1 r 0 - s_y s)) ss b) (atleast_2d x) rows.
Proof. intros ss x y ne h. destruct (bearing_vals _ _ _ _ _ h) as [[e _]|]; [contradiction|assumption]. Qed.

(** and that angle is unique away from the sensor *)
Theorem C41_bearing_unique : forall th th' x y, x <> 0 \/ y <> 0 -> is_bearing th x y -> is_bearing th' x y -> th = th'.
Proof. intros th th' x y nz h h'. rewrite (bearing_unique th x y nz h). symmetry. exact (bearing_unique th' x y nz h'). Qed.

(** the shipped sensors determine the position *)
Theorem C41_locate : forall x x',
  isOk (bot_h (Some bot_sensors) x) = true -> bot_h (Some bot_sensors) x = bot_h (Some bot_sensors) x' ->
  map (fun r => (nth 0 r 0, nth 1 r 0)) (atleast_2d x) = map (fun r => (nth 0 r 0, nth 1 r 0)) (atleast_2d x').
Proof. intros x x'. apply (corner_rows 10 0 1 x x'). lra. Qed.

(** with [sensor_list=None] the system reports four measurements but none can be taken *)
Theorem C41_none : bot_meas_dim None = 4%nat /\ forall x, bot_h None x = Err TypeErr.
Proof. split; reflexivity. Qed.

(** ** C42 coordinated turn *)

(** the transition works exactly on rows of five entries with non-zero turn rate *)
Theorem C42_defined : forall dt x,
  (exists y, bott_f dt x = Ok y) <-> Forall (fun r => length r = 5%nat /\ nth 4 r 0 <> 0) (atleast_2d x).
Proof. exact bott_ok. Qed.

(** velocity turns by w dt, turn rate, speed and the centre of the circle are kept *)
Theorem C42_turn : forall dt x y, bott_f dt x = Ok y ->
  exists rows, y = A2 rows /\
  Forall2 (fun r r' => length r' = 5%nat /\ nth 4 r' 0 = nth 4 r 0 /\ rotated (nth 4 r 0 * dt) r r' /\
                       centre r' = centre r /\ speed2 r' = speed2 r)
    (atleast_2d x) rows.
Proof. exact bott_rows. Qed.

Theorem C42_flow : forall dt1 dt2 x, bind (bott_f dt1 x) (bott_f dt2) = bott_f (dt1 + dt2) x.
Proof. exact bott_compose. Qed.

(** after 2 pi / w the target is back *)
Theorem C42_period : forall r, length r = 5%nat -> nth 4 r 0 <> 0 -> bott_f (2 * PI / nth 4 r 0) (A1 r) = Ok (A2 [r]).
Proof. exact bott_period. Qed.

(** straight flight is not covered: zero turn rate divides by zero *)
Theorem C42_zero : forall dt r, length r = 5%nat -> nth 4 r 0 = 0 -> bott_f dt (A1 r) = Err Unsupported.
Proof. exact bott_zero_rate. Qed.

Theorem C42_noise_pd : forall dt q0 q1, pos_def 5 (bott_Q dt q0 q1) <-> 0 < q0 * dt /\ 0 < dt * q1.
Proof. exact bott_Q_pd. Qed.

Theorem C42_locate : forall x x',
  isOk (bott_h (Some bott_sensors) x) = true -> bott_h (Some bott_sensors) x = bott_h (Some bott_sensors) x' ->
  map (fun r => (nth 0 r 0, nth 2 r 0)) (atleast_2d x) = map (fun r => (nth 0 r 0, nth 2 r 0)) (atleast_2d x').
Proof. intros x x'. apply (corner_rows 20000 0 2 x x'). lra. Qed.

(** ** concrete cases *)
Module Demo.
Example traj_exists : exists t x w : nat -> R,
  x 0%nat = 100 /\ (forall k, w k = 1) /\ (forall k, exists y, ungm_f (A1 [x k]) (t k) = A1 [y] /\ x (S k) = y + w k).
Proof.
exists INR, (fix x k := match k with O => 100 | S k => ungm_f1 (INR k) (x k) + 1 end), (fun _ => 1).
split; [reflexivity|]. split; [reflexivity|]. intros k. eexists; split; reflexivity.
Qed.
Example moves : bot_f (1/2) (A1 [1; 2; 4; 6]) = Ok (A2 [[3; 5; 4; 6]]).
Proof. destruct (C41_straight (1/2) (A1 [1; 2; 4; 6])) as [h _]. rewrite h; [|repeat constructor]. unfold straight; cbn. do 3 f_equal. f_equal; [lra|f_equal; lra]. Qed.
Example default_noise : pos_def 4 (bot_Q (1/10) (1/100)).
Proof. apply C41_noise_pd. lra. Qed.
Example sees : isOk (bot_h (Some bot_sensors) (A1 [0; 0; 1; 0])) = true.
Proof. reflexivity. Qed.
(** a quarter turn to the left around (0, 1) *)
Example quarter : exists y, bott_f (PI/2) (A1 [0; 1; 0; 0; 1]) = Ok (A2 [y]) /\ y = [1; 0; 1; 1; 1].
Proof.
eexists; split.
- unfold bott_f; cbn [atleast_2d forallb length Nat.eqb andb nth map]. destruct (Req_EM_T 1 0); [lra|]. reflexivity.
- rewrite bott_row by lra. rewrite Rmult_1_l, cos_PI2, sin_PI2. f_equal; [field|]. f_equal; [field|]. f_equal; [field|]. f_equal. ring.
Qed.
Example default_turn_noise : pos_def 5 (bott_Q 1 (1/10) (175/1000000)).
Proof. apply C42_noise_pd. lra. Qed.
End Demo.

Print Assumptions C40_step.
Print Assumptions C40_bounded.
Print Assumptions C40_absorbed.
Print Assumptions C40_measure.
Print Assumptions C41_linear.
Print Assumptions C41_flow.
Print Assumptions C41_straight.
Print Assumptions C41_noise_pd.
Print Assumptions C41_noise_split.
Print Assumptions C41_bearing.
Print Assumptions C41_bearing_unique.
Print Assumptions C41_locate.
Print Assumptions C41_none.
Print Assumptions C42_defined.
Print Assumptions C42_turn.
Print Assumptions C42_flow.
Print Assumptions C42_period.
Print Assumptions C42_zero.
Print Assumptions C42_noise_pd.
Print Assumptions C42_locate.
