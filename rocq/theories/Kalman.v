(** * Filters/KalmanFilter.py:35-121: the filter/smoother methods (exact arithmetic)

    The attributes [transform], [meas_transform], [transition], [measurement], [transition_noise],
    [measurement_noise], [init_state], [dt] set by the constructor (lines 39-52) are the section
    variables; nothing in this class assigns them later.  [transition t u] is the function
    [partial(self.transition, t=t, u=u)].  The arrays a transform returns are fresh, so the in-place
    [+=] touches nobody else.  Logging is not modelled. *)
Set Warnings "-notation-overridden,-ambiguous-paths".
From mathcomp Require Import all_ssreflect all_algebra.
From Verif Require Import Base ND LinAlg Gauss Transforms Estimator KalmanLoop.
Set Implicit Arguments.
Unset Strict Implicit.
Unset Printing Implicit Defensive.
Import GRing.Theory Num.Theory Order.Theory.
Local Open Scope ring_scope.

Section Kalman.
Variable R : rcfType.
Variable illcond : forall n, 'M[R]_n -> bool.
Variables W U : Type.
Notation nd := (nd R).
Notation gauss := (gauss R).
Notation dfun := (dfun R).
Notation transform := (transform R W).
Notation moments := (nd * nd * nd)%type.

Variables (trans_map meas_map : transform) (transition measurement : R -> U -> dfun).
Variables (Q Rm : nd) (init_state : gauss) (dt : R).

(** KalmanFilter.py:57-58: after the transform *)
Definition predict_step (m : moments) : res gauss :=
  let: (xx_mean, xx_cov, _) := m in
  do c <- niadd xx_cov Q;
  Ok (gaussian xx_mean c).
(** KalmanFilter.py:54-58 *)
Definition predict (t : R) (u : U) (prior_state : gauss) (w : W) : W * res gauss :=
  andthen (trans_map (transition t u) prior_state w) predict_step.

(** KalmanFilter.py:65-72: after the transform *)
Definition correct_step (state : gauss) (meas : nd) (m : moments) : res gauss :=
  let: (z_mean, z_cov, xz_cross_cov) := m in
  do zc <- niadd z_cov Rm;
  do kt <- np_solve zc (ntr xz_cross_cov);
  let kalman_gain := ntr kt in
  let meas := natleast1 meas in
  do sm <- g_mean illcond state;
  do dv <- nsub meas z_mean;
  do corr <- ndot kalman_gain dv;
  do mean <- nadd sm corr;
  do sc <- g_cov illcond state;
  do kx <- ndot kalman_gain (ntr xz_cross_cov);
  do cov <- nsub sc kx;
  Ok (gaussian mean cov).
(** KalmanFilter.py:60-72 *)
Definition correct (t : R) (u : U) (state : gauss) (meas : nd) (w : W) : W * res gauss :=
  andthen (meas_map (measurement t u) state w) (correct_step state meas).

(** KalmanFilter.py:78-84: after the transform *)
Definition smooth_step (state next_state : gauss) (m : moments) : res gauss :=
  let: (xx_mean, xx_cov, xx_cross_cov) := m in
  do xc <- niadd xx_cov Q;
  do jt <- np_solve xc (ntr xx_cross_cov);
  let J := ntr jt in
  do sm <- g_mean illcond state;
  do nm <- g_mean illcond next_state;
  do dm <- nsub nm xx_mean;
  do jd <- ndot J dm;
  do mean <- nadd sm jd;
  do sc <- g_cov illcond state;
  do nc <- g_cov illcond next_state;
  do ds <- nsub nc xc;
  do t <- nmatmul J ds;
  do t2 <- nmatmul t (ntr J);
  do cov <- nadd sc t2;
  Ok (gaussian mean cov).
(** KalmanFilter.py:74-84 *)
Definition smooth (t : R) (u : U) (state next_state : gauss) (w : W) : W * res gauss :=
  andthen (trans_map (transition t u) state w) (smooth_step state next_state).

(** KalmanFilter.py:86-104 and 106-121 *)
Definition filter_run := kalman_filter (@nsqueeze R) predict correct dt init_state.
Definition smoother_run := kalman_smoother (@g_copy R) smooth dt.

End Kalman.
Arguments predict_step : simpl never.
Arguments correct_step : simpl never.
Arguments smooth_step : simpl never.
