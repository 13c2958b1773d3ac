(** * MomentMatching/Estimator.py:29-107 (exact arithmetic)

    A transform is any procedure that maps a function and a state to (mean, cov, cross_cov), may
    raise, and may change the rest of the world [W] (random generator).  The arrays a transform
    returns are fresh, so the in-place operations [+=], [/=] on [xx_cov], [z_cov] touch nobody else. *)
Set Warnings "-notation-overridden,-ambiguous-paths".
From mathcomp Require Import all_ssreflect all_algebra.
From Verif Require Import Base ND LinAlg Gauss Transforms.
Set Implicit Arguments.
Unset Strict Implicit.
Unset Printing Implicit Defensive.
Import GRing.Theory Num.Theory Order.Theory.
Local Open Scope ring_scope.

Section Estimator.
Variable R : rcfType.
Variable illcond : forall n, 'M[R]_n -> bool.
Variable W : Type.
Notation nd := (nd R).
Notation gauss := (gauss R).
Notation dfun := (dfun R).

Definition moments := (nd * nd * nd)%type.
Definition transform := dfun -> gauss -> W -> W * res moments.
(** a transform that uses no randomness *)
Definition pure_transform (f : dfun -> gauss -> res moments) : transform := fun func g w => (w, f func g).

(** array divided by a Python number; division by zero yields inf/nan: outside the model *)
Definition ndivs (a : nd) (c : R) : res nd := if c == 0 then Err Unsupported else Ok (nscale c^-1 a).

(** continue with a computation that does not touch the world *)
Definition andthen A B (r : W * res A) (k : A -> res B) : W * res B := (r.1, bind r.2 k).

(** Estimator.py:34-46 *)
Variables (trans_map meas_map : transform) (Q Rm : nd) (power : R).

(** Estimator.py:54-60: after the transform *)
Definition time_step (m : moments) : res gauss :=
  let: (xx_mean, xx_cov, _) := m in
  do c1 <- niadd xx_cov Q;
  do c2 <- ndivs c1 power;
  do c3 <- symmetrize c2;
  do _ <- np_cholesky c3;
  Ok (gaussian xx_mean c3).
(** Estimator.py:48-60 *)
Definition proj_trans (func : dfun) (state : gauss) (w : W) : W * res gauss :=
  andthen (trans_map func state w) time_step.

(** Estimator.py:73-82: after the transform *)
Definition meas_step (state : gauss) (meas : nd) (m : moments) : res gauss :=
  let: (z_mean, z_cov, xz_cross_cov) := m in
  do r <- ndivs Rm power;
  do c1 <- niadd z_cov r;
  do zc <- symmetrize c1;
  do _ <- np_cholesky zc;
  do kt <- np_solve zc (ntr xz_cross_cov);
  let kalman_gain := ntr kt in
  do sm <- g_mean illcond state;
  do dv <- nsub meas z_mean;
  do corr <- nmatmul kalman_gain (nreshape_col dv);
  do mean <- nadd sm corr;
  do sc <- g_cov illcond state;
  do kx <- nmatmul kalman_gain (ntr xz_cross_cov);
  do c2 <- nsub sc kx;
  do cov <- symmetrize c2;
  Ok (gaussian mean cov).
(** Estimator.py:62-82 *)
Definition proj_meas (func : dfun) (state : gauss) (meas : nd) (w : W) : W * res gauss :=
  let meas := natleast1 meas in
  match (do sc <- g_cov illcond state; np_cholesky sc) with
  | Err e => (w, Err e)
  | Ok _ => andthen (meas_map func state w) (meas_step state meas)
  end.

(** Estimator.py:97-103: the state of the next node that the smoother conditions on *)
Definition back_target (next_fwd_cavity : gauss) (next_state : option gauss) (xx_mean xx_cov : nd) : res (nd * nd) :=
  let general := do c <- gpow illcond next_fwd_cavity power;
                 do q <- gmul illcond (gaussian xx_mean xx_cov) c;
                 do mu <- g_mean illcond q;
                 do Sigma <- g_cov illcond q;
                 Ok (mu, Sigma) in
  if power == 1 then
    if next_state is Some s then do mu <- g_mean illcond s; do Sigma <- g_cov illcond s; Ok (mu, Sigma)
    else general
  else general.
(** Estimator.py:93-107: after the transform *)
Definition back_step (state next_fwd_cavity : gauss) (next_state : option gauss) (m : moments) : res gauss :=
  let: (xx_mean, xx_cov, xx_cross_cov) := m in
  do r <- ndivs Q power;
  do c1 <- niadd xx_cov r;
  do xc <- symmetrize c1;
  do jt <- np_solve xc (ntr xx_cross_cov);
  let J := ntr jt in
  do '(mu, Sigma) <- back_target next_fwd_cavity next_state xx_mean xc;
  do sm <- g_mean illcond state;
  do dm <- nsub mu xx_mean;
  do jd <- ndot J dm;
  do mean <- nadd sm jd;
  do sc <- g_cov illcond state;
  do ds <- nsub Sigma xc;
  do t <- nmatmul J ds;
  do t2 <- nmatmul t (ntr J);
  do c2 <- nadd sc t2;
  do cov <- symmetrize c2;
  Ok (gaussian mean cov).
(** Estimator.py:84-107 *)
Definition proj_back (func : dfun) (state next_fwd_cavity : gauss) (next_state : option gauss) (w : W) : W * res gauss :=
  andthen (trans_map func state w) (back_step state next_fwd_cavity next_state).

End Estimator.
Arguments andthen {W A B}.
Arguments pure_transform {R W}.
Arguments time_step : simpl never.
Arguments meas_step : simpl never.
Arguments back_step : simpl never.
Arguments back_target : simpl never.
