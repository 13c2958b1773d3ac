(** * Filters/KalmanFilter.py:124-253: the iterated filter and smoother (exact arithmetic)

    Both classes use the Taylor transform (lines 130, 179), which draws no random numbers.
    [jacobian(f, argnum=0)(x, t, u)] is [jac (f t u) x]. *)
Set Warnings "-notation-overridden,-ambiguous-paths".
From mathcomp Require Import all_ssreflect all_algebra.
From Verif Require Import Base ND LinAlg Gauss Transforms Estimator KalmanLoop Kalman.
Set Implicit Arguments.
Unset Strict Implicit.
Unset Printing Implicit Defensive.
Import GRing.Theory Num.Theory Order.Theory.
Local Open Scope ring_scope.

Section Iterated.
Variable R : rcfType.
Variable illcond : forall n, 'M[R]_n -> bool.
Variable U : Type.
Notation nd := (nd R).
Notation gauss := (gauss R).
Notation dfun := (dfun R).
Notation jarr := (jarr R).
Definition sysfun := R -> U -> dfun.

(** [a[0]] *)
Definition nidx0 (a : nd) : res nd :=
  match a with
  | Nd0 _ => Err IndexErr
  | Nd1 n v => if n == 0%N then Err IndexErr else Ok (Nd0 (ent v 0 0))
  | Nd2 m n A => if m == 0%N then Err IndexErr else Ok (Nd1 (\col_(j < n) ent A 0 j))
  end.
Definition jidx0 (a : jarr) : res nd :=
  match a with
  | JLow b => nidx0 b
  | JHigh (s0 :: s) data =>
      if s0 == 0%N then Err IndexErr else
      if nd_of_flat s data is Some b then Ok b else Err Unsupported
  | JHigh [::] _ => Err IndexErr
  end.

Section IEKF.
Variables (transition measurement : sysfun) (Q Rm : nd) (init_state : gauss) (dt : R).

(** KalmanFilter.py:137-148: one iteration; [x], [P] are the prediction's mean and covariance *)
Definition iekf_body (t : R) (u : U) (x P meas : nd) (state : gauss) : res gauss :=
  do m1 <- g_mean illcond state;
  do h0 <- call (measurement t u) m1;
  do h_i <- nidx0 h0;
  do j0 <- jac (measurement t u) m1;
  do H_i <- jidx0 j0;
  do d <- nsub x m1;
  do Hd <- nmatmul H_i d;
  do z_mean <- nsub h_i Hd;
  do HP <- nmatmul H_i P;
  do HPH <- nmatmul HP (ntr H_i);
  do z_cov <- nadd HPH Rm;
  do xz_cross_cov <- nmatmul P (ntr H_i);
  do kt <- np_solve z_cov (ntr xz_cross_cov);
  let kalman_gain := ntr kt in
  do dv <- nsub (natleast1 meas) z_mean;
  do corr <- ndot kalman_gain dv;
  do mean <- nadd x corr;
  do kx <- ndot kalman_gain (ntr xz_cross_cov);
  do cov <- nsub P kx;
  Ok (gaussian mean cov).
(** KalmanFilter.py:136: the [for] loop *)
Fixpoint iekf_loop (num_iter : nat) (t : R) (u : U) (x P meas : nd) (state : gauss) : res gauss :=
  if num_iter is k.+1 then
    do state' <- iekf_body t u x P meas state;
    iekf_loop k t u x P meas state'
  else Ok state.
(** KalmanFilter.py:133-150 *)
Definition iterated_update (num_iter : nat) (t : R) (u : U) (state : gauss) (meas : nd) : res gauss :=
  do x <- g_mean illcond state;
  do P <- g_cov illcond state;
  iekf_loop num_iter t u x P meas state.
(** KalmanFilter.py:152-170; a negative [num_iter] behaves like 0 *)
Definition iekf (num_iter : nat) (ys : seq nd) (prior : option gauss) (t_zero : R) (u : U) : res (seq gauss) :=
  (kalman_filter (@nsqueeze R)
     (predict (pure_transform (W := unit) (tt_transform illcond)) transition Q)
     (fun t u g y w => (w, iterated_update num_iter t u g y)) dt init_state ys prior t_zero u tt).2.
End IEKF.

(** ** IEKS *)
(** [D @ v] for a Jacobian [D] *)
Definition jmatmul (D : jarr) (v : nd) : res nd :=
  match D, v with
  | JLow a, _ => nmatmul a v
  | JHigh [:: b; k; n] data, Nd1 n' w =>
      if n == n' then Ok (Nd2 (\matrix_(i < b, j < k) \sum_(l < n) nth 0 data ((i * k + j) * n + l) * ent w l 0))
      else Err ValueErr
  | _, _ => Err Unsupported
  end.
(** KalmanFilter.py:186-188: value of the returned lambda, for the function [F] with time and input fixed;
    autograd's Jacobian of it at an [x] of the shape of [x0] is the Jacobian of [F] at [x0] *)
Definition lin_call (F : dfun) (x0 x : nd) : res nd :=
  do f0 <- call F x0;
  do D <- jac F x0;
  do d <- nsub x x0;
  do Dd <- jmatmul D d;
  nadd f0 Dd.
Definition linearise (f : sysfun) (x0 : nd) : sysfun := fun t u =>
  DFun (lin_call (f t u) x0)
       (fun x => if shape x == shape x0 then do _ <- lin_call (f t u) x0 x; jac (f t u) x0 else Err Unsupported).

(** the attributes of an IEKS object that change (lines 47-48, 201-202, 223, 240-241, 250-251) *)
Record ieks_obj := IeksObj { i_trans : sysfun; i_meas : sysfun; i_fl : seq sysfun; i_hl : seq sysfun }.

(** the attributes that never change; [f], [h] also stand for self.Df, self.Dh (lines 181-184) *)
Variables (f h : sysfun) (Q Rm : nd) (init_state : gauss) (dt : R) (u0 : U).

(** KalmanFilter.py:178-184: a fresh object ([f_list], [h_list] do not exist yet; they are assigned
    before they are read) *)
Definition ieks_new : ieks_obj := IeksObj f h [::] [::].

Definition o_predict (t : R) (u : U) (g : gauss) (o : ieks_obj) : ieks_obj * res gauss :=
  predict (pure_transform (W := ieks_obj) (tt_transform illcond)) (i_trans o) Q t u g o.
Definition o_correct (t : R) (u : U) (g : gauss) (y : nd) (o : ieks_obj) : ieks_obj * res gauss :=
  correct illcond (pure_transform (W := ieks_obj) (tt_transform illcond)) (i_meas o) Rm t u g y o.
Definition o_smooth (t : R) (u : U) (g g' : gauss) (o : ieks_obj) : ieks_obj * res gauss :=
  smooth illcond (pure_transform (W := ieks_obj) (tt_transform illcond)) (i_trans o) Q t u g g' o.

Definition set_trans (f : sysfun) (o : ieks_obj) := IeksObj f (i_meas o) (i_fl o) (i_hl o).
Definition set_meas (f : sysfun) (o : ieks_obj) := IeksObj (i_trans o) f (i_fl o) (i_hl o).
Definition onth A (l : seq A) i : res A := nth (Err IndexErr) [seq Ok x | x <- l] i.

(** KalmanFilter.py:200-208 *)
Fixpoint ik_filter_loop (ys : seq nd) (i : nat) (t : R) (prior : gauss) (o : ieks_obj) : ieks_obj * res (seq gauss) :=
  if ys is y :: ys' then
    match onth (i_fl o) i with
    | Err e => (o, Err e)
    | Ok fi =>
      let o := set_trans fi o in
      match onth (i_hl o) i with
      | Err e => (o, Err e)
      | Ok hi =>
        let o := set_meas hi o in
        wbind (o_predict t u0 prior o) (fun pred o =>
        wbind (o_correct t u0 pred (nsqueeze y) o) (fun corrected o =>
        wbind (ik_filter_loop ys' i.+1 (t + dt) corrected o) (fun rest o =>
        (o, Ok (corrected :: rest)))))
      end
    end
  else (o, Ok [::]).
(** KalmanFilter.py:190-210 as called in line 246 *)
Definition ik_filter (ys : seq nd) (o : ieks_obj) := ik_filter_loop ys 0 0 init_state o.

(** KalmanFilter.py:222-228; [i] counts down from [len(filtered_list) - 1] *)
Fixpoint ik_smoother_loop (states : seq gauss) (i : nat) (t : R) (next_state : gauss) (o : ieks_obj) : ieks_obj * res (seq gauss) :=
  if states is s :: states' then
    match onth (i_fl o) i with
    | Err e => (o, Err e)
    | Ok fi =>
      let o := set_trans fi o in
      wbind (o_smooth t u0 s next_state o) (fun smoothed o =>
      wbind (ik_smoother_loop states' i.-1 (t - dt) (g_copy smoothed) o) (fun rest o =>
      (o, Ok (smoothed :: rest))))
    end
  else (o, Ok [::]).
(** KalmanFilter.py:212-230 *)
Definition ik_smoother (filtered : seq gauss) (o : ieks_obj) : ieks_obj * res (seq gauss) :=
  match rev filtered with
  | [::] => (o, Err StopIterErr)
  | last_state :: others =>
      let next_state := g_copy last_state in
      wbind (ik_smoother_loop others (size filtered).-1 (dt *+ (size filtered).-1) next_state o) (fun rest o =>
      (o, Ok (rev (next_state :: rest))))
  end.

(** KalmanFilter.py:240-241 and 250-251; reading [state.mean] can raise.  The two comprehensions read
    the same means, so one evaluation is modelled. *)
Definition relinearise (sm : seq gauss) (o : ieks_obj) : ieks_obj * res unit :=
  match mapM (g_mean illcond) sm with
  | Err e => (o, Err e)
  | Ok ms => (IeksObj (i_trans o) (i_meas o) [seq linearise f x | x <- ms] [seq linearise h x | x <- ms], Ok tt)
  end.
(** KalmanFilter.py:243-251 *)
Fixpoint ieks_loop (k : nat) (ys : seq nd) (sm : seq gauss) (o : ieks_obj) : ieks_obj * res (seq gauss) :=
  if k is k'.+1 then
    wbind (ik_filter ys o) (fun fl o =>
    wbind (ik_smoother fl o) (fun sm' o =>
    wbind (relinearise sm' o) (fun _ o =>
    ieks_loop k' ys sm' o)))
  else (o, Ok sm).
(** KalmanFilter.py:232-253; [u0] is the default input [None] *)
Definition ieks_call (num_iter : nat) (ys : seq nd) (o : ieks_obj) : ieks_obj * res (seq gauss) :=
  wbind (kalman_filter (@nsqueeze R) o_predict o_correct dt init_state ys None 0 u0 o) (fun fl o =>
  wbind (kalman_smoother (@g_copy R) o_smooth dt fl u0 o) (fun sm o =>
  wbind (relinearise sm o) (fun _ o =>
  ieks_loop num_iter.-1 ys sm o))).

End Iterated.
Arguments iekf_body : simpl never.
Arguments nidx0 : simpl never.
Arguments jidx0 : simpl never.
