(** * Filters/KalmanFilter.py:86-121: the filter and smoother loops

    Structure layer.  [predict], [correct], [smooth] are arbitrary methods that may raise and may
    change the rest of the world [W]; time is a value of an additive group (exact arithmetic). *)
Set Warnings "-notation-overridden,-ambiguous-paths".
From mathcomp Require Import all_ssreflect all_algebra.
From Verif Require Import Base.
Set Implicit Arguments.
Unset Strict Implicit.
Unset Printing Implicit Defensive.
Import GRing.Theory.
Local Open Scope ring_scope.

(** continue with a computation that may touch the world *)
Definition wbind W A B (r : W * res A) (k : A -> W -> W * res B) : W * res B :=
  match r with (w, Ok a) => k a w | (w, Err e) => (w, Err e) end.

Section Loop.
Variables (Tm : zmodType) (U G Y0 Y W : Type).
Variable squeeze : Y0 -> Y.                               (* measurement.squeeze() *)
Variable gcopy : G -> G.                                  (* Gaussian.py:267-271 *)
Variable predict : Tm -> U -> G -> W -> W * res G.
Variable correct : Tm -> U -> G -> Y -> W -> W * res G.
Variable smooth : Tm -> U -> G -> G -> W -> W * res G.    (* t, u, state, next_state *)
Variable dt : Tm.
Variable init_state : G.

(** KalmanFilter.py:96-104 *)
Fixpoint filter_loop (ys : seq Y0) (t : Tm) (u : U) (prior : G) (w : W) : W * res (seq G) :=
  if ys is y :: ys' then
    wbind (predict t u prior w) (fun pred w =>
    wbind (correct t u pred (squeeze y) w) (fun corrected w =>
    wbind (filter_loop ys' (t + dt) u corrected w) (fun rest w =>
    (w, Ok (corrected :: rest)))))
  else (w, Ok [::]).
(** KalmanFilter.py:86-104 *)
Definition kalman_filter (ys : seq Y0) (prior : option G) (t_zero : Tm) (u : U) (w : W) : W * res (seq G) :=
  filter_loop ys t_zero u (if prior is Some g then g else init_state) w.

(** KalmanFilter.py:115-119; returns what the loop appends to [result] *)
Fixpoint smoother_loop (states : seq G) (t : Tm) (u : U) (next_state : G) (w : W) : W * res (seq G) :=
  if states is s :: states' then
    wbind (smooth t u s next_state w) (fun smoothed w =>
    wbind (smoother_loop states' (t - dt) u (gcopy smoothed) w) (fun rest w =>
    (w, Ok (smoothed :: rest))))
  else (w, Ok [::]).
(** KalmanFilter.py:106-121; [(N-1) * dt] is used only when [N >= 1] *)
Definition kalman_smoother (filtered : seq G) (u : U) (w : W) : W * res (seq G) :=
  match rev filtered with
  | [::] => (w, Err StopIterErr)
  | last_state :: others =>
      let t := dt *+ (size filtered).-1 in
      let next_state := gcopy last_state in
      wbind (smoother_loop others t u next_state w) (fun rest w =>
      (w, Ok (rev (next_state :: rest))))
  end.

End Loop.
Arguments wbind : simpl never.
