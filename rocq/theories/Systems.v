(** * Systems/UniformNonlinearGrowthModel.py, BearingsOnlyTracking.py, BearingOnlyTrackingTurn.py

    Over the real numbers of the standard library (sin, cos, atan); rounding is not modelled.
    An array is a vector or a list of rows. *)
Set Warnings "-notation-overridden,-ambiguous-paths".
From Coq Require Import Reals List.
From Verif Require Import Base.
Import ListNotations.
Local Open Scope R_scope.

Inductive arr := A1 (v : list R) | A2 (rows : list (list R)).
(** [np.atleast_2d] *)
Definition atleast_2d (x : arr) : list (list R) := match x with A1 v => [v] | A2 rows => rows end.
(** an elementwise operation *)
Definition amap (f : R -> R) (x : arr) : arr :=
  match x with A1 v => A1 (map f v) | A2 rows => A2 (map (map f) rows) end.
Definition dot (a b : list R) : R := fold_right Rplus 0 (map (fun p => fst p * snd p) (combine a b)).
(** [einsum('ij, j->i', m, x)] *)
Definition matvec (m : list (list R)) (x : list R) : list R := map (fun r => dot r x) m.

(** [np.arctan2(y, x)] (arctan2(0, 0) = 0; signed zeros and infinities are not modelled) *)
Definition arctan2 (y x : R) : R :=
  if Rlt_dec 0 x then atan (y / x)
  else if Rlt_dec x 0 then (if Rle_dec 0 y then atan (y / x) + PI else atan (y / x) - PI)
  else if Rlt_dec 0 y then PI / 2
  else if Rlt_dec y 0 then - (PI / 2) else 0.

(** ** UniformNonlinearGrowthModel.py *)
(** lines 7-14, one entry *)
Definition ungm_f1 (t x : R) : R := 1/2 * x + (25 * x) / (1 + x ^ 2) + 8 * cos (12/10 * t).
Definition ungm_f (x : arr) (t : R) : arr := amap (ungm_f1 t) x.
(** lines 17-23 *)
Definition ungm_h1 (x : R) : R := x ^ 2 / 20.
Definition ungm_h (x : arr) : arr := amap ungm_h1 x.

(** ** BearingsOnlyTracking.py *)
(** lines 22-26 *)
Definition bot_F (dt : R) : list (list R) :=
  [[1; 0; dt; 0];
   [0; 1; 0; dt];
   [0; 0; 1; 0];
   [0; 0; 0; 1]].
(** lines 16-31: [einsum('ij, kj->ki', f_t, atleast_2d(x))]; a row of another length raises *)
Definition bot_f (dt : R) (x : arr) : res arr :=
  let xs := atleast_2d x in
  if forallb (fun r => Nat.eqb (length r) 4) xs then Ok (A2 (map (matvec (bot_F dt)) xs)) else Err ValueErr.

(** lines 10-14 *)
Record sensor := Sensor { s_x : R; s_y : R }.
Definition bot_sensors : list sensor := [Sensor (-10) 10; Sensor 10 10; Sensor (-10) (-10); Sensor 10 (-10)].
(** the bearings of one row; [ix], [iy] are the columns of the position *)
Definition bearings (ix iy : nat) (ss : list sensor) (r : list R) : list R :=
  map (fun s => arctan2 (nth iy r 0 - s_y s) (nth ix r 0 - s_x s)) ss.
(** lines 34-42 (and BearingOnlyTrackingTurn.py:50-60); [sensor_list=None] is iterated over and raises TypeError; a missing column raises
    IndexError (unless there is no sensor); without sensors the result is [np.array([]).T] *)
Definition bearing_h (ix iy : nat) (ss : option (list sensor)) (x : arr) : res arr :=
  match ss with
  | None => Err TypeErr
  | Some nil => Ok (A1 nil)
  | Some ss =>
      let xs := atleast_2d x in
      if forallb (fun r => Nat.ltb iy (length r) && Nat.ltb ix (length r))%bool xs
      then Ok (A2 (map (bearings ix iy ss) xs)) else Err IndexErr
  end.
Definition bot_h := bearing_h 0 1.
(** lines 62-63: the prior *)
Definition diag (d : list R) : list (list R) :=
  map (fun i => map (fun j => if Nat.eqb i j then nth i d 0 else 0) (seq 0 (length d))) (seq 0 (length d)).
Definition bot_init_mean : list R := [0; 0; 1; 0].
Definition bot_init_cov : list (list R) := diag [1/10; 1/10; 1/10; 1/10].
(** lines 72-76 *)
Definition mscale (c : R) (m : list (list R)) : list (list R) := map (map (Rmult c)) m.
Definition bot_Q (dt q : R) : list (list R) :=
  mscale q [[dt^3/3; 0; dt^2/2; 0];
            [0; dt^3/3; 0; dt^2/2];
            [dt^2/2; 0; dt; 0];
            [0; dt^2/2; 0; dt]].
(** lines 79-80 *)
Definition bot_R (n : nat) (r : R) : list (list R) := diag (repeat r n).
(** lines 64-67: measurement dimension, with [len(Default_Sensor_List) = 4] when None is given *)
Definition bot_meas_dim (ss : option (list sensor)) : nat :=
  match ss with None => length bot_sensors | Some l => length l end.

(** ** BearingOnlyTrackingTurn.py *)
(** lines 28-34, the matrix of one row with turn rate [w] *)
Definition bott_F (dt w : R) : list (list R) :=
  [[1; sin (w*dt)/w;       0; - (1 - cos (w*dt))/w; 0];
   [0; cos (w*dt);         0; - sin (w*dt);         0];
   [0; (1 - cos (w*dt))/w; 1; sin (w*dt)/w;         0];
   [0; sin (w*dt);         0; cos (w*dt);           0];
   [0; 0;                  0; 0;                    1]].
(** lines 19-47; [w = 0] divides by zero: numpy warns and yields nan, outside the real numbers *)
Definition bott_f (dt : R) (x : arr) : res arr :=
  let xs := atleast_2d x in
  if forallb (fun r => Nat.eqb (length r) 5) xs then
    if forallb (fun r => if Req_EM_T (nth 4 r 0) 0 then false else true) xs
    then Ok (A2 (map (fun r => matvec (bott_F dt (nth 4 r 0)) r) xs)) else Err Unsupported
  else Err ValueErr.
(** lines 50-60 *)
Definition bott_h := bearing_h 0 2.
(** lines 12-15 *)
Definition bott_sensors : list sensor :=
  [Sensor (-20000) 20000; Sensor 20000 20000; Sensor (-20000) (-20000); Sensor 20000 (-20000)].
(** lines 85-90: [np.kron(np.eye(2), M) * Q_sigma[0]] and the turn-rate entry *)
Definition bott_Q (dt q0 q1 : R) : list (list R) :=
  [[q0 * (dt^3/3); q0 * (dt^2/2); 0; 0; 0];
   [q0 * (dt^2/2); q0 * dt; 0; 0; 0];
   [0; 0; q0 * (dt^3/3); q0 * (dt^2/2); 0];
   [0; 0; q0 * (dt^2/2); q0 * dt; 0];
   [0; 0; 0; 0; dt * q1]].
