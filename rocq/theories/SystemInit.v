(** * The constructors of the example systems

    Systems/UniformNonlinearGrowthModel.py:26-42, BearingsOnlyTracking.py:55-90, BearingOnlyTrackingTurn.py:63-105,
    TestDynamics.py:25-41.  A constructed system is the record of what the constructor passes to
    [DynamicSystemModel] (DynamicSystem.py:71-90, whose [dt] keeps its default 1). *)
Set Warnings "-notation-overridden,-ambiguous-paths".
From Coq Require Import Reals List.
From Verif Require Import Base Systems.
Import ListNotations.
Local Open Scope R_scope.

Record model := Model {
  m_dim : nat; m_meas : nat;
  m_f : R -> arr -> res arr;  (** of the time and the state *)
  m_h : arr -> res arr;
  m_Q : list (list R); m_R : list (list R);
  m_mean : list R; m_cov : list (list R);
  m_dt : R }.

(** UniformNonlinearGrowthModel.py:31-42 *)
Definition ungm_model : model :=
  Model 1 1 (fun t x => Ok (ungm_f x t)) (fun x => Ok (ungm_h x)) (diag [1]) (diag [10]) [0] (diag [5]) 1.

(** BearingsOnlyTracking.py:60-90 *)
Definition bot_model (q r : R) (ss : option (list sensor)) (dt : R) : model :=
  Model 4 (bot_meas_dim ss) (fun _ => bot_f dt) (bot_h ss) (bot_Q dt q) (bot_R (bot_meas_dim ss) r)
        bot_init_mean bot_init_cov 1.
(** line 60: the default arguments *)
Definition bot_default : model := bot_model (1/100) (1/1000) (Some bot_sensors) (1/10).

(** BearingOnlyTrackingTurn.py:75-80 *)
Definition bott_meas_dim (ss : option (list sensor)) : nat :=
  match ss with None => length bott_sensors | Some l => length l end.
(** lines 73-74 *)
Definition bott_init_mean : list R := [1000; 300; 1000; 0; - (3 * (PI / 180))].
Definition bott_init_cov : list (list R) := diag [100; 10; 100; 10; 1/10000].
(** [np.eye(n) * v] for a vector [v] (broadcasting along the rows) *)
Definition eye_times (n : nat) (v : list R) : res (list (list R)) :=
  if Nat.eqb (length v) n then Ok (diag v)
  else if Nat.eqb (length v) 1 then Ok (diag (repeat (nth 0 v 0) n))
  else if Nat.eqb n 1 then Ok [v]
  else Err ValueErr.
(** lines 68-105; [Q_sigma] and [R_sigma] are lists *)
Definition bott_model (q rs : list R) (ss : option (list sensor)) (dt : R) : res model :=
  match q with
  | q0 :: q1 :: _ =>
      bind (eye_times (bott_meas_dim ss) (map (fun r => r ^ 2) rs)) (fun cov =>
      Ok (Model 5 (bott_meas_dim ss) (fun _ => bott_f dt) (bott_h ss) (bott_Q dt q0 q1) cov bott_init_mean bott_init_cov 1))
  | _ => Err IndexErr
  end.
(** lines 69-71: the default arguments *)
Definition bott_default : res model := bott_model [1/10; 175/1000000] [sqrt 10 * (1/1000)] (Some bott_sensors) 1.

(** TestDynamics.py:6-11 with [u] left at 0; [%] of numpy has the sign of the divisor *)
Definition test_f1 (t x : R) : R := (x - 10 * IZR (Int_part (x / 10))) + 1/10 * t + 1/100 * 0.
Definition test_f (x : arr) (t : R) : arr := amap (test_f1 t) x.
(** lines 14-20 *)
Definition test_h (x : arr) : arr := amap (fun v => v * 100) x.
(** lines 28-41 *)
Definition test_model : model :=
  Model 1 1 (fun t x => Ok (test_f x t)) (fun x => Ok (test_h x)) (diag [0]) (diag [0]) [0] (diag [1/10000]) 1.
