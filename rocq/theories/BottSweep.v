(** * Experiments/EP_Sweep_BearingsOnly.py:155-217: the sweep over the settings of the turn experiment

    The query (lines 155-157) is the one of EP_FullSweep.py:90-92; it does not ask for a quantity.  As there, the values
    formatted into the query are taken to denote the values stored.  Line 29 imports [Config] and [select_transform] from
    a module that is not in the repository; this is about the script with that import mended. *)
Set Warnings "-notation-overridden,-ambiguous-paths".
From mathcomp Require Import all_ssreflect all_algebra.
From Coq Require Import String.
From Verif Require Import Base Database FullSweep Scripts.
Set Implicit Arguments.
Unset Strict Implicit.
Unset Printing Implicit Defensive.
Import GRing.Theory.
Local Open Scope string_scope.

Section BottSweep.
Variable W : Type.
Notation M := (M W).
Variable reseed : int -> W -> W.                            (* np.random.seed *)
Variable simulate : W -> W * res data.                      (* system.simulate(timesteps) *)
Variable build : cfg -> data -> W -> W * res unit.          (* select_transform, Estimator, build_nodes, node_estimator, node_system *)
Variable sweep : W -> W * res unit.
Variable metrics : W -> W * res ((val * val) * (val * val) * (val * val)).
Variables (num_iter : nat) (dyn_name exp_name : string).

(** lines 172-185: LinAlgError is caught *)
Definition bott_setting (override : bool) (c : cfg) (xy : data) : M unit :=
  mbind (@exists_query W exp_name c) (fun ex =>
  catch_linalg (if override || ~~ ex
                then bott_sweep sweep metrics (build c xy) num_iter (c_trans c) (c_seed c) (c_power c) (c_damp c) exp_name
                else mret tt)).
(** lines 160-185; [zip( *data)] of no data cannot be unpacked *)
Fixpoint bott_full_sweep (seeds : seq int) (trans : seq string) (powers damps : seq rat) (override : bool) : M unit :=
  if seeds is seed :: seeds' then
    mbind (mworld (fun w => (reseed seed w, Ok tt))) (fun _ =>
    mbind (mworld simulate) (fun xy =>
    mbind (insert_dynamics_data dyn_name xy (seed_val seed)) (fun _ =>
    if xy is [::] then mraise unit ValueErr else
    mbind (foreach (fun c => bott_setting override c xy) (product seed trans powers damps)) (fun _ =>
    bott_full_sweep seeds' trans powers damps override))))
  else mret tt.
(** lines 194-217 *)
Definition bott_main (seeds : seq int) (trans : seq string) (powers damps : seq rat) (override : bool) : M unit :=
  mbind (@create_dynamics_table W dyn_name) (fun _ =>
  mbind (@create_bott_table W exp_name) (fun _ =>
  bott_full_sweep seeds trans powers damps override)).
End BottSweep.
