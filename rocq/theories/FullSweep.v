(** * Experiments/EP_FullSweep.py:53-126, 133-175 (the table set-up and the sweep of [main])

    The values formatted into the query are taken to denote the values stored (sqlite's text to
    floating-point conversion is not modelled). Printing is not modelled. *)
Set Warnings "-notation-overridden,-ambiguous-paths".
From mathcomp Require Import all_ssreflect all_algebra.
From Coq Require Import String.
From Verif Require Import Base Database.
Set Implicit Arguments.
Unset Strict Implicit.
Unset Printing Implicit Defensive.
Import GRing.Theory.
Local Open Scope string_scope.

Section FullSweep.
Variable W : Type.
Notation M := (M W).
Definition data := seq (val * val).
(** a parameter setting: seed, transform, power, damping *)
Record cfg := Cfg { c_seed : int; c_trans : string; c_power : rat; c_damp : rat }.
Variable reseed : int -> W -> W.                            (* np.random.seed *)
Variable simulate : W -> W * res data.                    (* system.simulate(timesteps) *)
Variable build : cfg -> data -> W -> W * res unit.          (* select_transform, Estimator, build_nodes, node_estimator, node_system *)
Variable sweep : W -> W * res unit.
Variable metrics : W -> W * res (val * val).
Variables (num_iter : nat) (dyn_name exp_name : string).

Definition seed_val (c : int) : val := VNum c%:~R.

(** lines 53-87 *)
Definition exp_data (c : cfg) : dict :=
  zip exp_data_fields
    [:: VText (c_trans c); seed_val (c_seed c); VNum 0; VNum (c_power c); VNum (c_damp c); VNum 0; VNum 0; VNum 0; VNum 0; empty_list].
Definition power_sweep (c : cfg) (xy : data) : M unit :=
  mbind (mworld (build c xy)) (fun _ => ep_iterations sweep metrics num_iter true (exp_data c) exp_name).

(** lines 90-92, 106-108; comparisons with NULL fail *)
Definition matches (t : table) (c : cfg) (r : row) : bool :=
  [&& cell t r "Transform" == VText (c_trans c), cell t r "Seed" == seed_val (c_seed c),
      cell t r "Power" == VNum (c_power c), cell t r "Damping" == VNum (c_damp c) & cell t r "Iter" == VNum 50%:R].
Definition exists_query (c : cfg) : M bool :=
  mbind (@mdb W) (fun d => if lookup d exp_name is Some t then mret (has (matches t c) (trows t)) else mraise bool DbErr).

(** lines 109-119: LinAlgError is caught *)
Definition catch_linalg (m : M unit) : M unit := fun s =>
  match m s with (s', Raised LinAlgErr) => (s', Done tt) | r => r end.
Definition one_setting (override : bool) (c : cfg) (xy : data) : M unit :=
  mbind (exists_query c) (fun ex =>
  catch_linalg (if override || ~~ ex then power_sweep c xy else mret tt)).
Fixpoint settings (override : bool) (cs : seq cfg) (xy : data) : M unit :=
  if cs is c :: cs' then mbind (one_setting override c xy) (fun _ => settings override cs' xy) else mret tt.

(** lines 95-120; [zip( *data)] of no data cannot be unpacked *)
Definition product (seed : int) (trans : seq string) (powers damps : seq rat) : seq cfg :=
  flatten [seq [seq Cfg seed t pd.1 pd.2 | pd <- [seq (p, d) | p <- powers, d <- damps]] | t <- trans].
Fixpoint full_sweep (seeds : seq int) (trans : seq string) (powers damps : seq rat) (override : bool) : M unit :=
  if seeds is seed :: seeds' then
    mbind (mworld (fun w => (reseed seed w, Ok tt))) (fun _ =>
    mbind (mworld simulate) (fun xy =>
    mbind (insert_dynamics_data dyn_name xy (seed_val seed)) (fun _ =>
    if xy is [::] then mraise unit ValueErr else
    mbind (settings override (product seed trans powers damps) xy) (fun _ =>
    full_sweep seeds' trans powers damps override))))
  else mret tt.

(** lines 161-179 *)
Definition main (seeds : seq int) (trans : seq string) (powers damps : seq rat) (override : bool) : M unit :=
  mbind (@create_dynamics_table W dyn_name) (fun _ =>
  mbind (@create_experiment_table W exp_name) (fun _ =>
  full_sweep seeds trans powers damps override)).

(** a process is started on the database left behind by another one *)
Definition start (w : W) (d : db) (fuel : option nat) : st W := St w d d false fuel.
End FullSweep.
