(** * The other experiment scripts: Experiments/EP_Sweep_BearingsOnly.py:32-82, 112-158, EP_Sweep_L96.py,
    IEKS_Sweep_UNGM.py, IEKS_Sweep_L96.py and IEKS_Sweep_BearingsOnly.py

    The numerical work (systems, nodes, smoothers, metrics) is arbitrary computation on the world [W].
    [DbErr] also stands for sqlite3.IntegrityError.  Printing is not modelled. *)
Set Warnings "-notation-overridden,-ambiguous-paths".
From mathcomp Require Import all_ssreflect all_algebra.
From Coq Require Import String.
From Verif Require Import Base Database.
Set Implicit Arguments.
Unset Strict Implicit.
Unset Printing Implicit Defensive.
Import GRing.Theory.
Local Open Scope string_scope.

Section Scripts.
Variable W : Type.
Notation M := (M W).
Notation comp A := (W -> W * res A).
Definition num (n : nat) : val := VNum n%:R.
Definition numz (n : int) : val := VNum n%:~R.

(** [for a in l: body] *)
Fixpoint foreach A (body : A -> M unit) (l : seq A) : M unit :=
  if l is a :: l' then mbind (body a) (fun _ => foreach body l') else mret tt.

(** ** EP_Sweep_BearingsOnly.py *)
(** lines 32-51 *)
Definition bott_key := [:: "Transform"; "Quantity"; "Seed"; "Iter"; "Power"; "Damping"].
Definition bott_cols := [:: "Transform"; "Quantity"; "Seed"; "Iter"; "Power"; "Damping"; "RMSE"; "NLL"].
Definition create_bott_table (name : string) : M unit := create_table name bott_cols bott_key.
(** lines 112-119 *)
Definition bott_fields := bott_cols.
(** lines 54-64 *)
Definition insert_bott_data (name : string) (data : dict) : M unit := insert name bott_cols (dvalues data).

Section BearingsOnly.
Variable sweep : comp unit.                                             (* ep_fwd_back_updates(nodes) *)
Variable metrics : comp ((val * val) * (val * val) * (val * val)).      (* node_metrics(nodes, x_true) *)
(** lines 76-79: the loop over [losses]; the dictionary is updated in place *)
Fixpoint insert_losses (name : string) (d : dict) (losses : seq (string * (val * val))) : M dict :=
  if losses is (key, values) :: losses' then
    let d := dset (dset (dset d "RMSE" values.1) "NLL" values.2) "Quantity" (VText key) in
    mbind (insert_bott_data name d) (fun _ => insert_losses name d losses')
  else mret d.
(** lines 70-82 *)
Fixpoint bott_loop (k : nat) (logging : bool) (name : string) (d : dict) : M unit :=
  if k is k'.+1 then
    mbind (mworld sweep) (fun _ =>
    if logging then
      mbind (mlift (incr d)) (fun d =>
      mbind (mworld metrics) (fun m =>
      let: (pos, vel, ang) := m in
      mbind (insert_losses name d [:: ("position", pos); ("velocity", vel); ("angle", ang)]) (fun d =>
      mbind (@commit W) (fun _ => bott_loop k' logging name d))))
    else bott_loop k' logging name d)
  else mret tt.
Definition bott_iterations (max_iter : nat) (logging : bool) (exp_data : dict) (name : string) : M unit :=
  bott_loop max_iter logging name exp_data.
(** lines 122-158; [build] is select_transform, Estimator, build_nodes, node_estimator, node_system *)
Definition bott_sweep (build : comp unit) (max_iter : nat) (trans_id : string) (seed : int) (power damping : rat) (name : string) : M unit :=
  mbind (mworld build) (fun _ =>
  bott_iterations max_iter true
    (zip bott_fields [:: VText trans_id; VNull; numz seed; VNum 0; VNum power; VNum damping; VNum 0; VNum 0]) name).
End BearingsOnly.

(** ** EP_Sweep_L96.py *)
(** a plain INSERT: sqlite raises IntegrityError if the key is already stored *)
Definition insert_strict (name : string) (cols : seq string) (vals : seq val) : M unit :=
  mbind (@tick W) (fun _ => mbind (@mdb W) (fun d =>
    if size vals != size cols then mraise unit DbErr else
    if lookup d name is Some t then
      if all (mem (tcols t)) cols then
        let r := [seq nth VNull vals (seq.index c cols) | c <- tcols t] in
        if has (conflict t r) (trows t) then mraise unit DbErr
        else mset (update d name (Table (tcols t) (tkey t) (rcons (trows t) r)))
      else mraise unit DbErr
    else mraise unit DbErr)).
(** lines 49-65 *)
Definition l96_key := [:: "Transform"; "Seed"; "dim"; "Iter"; "Power"; "Damping"].
Definition l96_cols := [:: "Transform"; "Seed"; "dim"; "Iter"; "Power"; "Damping"; "RMSE"; "NLL"].

Section EPL96.
Variable make : nat -> comp unit.                 (* L96(dim, init_cond_path) *)
Variable reseed : int -> W -> W.                  (* np.random.seed *)
Variable simulate : comp unit.                    (* system.simulate(timesteps) *)
Variable build : nat -> rat -> rat -> comp unit.  (* select_transform, Estimator, build_nodes, node_estimator, node_system *)
Variable sweep : comp unit.
Variable record : nat -> comp unit.               (* means[iter, j], stds[iter, j] *)
Variable metrics : comp (val * val).
Variables (name trans_id : string).
(** lines 95-108 *)
Definition l96_iter (dim : nat) (seed : int) (power damping : rat) (i : nat) : M unit :=
  mbind (mworld sweep) (fun _ =>
  mbind (mworld (record i)) (fun _ =>
  mbind (mworld metrics) (fun m =>
  mbind (insert_strict name l96_cols [:: VText trans_id; numz seed; num dim; num i; VNum power; VNum damping; m.1; m.2]) (fun _ =>
  @commit W)))).
(** lines 75-112 *)
Definition l96_setting (dim : nat) (seed : int) (s : rat * rat * nat) : M unit :=
  let: (power, damping, max_iter) := s in
  mbind (mworld (build dim power damping)) (fun _ => foreach (l96_iter dim seed power damping) (iota 0 max_iter)).
(** lines 68-75 *)
Definition l96_case (settings : seq (rat * rat * nat)) (c : nat * int) : M unit :=
  mbind (mworld (make c.1)) (fun _ =>
  mbind (mworld (fun w => (reseed c.2 w, Ok tt))) (fun _ =>
  mbind (mworld simulate) (fun _ =>
  foreach (l96_setting c.1 c.2) settings))).
(** lines 47-68; [settings] is zip(power_list, damping_list, iter_list) *)
Definition l96_main (dims : seq nat) (seeds : seq int) (settings : seq (rat * rat * nat)) : M unit :=
  mbind (@create_table W name l96_cols l96_key) (fun _ =>
  mbind (@commit W) (fun _ =>
  foreach (l96_case settings) [seq (d, s) | d <- dims, s <- seeds])).
End EPL96.

(** ** the IEKS sweeps *)
Section IEKS.
Variable reseed : int -> W -> W.
Variables (name : string) (num_iter : nat).
(** IEKS_Sweep_UNGM.py:23-45, 48-81; [experiment] is system.simulate(N), IEKS(system, dim)(y, num_iter), rmse and nll *)
Definition ungm_cols := [:: "Seed"; "Iter"; "RMSE"; "NLL"].
Definition ieks_ungm (experiment : comp (val * val)) (seeds : seq int) : M unit :=
  mbind (@create_table W name ungm_cols [:: "Seed"; "Iter"]) (fun _ =>
  foreach (fun seed =>
    mbind (mworld (fun w => (reseed seed w, Ok tt))) (fun _ =>
    mbind (mworld experiment) (fun m =>
    mbind (@insert W name ungm_cols [:: numz seed; num num_iter; m.1; m.2]) (fun _ =>
    @commit W)))) seeds).
(** IEKS_Sweep_L96.py:24-48, 51-92; [make] is L96(dim, init_cond_path) *)
Definition ieks_l96_cols := [:: "dim"; "Seed"; "Iter"; "RMSE"; "NLL"].
Definition ieks_l96 (make : nat -> comp unit) (experiment : nat -> comp (val * val)) (dims : seq nat) (seeds : seq int) : M unit :=
  mbind (@create_table W name ieks_l96_cols [:: "dim"; "Seed"; "Iter"]) (fun _ =>
  foreach (fun c : nat * int =>
    mbind (mworld (make c.1)) (fun _ =>
    mbind (mworld (fun w => (reseed c.2 w, Ok tt))) (fun _ =>
    mbind (mworld (experiment c.1)) (fun m =>
    mbind (@insert W name ieks_l96_cols [:: num c.1; numz c.2; num num_iter; m.1; m.2]) (fun _ =>
    @commit W))))) [seq (d, s) | d <- dims, s <- seeds]).
(** IEKS_Sweep_BearingsOnly.py:24-42, 71-73, 76-112 *)
Definition ieks_bott_cols := [:: "Quantity"; "Seed"; "Iter"; "RMSE"; "NLL"].
Definition ieks_bott (experiment : comp ((val * val) * (val * val) * (val * val))) (seeds : seq int) : M unit :=
  mbind (@create_table W name ieks_bott_cols [:: "Quantity"; "Seed"; "Iter"]) (fun _ =>
  foreach (fun seed =>
    mbind (mworld (fun w => (reseed seed w, Ok tt))) (fun _ =>
    mbind (mworld experiment) (fun m =>
    let: (pos, vel, ang) := m in
    mbind (foreach (fun kv : string * (val * val) =>
        @insert W name ieks_bott_cols [:: VText kv.1; numz seed; num num_iter; kv.2.1; kv.2.2])
      [:: ("position", pos); ("velocity", vel); ("angle", ang)]) (fun _ =>
    @commit W)))) seeds).
End IEKS.
End Scripts.
