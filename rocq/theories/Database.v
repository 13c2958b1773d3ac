(** * Utils/Database.py and ExpectationPropagation/Iterations.py:45-66

    A database is a list of named tables.  A connection sees its own uncommitted changes ([working]);
    other processes, and this one after a restart, see what was committed ([durable]).  sqlite's commit is
    taken to be atomic and durable.  The process may die at any time: [fuel] counts the database writes and
    commits it still lives to perform (None: it does not die); dying elsewhere is the same as dying before
    the next of these.  [W] is everything else (nodes, random generator). *)
Set Warnings "-notation-overridden,-ambiguous-paths".
From mathcomp Require Import all_ssreflect all_algebra.
From Coq Require Import String.
From Verif Require Import Base.
Set Implicit Arguments.
Unset Strict Implicit.
Unset Printing Implicit Defensive.
Import GRing.Theory.
Delimit Scope string_scope with string.

Lemma string_eqP : Equality.axiom String.eqb.
Proof. by move=> a b; apply: (iffP idP) => /String.eqb_eq. Qed.
Definition string_eqMixin := EqMixin string_eqP.
Canonical string_eqType := EqType string string_eqMixin.

(** ** values, rows, tables *)

(** what a cell holds; nan is stored as NULL; a pickled Python object is a blob named by a number *)
Inductive val := VNull | VText of string | VNum of rat | VBlob of nat.
Definition val_code (v : val) : option (string + (rat + nat)) :=
  match v with VNull => None | VText s => Some (inl s) | VNum q => Some (inr (inl q)) | VBlob n => Some (inr (inr n)) end.
Definition val_decode (c : option (string + (rat + nat))) : val :=
  match c with None => VNull | Some (inl s) => VText s | Some (inr (inl q)) => VNum q | Some (inr (inr n)) => VBlob n end.
Lemma val_codeK : cancel val_code val_decode. Proof. by case. Qed.
Definition val_eqMixin := CanEqMixin val_codeK.
Canonical val_eqType := EqType val val_eqMixin.

Definition row := seq val.
Record table := Table { tcols : seq string; tkey : seq string; trows : seq row }.
Definition cell (t : table) (r : row) (c : string) : val := nth VNull r (seq.index c (tcols t)).
(** UNIQUE (...): rows with a NULL in the key never conflict *)
Definition keyof (t : table) (r : row) : seq val := [seq cell t r c | c <- tkey t].
Definition conflict (t : table) (r r' : row) : bool := (keyof t r == keyof t r') && (VNull \notin keyof t r).
(** INSERT OR IGNORE *)
Definition insert_ignore (t : table) (r : row) : table :=
  if has (conflict t r) (trows t) then t else Table (tcols t) (tkey t) (rcons (trows t) r).

Definition db := seq (string * table).
Fixpoint lookup (d : db) (name : string) : option table :=
  if d is p :: d' then if p.1 == name then Some p.2 else lookup d' name else None.
Fixpoint update (d : db) (name : string) (t : table) : db :=
  if d is p :: d' then if p.1 == name then (name, t) :: d' else p :: update d' name t else [::].

(** ** Python dictionaries: insertion-ordered *)
Definition dict := seq (string * val).
Definition dget (d : dict) (k : string) : option val := ohead [seq p.2 | p <- d & p.1 == k].
Definition dset (d : dict) (k : string) (v : val) : dict :=
  if k \in map fst d then [seq if p.1 == k then (k, v) else p | p <- d] else rcons d (k, v).
Definition ddel (d : dict) (k : string) : dict := [seq p <- d | p.1 != k].
(** [tuple(list(data.values()))] *)
Definition dvalues (d : dict) : seq val := map snd d.

(** ** effects *)
Inductive out (A : Type) := Done of A | Raised of err | Died.
Arguments Done {A}.
Arguments Raised {A}.
Arguments Died {A}.

Section Conn.
Variable W : Type.
Record st := St { s_w : W; s_durable : db; s_working : db; s_intx : bool; s_fuel : option nat }.
Definition M A := st -> st * out A.
Definition mret A (a : A) : M A := fun s => (s, Done a).
Definition mraise A e : M A := fun s => (s, Raised e).
Definition mbind A B (m : M A) (k : A -> M B) : M B := fun s =>
  match m s with (s', Done a) => k a s' | (s', Raised e) => (s', Raised e) | (s', Died) => (s', Died) end.
(** computation outside the database *)
Definition mworld A (f : W -> W * res A) : M A := fun s =>
  let: (w, r) := f (s_w s) in
  (St w (s_durable s) (s_working s) (s_intx s) (s_fuel s), match r with Ok a => Done a | Err e => Raised e end).
Definition mlift A (r : res A) : M A := fun s => (s, match r with Ok a => Done a | Err e => Raised e end).
(** one more database write or commit, if the process lives that long *)
Definition tick : M unit := fun s =>
  match s_fuel s with
  | Some 0 => (s, Died)
  | Some k.+1 => (St (s_w s) (s_durable s) (s_working s) (s_intx s) (Some k), Done tt)
  | None => (s, Done tt)
  end.
Definition mdb : M db := fun s => (s, Done (s_working s)).
(** an INSERT opens a transaction *)
Definition mset (d : db) : M unit := fun s => (St (s_w s) (s_durable s) d true (s_fuel s), Done tt).
(** [conn.commit()] *)
Definition commit : M unit :=
  mbind tick (fun _ s => (St (s_w s) (s_working s) (s_working s) false (s_fuel s), Done tt)).
(** CREATE TABLE IF NOT EXISTS; outside a transaction it is durable at once *)
Definition create_table (name : string) (cols key : seq string) : M unit :=
  mbind tick (fun _ s =>
    if lookup (s_working s) name is Some _ then (s, Done tt)
    else let d := rcons (s_working s) (name, Table cols key [::]) in
         (St (s_w s) (if s_intx s then s_durable s else d) d (s_intx s) (s_fuel s), Done tt)).
(** INSERT OR IGNORE INTO name (cols) VALUES (?, ...) *)
Definition insert (name : string) (cols : seq string) (vals : seq val) : M unit :=
  mbind tick (fun _ => mbind mdb (fun d =>
    if size vals != size cols then mraise unit DbErr else
    if lookup d name is Some t then
      if all (mem (tcols t)) cols
      then mset (update d name (insert_ignore t [seq nth VNull vals (seq.index c cols) | c <- tcols t]))
      else mraise unit DbErr
    else mraise unit DbErr)).

(** ** Utils/Database.py *)
Local Open Scope string_scope.
(** lines 61-71 *)
Definition dyn_cols := [:: "Seed"; "t"; "X"; "Y"].
Definition create_dynamics_table (name : string) : M unit := create_table name dyn_cols [:: "Seed"; "t"].
(** lines 74-88 *)
Fixpoint insert_dynamics_from (name : string) (t : nat) (data : seq (val * val)) (seed : val) : M unit :=
  if data is (x, y) :: data' then
    mbind (insert name dyn_cols [:: seed; VNum t%:R; x; y]) (fun _ => insert_dynamics_from name t.+1 data' seed)
  else mret tt.
Definition insert_dynamics_data name data seed := insert_dynamics_from name 0 data seed.
(** lines 91-105, 8-17, 108-110 *)
Definition exp_key := [:: "Transform"; "Seed"; "Iter"; "Power"; "Damping"].
Definition exp_cols := [:: "Transform"; "Seed"; "Iter"; "Power"; "Damping"; "RMSE"; "NLL"; "Mean"; "Variance"].
Definition create_experiment_table (name : string) : M unit := create_table name exp_cols exp_key.
Definition exp_data_fields := rcons exp_cols "Nodes".
(** lines 113-117 *)
Definition insert_experiment_data (name : string) (data : dict) : M unit := insert name exp_cols (dvalues data).

(** ** ExpectationPropagation/Iterations.py:45-66 *)
Variable sweep : W -> W * res unit.              (* ep_fwd_back_updates(nodes) *)
Variable metrics : W -> W * res (val * val).     (* node_metrics(nodes, x_true) *)
(** the pickle of an empty list *)
Definition empty_list : val := VBlob 0.
(** [exp_data['Iter'] += 1] *)
Definition incr (d : dict) : res dict :=
  match dget d "Iter" with
  | Some (VNum q) => Ok (dset d "Iter" (VNum (q + 1)))
  | _ => Err TypeErr
  end.
Fixpoint ep_loop (k : nat) (logging : bool) (name : string) (d : dict) : M unit :=
  if k is k'.+1 then
    mbind (mworld sweep) (fun _ =>
    if logging then
      mbind (mlift (incr d)) (fun d =>
      mbind (mworld metrics) (fun m =>
      let d := dset (dset (dset (dset d "RMSE" m.1) "NLL" m.2) "Mean" empty_list) "Variance" empty_list in
      mbind (insert_experiment_data name d) (fun _ =>
      mbind commit (fun _ => ep_loop k' logging name d))))
    else ep_loop k' logging name d)
  else mret tt.
(** [exp_data] is a namedtuple; [x_true is not None] is [logging]; [del exp_data['Nodes']] raises if there is none *)
Definition ep_iterations (max_iter : nat) (logging : bool) (exp_data : dict) (name : string) : M unit :=
  if "Nodes" \in map fst exp_data then ep_loop max_iter logging name (ddel exp_data "Nodes") else mraise unit IndexErr.
End Conn.
