(** * Vocabulary for the database properties *)
Set Warnings "-notation-overridden,-ambiguous-paths".
From mathcomp Require Import all_ssreflect all_algebra.
From Coq Require Import String.
From Verif Require Import Base Database FullSweep.
Set Implicit Arguments.
Unset Strict Implicit.
Unset Printing Implicit Defensive.
Import GRing.Theory.

(** keys without NULL occur at most once *)
Definition unique_keys (t : table) : bool := uniq [seq k <- map (keyof t) (trows t) | VNull \notin k].
(** [d'] has every table of [d], with the same columns and key, and with rows only added at the end *)
Definition grown (d d' : db) : Prop :=
  forall name t, lookup d name = Some t ->
  exists new, lookup d' name = Some (Table (tcols t) (tkey t) (trows t ++ new)).

Section Logs.
Variable W : Type.
Variable sweep : W -> W * res unit.
Variable metrics : W -> W * res (val * val).
(** the metrics after each of [k] sweeps, and the exception that ends the run early, if any *)
Fixpoint logs (k : nat) (w : W) : seq (val * val) * option err :=
  if k is k'.+1 then
    match sweep w with
    | (_, Err e) => ([::], Some e)
    | (w1, Ok _) =>
        match metrics w1 with
        | (_, Err e) => ([::], Some e)
        | (w2, Ok m) => let r := logs k' w2 in (m :: r.1, r.2)
        end
    end
  else ([::], None).
(** [k] sweeps in sequence *)
Fixpoint sweeps (k : nat) (w : W) : W * option err :=
  if k is k'.+1 then match sweep w with (w1, Err e) => (w1, Some e) | (w1, Ok _) => sweeps k' w1 end else (w, None).
End Logs.

(** the logged rows: iterations are numbered from [q + 1] *)
Fixpoint log_rows (tr sd pw dp : val) (q : rat) (ms : seq (val * val)) : seq row :=
  if ms is (a, b) :: ms' then
    [:: tr; sd; VNum (q + 1); pw; dp; a; b; empty_list; empty_list] :: log_rows tr sd pw dp (q + 1)%R ms'
  else [::].
Definition insert_all (t : table) (rs : seq row) : table := foldl insert_ignore t rs.
(** an exception that stopped the run *)
Definition outcome (e : option err) : out unit := if e is Some e then Raised e else Done tt.

Section Sweep.
Variable W : Type.
Variable reseed : int -> W -> W.
Variable simulate : W -> W * res data.
Variable build : cfg -> data -> W -> W * res unit.
Variable sweep : W -> W * res unit.
Variable metrics : W -> W * res (val * val).
Variables (num_iter : nat) (dyn_name exp_name : string).

(** what one setting logs from world [w] *)
Definition setting_logs (c : cfg) (xy : data) (w : W) : seq (val * val) * option err :=
  match build c xy w with (_, Err e) => ([::], Some e) | (w', Ok _) => logs sweep metrics num_iter w' end.
(** results depend on the setting and its data only (no Monte Carlo), data on the seed only *)
Definition deterministic : Prop :=
  (forall c xy w w', setting_logs c xy w = setting_logs c xy w') /\
  (forall s w w', (simulate (reseed s w)).2 = (simulate (reseed s w')).2).
(** if the tables exist they have the schema of the code *)
Definition schema_ok (d : db) : Prop :=
  (forall t, lookup d dyn_name = Some t -> tcols t = dyn_cols /\ tkey t = [:: "Seed"; "t"]%string) /\
  (forall t, lookup d exp_name = Some t -> tcols t = exp_cols /\ tkey t = exp_key).

(** the database found after a number of attempts, each in a fresh process that may be killed after any
    number of writes and commits *)
Fixpoint attempts (seeds : seq int) (trans : seq string) (powers damps : seq rat) (override : bool)
    (l : seq (W * option nat)) (d : db) : db :=
  if l is (w, k) :: l' then
    attempts seeds trans powers damps override l'
      (s_durable (main reseed simulate build sweep metrics num_iter dyn_name exp_name
                    seeds trans powers damps override (start w d k)).1)
  else d.
End Sweep.
