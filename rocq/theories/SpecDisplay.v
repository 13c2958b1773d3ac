(** * Specification of the reports *)
Set Warnings "-notation-overridden,-ambiguous-paths".
From mathcomp Require Import all_ssreflect all_algebra.
From Coq Require Import String.
From Verif Require Import Base Database FullSweep SpecDb SpecScripts.
Set Implicit Arguments.
Unset Strict Implicit.
Unset Printing Implicit Defensive.
Import GRing.Theory Num.Theory.
Local Open Scope ring_scope.

Section Runs.
Variable W : Type.
Variable reseed : int -> W -> W.
Variable simulate : W -> W * res data.
Variable build : cfg -> data -> W -> W * res unit.
Variable sweep : W -> W * res unit.
Variable metrics : W -> W * res (val * val).
Variable num_iter : nat.
Variables (seeds : seq int) (trans : seq string) (powers damps : seq rat).

(** the world after sweeps and measurements *)
Fixpoint world_after (k : nat) (w : W) : W :=
  if k is k'.+1 then
    match sweep w with
    | (w1, Err _) => w1
    | (w1, Ok _) => match metrics w1 with (w2, Err _) => w2 | (w2, Ok _) => world_after k' w2 end
    end
  else w.
Definition world_of (c : cfg) (xy : data) (w : W) : W :=
  match build c xy w with (w', Err _) => w' | (w', Ok _) => world_after num_iter w' end.

(** the settings of one seed in sequence: each with the metrics after its completed sweeps *)
Fixpoint runs (cs : seq cfg) (xy : data) (w : W) : seq (cfg * seq (val * val)) :=
  if cs is c :: cs' then
    (c, (setting_logs build sweep metrics num_iter c xy w).1) :: runs cs' xy (world_of c xy w)
  else [::].
(** all seeds; seeding makes the start of each independent of what happened before *)
Definition all_runs (w : W) : seq (cfg * seq (val * val)) :=
  flatten [seq match simulate (reseed seed w) with
               | (w1, Ok xy) => runs (product seed trans powers damps) xy w1
               | _ => [::]
               end | seed <- seeds].

(** what is known about iteration [i] (from 1) of a setting: one value per seed that got that far *)
Definition is_setting (t : string) (p d : rat) (c : cfg) : bool := [&& c_trans c == t, c_power c == p & c_damp c == d].
Definition sample (w : W) (t : string) (p d : rat) (i : nat) : seq (val * val) :=
  [seq nth (VNull, VNull) cl.2 i.-1 | cl <- all_runs w & is_setting t p d cl.1 && (i <= size cl.2)%N].
End Runs.

(** mean and (population) standard deviation of a list, nothing (nan) for the empty list *)
Section Stat.
Variable R : rcfType.
Definition is_stat (l : seq R) (s : option (R * R)) : Prop :=
  if s is Some (m, sd) then
    [/\ l <> [::], (size l)%:R * m = \sum_(x <- l) x, 0 <= sd & (size l)%:R * sd ^+ 2 = \sum_(x <- l) (x - m) ^+ 2]
  else l = [::].
Definition is_num (v : val) : bool := if v is VNum _ then true else false.
Definition num_or_null (v : val) : bool := is_num v || (v == VNull).
Definition real_of (v : val) : R := if v is VNum q then ratr q else 0.
Definition describes (l : seq (val * val)) (o : option (R * R) * option (R * R)) : Prop :=
  is_stat [seq real_of m.1 | m <- l] o.1 /\ is_stat [seq real_of m.2 | m <- l] o.2.
Definition numeric (l : seq (val * val)) : bool := all (fun m => is_num m.1 && is_num m.2) l.
End Stat.

(** what the Lorenz experiment measured after iteration [i] (from 0) of a setting; its keys are
    (Transform, Seed, dim, Iter, Power, Damping) *)
Definition l96_match (trans : string) (dim i : nat) (p dp : rat) (k : seq val) : bool :=
  [&& nth VNull k 0 == VText trans, nth VNull k 2 == VNum dim%:R, nth VNull k 3 == VNum i%:R, nth VNull k 4 == VNum p & nth VNull k 5 == VNum dp].
Definition l96_sample (keys : seq (seq val)) (ms : seq (val * val)) (trans : string) (dim i : nat) (p dp : rat) : seq (val * val) :=
  [seq km.2 | km <- zip keys ms & l96_match trans dim i p dp km.1].
(** the metrics of a quantity among those of position, velocity and angle *)
Definition part (q : string) (m : (val * val) * (val * val) * (val * val)) : val * val := nth (VNull, VNull) [:: m.1.1; m.1.2; m.2] (seq.index q quantities).
