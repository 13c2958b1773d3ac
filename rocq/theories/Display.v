(** * Experiments/DisplayResults.py: the tables printed from the stored results

    sqlite returns the selected rows in an order of its own: [scan] lists the rows of a table in some
    order.  The formatting of numbers (as .2e) is not modelled; a line of the report is the pair of the
    numbers printed, None for nan (the mean of nothing). *)
Set Warnings "-notation-overridden,-ambiguous-paths".
From mathcomp Require Import all_ssreflect all_algebra.
From Coq Require Import String.
From Verif Require Import Base Database.
Set Implicit Arguments.
Unset Strict Implicit.
Unset Printing Implicit Defensive.
Import GRing.Theory Num.Theory.
Local Open Scope string_scope.
Local Open Scope ring_scope.

Section Display.
Variable R : rcfType.
Variable scan : table -> seq row.

(** [SELECT col FROM name WHERE c = v AND ...] with [.fetchall()]; the values in the conditions are not NULL *)
Definition cond := seq (string * val).
Definition holds (t : table) (r : row) (cs : cond) : bool := all (fun c => cell t r c.1 == c.2) cs.
Definition select (d : db) (name col : string) (cs : cond) : res (seq val) :=
  if lookup d name is Some t then
    if all (mem (tcols t)) (col :: map fst cs) then Ok [seq cell t r col | r <- scan t & holds t r cs] else Err DbErr
  else Err DbErr.

(** [np.array(rows)], [.mean()] and [.std()]: an array that contains None raises TypeError *)
Definition stat := option (R * R).
Fixpoint numbers (vs : seq val) : res (seq R) :=
  match vs with
  | [::] => Ok [::]
  | VNum q :: vs' => do l <- numbers vs'; Ok (ratr q :: l)
  | VNull :: _ => Err TypeErr
  | _ :: _ => Err Unsupported
  end.
Definition np_mean (l : seq R) : R := (size l)%:R^-1 * \sum_(x <- l) x.
Definition np_std (l : seq R) : R := Num.sqrt ((size l)%:R^-1 * \sum_(x <- l) (x - np_mean l) ^+ 2).
Definition stats (vs : seq val) : res stat :=
  do l <- numbers vs; Ok (if l is [::] then None else Some (np_mean l, np_std l)).

(** one printed line: two queries that differ in the column only (e.g. lines 15-18) *)
Definition line (d : db) (name : string) (cs : cond) : res (stat * stat) :=
  do r <- select d name "RMSE" cs;
  do n <- select d name "NLL" cs;
  do sr <- stats r;
  do sn <- stats n;
  Ok (sr, sn).
Fixpoint lines (d : db) (name : string) (l : seq cond) : res (seq (stat * stat)) :=
  if l is cs :: l' then do x <- line d name cs; do xs <- lines d name l'; Ok (x :: xs) else Ok [::].

(** the WHERE clauses: lines 15-16, 20-21; 41-42, 46-47 (with Quantity); 84-87 (with dim) *)
Definition ep_cond (extra : cond) (power damping : rat) (trans : string) (it : nat) : cond :=
  ([:: ("Power", VNum power); ("Damping", VNum damping); ("Transform", VText trans)] ++ extra ++ [:: ("Iter", VNum it%:R)])%SEQ.

(** lines 5-24 (no [extra]) and 28-50 ([Quantity]): the smoother is the first iteration of plain EP *)
Definition sweep_report (d : db) (name : string) (extra : cond) (powers : seq rat) (damping : rat) (trans : string) :=
  lines d name (ep_cond extra 1 1 trans 1 :: [seq ep_cond extra p damping trans 50 | p <- powers]).

(** lines 81-98, one dimension ([dont_remove=True]: no outliers are removed) *)
Definition l96_report (d : db) (name : string) (dim : nat) (power : rat) (trans : string) :=
  lines d name [:: ep_cond [:: ("dim", VNum dim%:R)] 1 1 trans 0; ep_cond [:: ("dim", VNum dim%:R)] power 1 trans 9].

(** lines 108-115, 124-131, 139-146: one query per seed; lists of different lengths do not make an array
    (numpy raises ValueError or builds an array of objects, depending on the version) *)
Fixpoint per_seed (d : db) (name col : string) (l : seq cond) : res (seq (seq val)) :=
  if l is cs :: l' then do v <- select d name col cs; do vs <- per_seed d name col l'; Ok (v :: vs) else Ok [::].
Definition nested_stats (vss : seq (seq val)) : res stat :=
  if constant (map size vss) then stats (flatten vss) else Err Unsupported.
Definition ieks_report (d : db) (name : string) (extra : cond) (seeds : seq int) (it : nat) : res (stat * stat) :=
  let l := [seq (extra ++ [:: ("Seed", VNum s%:~R); ("Iter", VNum it%:R)])%SEQ | s <- seeds] in
  do r <- per_seed d name "RMSE" l;
  do n <- per_seed d name "NLL" l;
  do sr <- nested_stats r;
  do sn <- nested_stats n;
  Ok (sr, sn).

End Display.
