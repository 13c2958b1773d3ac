(** * Vocabulary for the properties of the experiment scripts *)
Set Warnings "-notation-overridden,-ambiguous-paths".
From mathcomp Require Import all_ssreflect all_algebra.
From Coq Require Import String.
From Verif Require Import Base Database FullSweep.
Set Implicit Arguments.
Unset Strict Implicit.
Unset Printing Implicit Defensive.
Import GRing.Theory.
Local Open Scope string_scope.


Section Worlds.
Variable W : Type.
(** what is measured after each of [k] sweeps, and the exception that ends the run early, if any *)
Fixpoint trace A (sweep : W -> W * res unit) (metrics : W -> W * res A) (k : nat) (w : W) : seq A * option err :=
  if k is k'.+1 then
    match sweep w with
    | (_, Err e) => ([::], Some e)
    | (w1, Ok _) =>
        match metrics w1 with
        | (_, Err e) => ([::], Some e)
        | (w2, Ok m) => (m :: (trace sweep metrics k' w2).1, (trace sweep metrics k' w2).2)
        end
    end
  else ([::], None).
(** the database found after a number of attempts, each in a fresh process that may be killed after any
    number of writes and commits *)
Definition attempts_of (main : M W unit) (l : seq (W * option nat)) (d : db) : db :=
  foldl (fun d wk => s_durable (main (start wk.1 d wk.2)).1) d l.
(** from the worlds in [P] the computation always gives [v] *)
Definition reproducible A (P : W -> Prop) (f : W -> W * res A) (v : res A) : Prop := forall w, P w -> P (f w).1 /\ (f w).2 = v.
Definition all_in (P : W -> Prop) (l : seq (W * option nat)) : Prop := forall w k, List.In (w, k) l -> P w.
(** the computation never raises *)
Definition total A (f : W -> W * res A) : Prop := forall w, exists w' a, f w = (w', Ok a).
End Worlds.

(** the three rows of one iteration of the bearings-only experiment *)
Definition quantities := [:: "position"; "velocity"; "angle"].
Definition triple (tr sd pw dp : val) (q : rat) (m : (val * val) * (val * val) * (val * val)) : seq row :=
  [seq [:: tr; VText x.1; sd; VNum q; pw; dp; x.2.1; x.2.2] | x <- zip quantities [:: m.1.1; m.1.2; m.2]].
(** iteration [i] has the number [q + i + 1] *)
Definition triples (tr sd pw dp : val) (q : rat) (ms : seq ((val * val) * (val * val) * (val * val))) : seq (seq row) :=
  [seq triple tr sd pw dp (q + (im.1.+1)%:R) im.2 | im <- zip (iota 0 (size ms)) ms].
(** an iteration is stored for all three quantities or for none *)
Definition complete (t : table) : Prop := forall q q' tr sd it pw dp, q \in quantities -> q' \in quantities ->
  [:: tr; VText q; sd; it; pw; dp] \in map (keyof t) (trows t) -> [:: tr; VText q'; sd; it; pw; dp] \in map (keyof t) (trows t).
(** a table of the bearings-only experiment with whole iterations only *)
Definition bott_table (t : table) : Prop :=
  [/\ tcols t = [:: "Transform"; "Quantity"; "Seed"; "Iter"; "Power"; "Damping"; "RMSE"; "NLL"],
      tkey t = [:: "Transform"; "Quantity"; "Seed"; "Iter"; "Power"; "Damping"], complete t
    & forall r, r \in trows t -> exists2 q, q \in quantities & cell t r "Quantity" = VText q].

(** the results up to the first exception *)
Fixpoint collect A (l : seq (res A)) : seq A * option err :=
  match l with
  | Ok a :: l' => let r := collect l' in (a :: r.1, r.2)
  | Err e :: _ => ([::], Some e)
  | [::] => ([::], None)
  end.

(** computations in sequence, some of which are observed; the observations and the exception that ends them *)
Section Chain.
Variables W A : Type.
Definition silent (f : W -> W * res unit) : W -> W * res (option A) :=
  fun w => match f w with (w', Ok _) => (w', Ok None) | (w', Err e) => (w', Err e) end.
Definition observed (f : W -> W * res A) : W -> W * res (option A) :=
  fun w => match f w with (w', Ok a) => (w', Ok (Some a)) | (w', Err e) => (w', Err e) end.
Fixpoint chain (l : seq (W -> W * res (option A))) (w : W) : seq A * option err :=
  if l is f :: l' then
    match f w with
    | (w', Ok None) => chain l' w'
    | (w', Ok (Some a)) => let r := chain l' w' in (a :: r.1, r.2)
    | (_, Err e) => ([::], Some e)
    end
  else ([::], None).
End Chain.
(** the computations of the Lorenz experiment *)
Section L96.
Variable W : Type.
Variables (make : nat -> W -> W * res unit) (reseed : int -> W -> W) (simulate : W -> W * res unit).
Variables (build : nat -> rat -> rat -> W -> W * res unit) (sweep : W -> W * res unit) (record : nat -> W -> W * res unit).
Variable metrics : W -> W * res (val * val).
Definition l96_work (dims : seq nat) (seeds : seq int) (settings : seq (rat * rat * nat)) : seq (W -> W * res (option (val * val))) :=
  flatten [seq flatten [seq
    [:: silent _ (make d), silent _ (fun w => (reseed s w, Ok tt)), silent _ simulate &
    flatten [seq silent _ (build d x.1.1 x.1.2) ::
      flatten [seq [:: silent _ sweep; silent _ (record i); observed metrics] | i <- iota 0 x.2] | x <- settings]]
  | s <- seeds] | d <- dims].
End L96.

(** the keys of the Lorenz experiment in the order of its loops *)
Definition l96_keys (trans : string) (dims : seq nat) (seeds : seq int) (settings : seq (rat * rat * nat)) : seq (seq val) :=
  flatten [seq flatten [seq flatten [seq [seq [:: VText trans; VNum s%:~R; VNum d%:R; VNum i%:R; VNum x.1.1; VNum x.1.2] | i <- iota 0 x.2]
    | x <- settings] | s <- seeds] | d <- dims].
(** the rows: a key and what was measured *)
Definition l96_rows (keys : seq (seq val)) (ms : seq (val * val)) : seq row := [seq (km.1 ++ [:: km.2.1; km.2.2])%SEQ | km <- zip keys ms].

(** the tables of the IEKS sweeps *)
Definition ungm_rows (num_iter : nat) (seeds : seq int) (ms : seq (val * val)) : seq row :=
  [seq [:: VNum x.1%:~R; VNum num_iter%:R; x.2.1; x.2.2] | x <- zip seeds ms].
Definition ieks_l96_rows (num_iter : nat) (cases : seq (nat * int)) (ms : seq (val * val)) : seq row :=
  [seq [:: VNum x.1.1%:R; VNum x.1.2%:~R; VNum num_iter%:R; x.2.1; x.2.2] | x <- zip cases ms].
Definition ieks_bott_rows (num_iter : nat) (seeds : seq int) (ms : seq ((val * val) * (val * val) * (val * val))) : seq row :=
  flatten [seq [seq [:: VText y.1; VNum x.1%:~R; VNum num_iter%:R; y.2.1; y.2.2] | y <- zip quantities [:: x.2.1.1; x.2.1.2; x.2.2]]
    | x <- zip seeds ms].
(** a table that exists has the given columns and key *)
Definition schema (name : string) (cols key : seq string) (d : db) : Prop :=
  forall t, lookup d name = Some t -> tcols t = cols /\ tkey t = key.
