(** * What a usable system is *)
Set Warnings "-notation-overridden,-ambiguous-paths".
From Coq Require Import Reals List.
From Verif Require Import Base Systems SpecSys SystemInit.
Import ListNotations.
Local Open Scope R_scope.

(** every row has [n] entries *)
Definition width (n : nat) (x : arr) : Prop := Forall (fun r => length r = n) (atleast_2d x).
(** a function of arrays works on rows of [n] entries from [dom] and gives as many rows of [k] entries *)
Definition maps (n k : nat) (dom : list R -> Prop) (f : arr -> res arr) : Prop :=
  forall x, width n x -> Forall dom (atleast_2d x) ->
  exists y, f x = Ok y /\ width k y /\ length (atleast_2d y) = length (atleast_2d x).
(** the functions of the system fit its dimensions, and the prior and both noises have positive definite covariances *)
Definition usable (dom : list R -> Prop) (m : model) : Prop :=
  (forall t, maps (m_dim m) (m_dim m) dom (m_f m t)) /\ maps (m_dim m) (m_meas m) dom (m_h m) /\
  length (m_mean m) = m_dim m /\ dom (m_mean m) /\
  pos_def (m_dim m) (m_cov m) /\ pos_def (m_dim m) (m_Q m) /\ pos_def (m_meas m) (m_R m).
Definition any (r : list R) : Prop := True.
Definition turning (r : list R) : Prop := nth 4 r 0 <> 0.
(** entrywise product *)
Definition times (u v : list R) : list R := map (fun p => fst p * snd p) (combine u v).
Definition square (n : nat) (m : list (list R)) : Prop := length m = n /\ Forall (fun r => length r = n) m.
