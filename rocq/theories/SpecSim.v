(** * Vocabulary for the simulation properties *)
Set Warnings "-notation-overridden,-ambiguous-paths".
From mathcomp Require Import all_ssreflect.
From Verif Require Import Base Simulate.
Set Implicit Arguments.
Unset Strict Implicit.
Unset Printing Implicit Defensive.

Section Spec.
Variables (V W : Type) (mutable : V -> bool) (add iadd : V -> V -> res V).
Notation M := (M V W).

(** [h'] keeps every array of [h] *)
Definition keeps (h h' : seq V) := forall r v, deref h r = Some v -> deref h' r = Some v.
(** the value of [x] after [x += v] *)
Definition plus (a b : V) : res V := if mutable a then iadd a b else add a b.
(** a callable that leaves every existing array alone and whose result is an array of its own, with
    contents [f t v] *)
Definition fresh_fun (F : ref -> M ref) (f : V -> res V) :=
  forall r h w v, deref h r = Some v ->
  match f v with
  | Ok v' => exists h' r', [/\ F r (h, w) = ((h', w), Ok r'), keeps h h', size h <= r' & deref h' r' = Some v']
  | Err e => exists h', F r (h, w) = ((h', w), Err e) /\ keeps h h'
  end.
(** a callable that returns its argument *)
Definition returns_argument (F : ref -> M ref) := forall r st, F r st = (st, Ok r).
(** [ws], [vs] are the draws made by alternating the two noises from generator state [w0] to [wN] *)
Definition draws (sx sy : W -> W * res V) N (w0 wN : W) (ws vs : nat -> V) :=
  exists om om' : nat -> W, [/\ om 0 = w0, om N = wN &
    forall k, k < N -> sx (om k) = (om' k, Ok (ws k)) /\ sy (om' k) = (om k.+1, Ok (vs k))].


(** [l] lists the N pairs of the noisy state-space recurrence
    x_k = f_k(x_(k-1)) + w_k,  y_k = g(x_k) + v_k  started at [x0] *)
Definition recurrence (plus : V -> V -> res V) (sx sy : W -> W * res V) (f : nat -> V -> res V) (g : V -> res V)
    N (x0 : V) (w0 wN : W) (l : seq (V * V)) :=
  size l = N /\ exists ws vs, draws sx sy N w0 wN ws vs /\
    forall k, k < N ->
    let x' := nth x0 [seq p.1 | p <- l] k in let y' := nth x0 [seq p.2 | p <- l] k in
    exists a b, [/\ f k (nth x0 (x0 :: [seq p.1 | p <- l]) k) = Ok a, plus a (ws k) = Ok x', g x' = Ok b & plus b (vs k) = Ok y'].
(** the same with the measurement noise added to the state as well: x_k = y_k = (f_k(x_(k-1)) + w_k) + v_k *)
Definition leaking (plus : V -> V -> res V) (sx sy : W -> W * res V) (f : nat -> V -> res V)
    N (x0 : V) (w0 wN : W) (l : seq (V * V)) :=
  size l = N /\ exists ws vs, draws sx sy N w0 wN ws vs /\
    forall k, k < N ->
    let x' := nth x0 [seq p.1 | p <- l] k in let y' := nth x0 [seq p.2 | p <- l] k in
    exists a b, [/\ f k (nth x0 (x0 :: [seq p.1 | p <- l]) k) = Ok a, plus a (ws k) = Ok b, plus b (vs k) = Ok x' & y' = x'].

(** the pairs of arrays read through the returned references *)
Definition somes (l : seq (V * V)) : seq (option V * option V) := [seq (Some p.1, Some p.2) | p <- l].

(** all returned references *)
Definition flat (refs : seq (ref * ref)) : seq ref := flatten [seq [:: p.1; p.2] | p <- refs].


End Spec.
