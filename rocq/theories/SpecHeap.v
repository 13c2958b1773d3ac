(** * C71: Gaussians as immutable values

    The same commands on a list of values ([Gauss]), none of which ever changes; a command adds at most one value. *)
Set Warnings "-notation-overridden,-ambiguous-paths".
From mathcomp Require Import all_ssreflect all_algebra.
From Verif Require Import Base ND LinAlg Gauss GaussObj GaussLink Metrics GaussHeap.
Set Implicit Arguments.
Unset Strict Implicit.
Unset Printing Implicit Defensive.

Section Spec.
Variable R : rcfType.
Variable illcond : forall n, 'M[R]_n -> bool.
Notation nd := (nd R).
Notation gauss := (gauss R).
Notation cmd := (cmd R).
Notation answer := (answer R).
Variable logpdf : nd -> nd -> nd -> res R.

Definition at_ (gs : seq gauss) (i : nat) : res gauss := nth (Err IndexErr) [seq Ok g | g <- gs] i.
(** the value that a command adds, and the answer that it gives otherwise *)
Definition creates (gs : seq gauss) (c : cmd) : option (res gauss) :=
  match c with
  | KMoment m v => Some (Ok (gaussian m v))
  | KNatural p s => Some (Ok (from_natural p s))
  | KFactor dim => Some (Ok (as_factor dim))
  | KMarginal dim => Some (Ok (as_marginal dim))
  | KMul i j => Some (do a <- at_ gs i; do b <- at_ gs j; gmul illcond a b)
  | KDiv i j => Some (do a <- at_ gs i; do b <- at_ gs j; gdiv illcond a b)
  | KPow i power => Some (do a <- at_ gs i; gpow illcond a power)
  | KCopy i => Some (at_ gs i)
  | _ => None
  end.
Definition asks (gs : seq gauss) (c : cmd) : res answer :=
  match c with
  | KRead a i => do g <- at_ gs i; do o <- value illcond g a; Ok (AOut o)
  | KEq i j => do a <- at_ gs i; do b <- at_ gs j; do e <- geq illcond a b; Ok (ABool R e)
  | KNll i x => do g <- at_ gs i; do r <- g_nll illcond logpdf g x; Ok (ANum r)
  | KError i x => do g <- at_ gs i; do r <- g_squared_error illcond g x; Ok (ANum r)
  | KValidate i => do g <- at_ gs i; do _ <- gvalidate illcond g; Ok (ADone R)
  | _ => Err Unsupported
  end.
Definition vstep (gs : seq gauss) (c : cmd) : seq gauss * res answer :=
  match creates gs c with
  | Some (Ok g) => (rcons gs g, Ok (ANew R (size gs)))
  | Some (Err e) => (gs, Err e)
  | None => (gs, asks gs c)
  end.
Fixpoint vrun (prog : seq (res answer) -> cmd) (n : nat) : seq gauss * seq (res answer) :=
  if n is n'.+1 then let st := vrun prog n' in let r := vstep st.1 (prog st.2) in (r.1, rcons st.2 r.2) else ([::], [::]).

(** commands that only ask *)
Definition query (c : cmd) : bool :=
  match c with KRead _ _ | KEq _ _ | KNll _ _ | KError _ _ | KValidate _ => true | _ => false end.
(** the objects that it asks about *)
Definition used (c : cmd) : seq nat :=
  match c with KRead _ i | KNll i _ | KError i _ | KValidate i => [:: i] | KEq i j => [:: i; j] | _ => [::] end.
(** a straight-line program *)
Definition script (l : seq cmd) : seq (res answer) -> cmd := fun seen => nth (KFactor R 0) l (size seen).
End Spec.
