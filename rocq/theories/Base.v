(** * Exceptions as values

    Python code signals failure by raising.  Every model function that can raise
    returns [res A]; the error constructors name the Python exception classes that
    the code under /repo distinguishes (it catches [LinAlgError], [AttributeError]
    and, with a bare [except:], everything). *)
Set Warnings "-notation-overridden,-ambiguous-paths".
From mathcomp Require Import all_ssreflect.
Set Implicit Arguments.
Unset Strict Implicit.
Unset Printing Implicit Defensive.

Inductive err : Type :=
| LinAlgErr     (* numpy.linalg.LinAlgError = scipy.linalg.LinAlgError *)
| LinAlgWarn    (* scipy.linalg.LinAlgWarning, turned into an exception by
                   StateModel/Gaussian.py:31 and MomentMatching/UnscentedTransform.py:24 *)
| ValueErr      (* shape mismatch and friends *)
| AttrErr | TypeErr | IndexErr | AssertErr | ZeroDivErr | StopIterErr
| OverLoadErr   (* ExpectationPropagation/Nodes.py:26 *)
| DbErr         (* sqlite3.ProgrammingError, sqlite3.OperationalError *)
| Unsupported.  (* not a Python exception: the operation leaves the modelled fragment *)

Definition err_eqb (a b : err) : bool :=
  match a, b with
  | LinAlgErr, LinAlgErr | LinAlgWarn, LinAlgWarn | ValueErr, ValueErr
  | AttrErr, AttrErr | TypeErr, TypeErr | IndexErr, IndexErr | AssertErr, AssertErr
  | ZeroDivErr, ZeroDivErr | StopIterErr, StopIterErr | OverLoadErr, OverLoadErr
  | DbErr, DbErr
  | Unsupported, Unsupported => true
  | _, _ => false
  end.

Lemma err_eqP : Equality.axiom err_eqb.
Proof. by do 2!case; constructor. Qed.
Definition err_eqMixin := EqMixin err_eqP.
Canonical err_eqType := EqType err err_eqMixin.

Inductive res (A : Type) : Type := Ok of A | Err of err.
Arguments Ok {A}.
Arguments Err {A}.

Definition bind {A B} (r : res A) (f : A -> res B) : res B :=
  match r with Ok a => f a | Err e => Err e end.

Notation "'do' x <- a ; b" := (bind a (fun x => b))
  (at level 200, x name, a at level 100, b at level 200).
Notation "'do' ' p <- a ; b" := (bind a (fun x => match x with p => b end))
  (at level 200, p pattern, a at level 100, b at level 200).

(** [try: r except: h] (bare except, catches everything). *)
Definition catch_any {A} (r h : res A) : res A :=
  match r with Ok a => Ok a | Err _ => h end.

(** [try: r except E: h]. *)
Definition catch_err {A} (e0 : err) (r h : res A) : res A :=
  match r with Ok a => Ok a | Err e => if e == e0 then h else Err e end.

Definition isOk {A} (r : res A) : bool := if r is Ok _ then true else false.

Lemma Ok_inj T (x y : T) : Ok x = Ok y -> x = y.
Proof. by case. Qed.
Arguments Ok_inj {T x y}.

Lemma bindOk A B (a : A) (f : A -> res B) : bind (Ok a) f = f a.
Proof. by []. Qed.

Lemma bindErr A B e (f : A -> res B) : bind (Err e) f = Err e.
Proof. by []. Qed.
Definition bindE := (bindOk, bindErr).
#[global] Arguments bind : simpl never.

Lemma bind_ok A B (r : res A) (f : A -> res B) b :
  bind r f = Ok b -> exists2 a, r = Ok a & f a = Ok b.
Proof. by case: r => //= a ?; exists a. Qed.

(** Option to result: a missing attribute raises AttributeError. *)
Definition getattr {A} (o : option A) : res A := if o is Some a then Ok a else Err AttrErr.

(** [for] loop with an accumulator whose body can raise. *)
Fixpoint foldM {A B} (f : B -> A -> res B) (b : B) (l : seq A) : res B :=
  if l is a :: l' then do b' <- f b a; foldM f b' l' else Ok b.

(** list comprehension whose body can raise. *)
Fixpoint mapM {A B} (f : A -> res B) (l : seq A) : res (seq B) :=
  if l is a :: l' then do b <- f a; do bs <- mapM f l'; Ok (b :: bs) else Ok [::].
