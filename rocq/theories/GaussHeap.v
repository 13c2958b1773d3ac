(** * StateModel/Gaussian.py: the operators on shared objects that cache

    [GaussObj] models one object.  Here a program owns a heap of them and refers to them by number; an operator reads
    attributes of its operands through the properties, which fill the caches of the operands in place, also when the
    operator raises later, and also when both operands are the same object. *)
Set Warnings "-notation-overridden,-ambiguous-paths".
From mathcomp Require Import all_ssreflect all_algebra.
From Verif Require Import Base ND LinAlg Gauss GaussObj GaussLink.
Set Implicit Arguments.
Unset Strict Implicit.
Unset Printing Implicit Defensive.

Section Heap.
Variable R : rcfType.
Variable illcond : forall n, 'M[R]_n -> bool.
Notation nd := (nd R).
Variable logpdf : nd -> nd -> nd -> res R.

Definition heap := seq (obj nd).
Definition none : obj nd := Obj None None None None None MNone None.
(** a computation that may change the heap and raise; what was changed before an exception stays *)
Definition hm A := heap -> heap * res A.
Definition hbind A B (m : hm A) (f : A -> hm B) : hm B :=
  fun h => match (m h).2 with Ok a => f a (m h).1 | Err e => ((m h).1, Err e) end.
Definition lift A (r : res A) : hm A := fun h => (h, r).
Notation "'let!' x := a 'in' b" := (hbind a (fun x => b)) (at level 200, x name, a at level 100, b at level 200).

(** evaluating a name *)
Definition name (i : nat) : hm unit := fun h => (h, if i < size h then Ok tt else Err IndexErr).
(** reading an attribute: the property may fill the caches of the object *)
Definition attribute (a : attr) (i : nat) : hm (out nd) := fun h =>
  let r := read (n2m_o illcond) (m2n_o illcond) (@chol_o R) (@shp0_o R) a (nth none h i) in (set_nth none h i r.1, r.2).
(** ... that is an array *)
Definition array (a : attr) (i : nat) : hm nd :=
  let! o := attribute a i in lift (if o is OV (Some v) then Ok v else Err TypeErr).
(** Gaussian.py:95-123: a new object *)
Definition alloc (o : obj nd) : hm nat := fun h => (rcons h o, Ok (size h)).
Definition new_moment (m c : nd) : hm nat := alloc (init (@natleast1 R) (Some m) (Some c) None None).
Definition new_natural (p s : nd) : hm nat := alloc (init (@natleast1 R) None None (Some p) (Some s)).

(** Gaussian.py:190-196 *)
Definition o_mul (i j : nat) : hm nat :=
  let! pi := array APrec i in let! pj := array APrec j in
  let! p0 := lift (nadd pi pj) in let! p := lift (symmetrize p0) in
  let! si := array AShift i in let! sj := array AShift j in
  let! s := lift (nadd si sj) in new_natural p s.
(** Gaussian.py:198-210 *)
Definition o_div (i j : nat) : hm nat :=
  let! pi := array APrec i in let! pj := array APrec j in
  let! p := lift (nsub pi pj) in
  let! si := array AShift i in let! sj := array AShift j in
  let! s := lift (nsub si sj) in new_natural p s.
(** Gaussian.py:212-220 *)
Definition o_pow (i : nat) (power : R) : hm nat :=
  let! p := array APrec i in let! s := array AShift i in new_natural (nscale power p) (nscale power s).
(** Gaussian.py:222-229 *)
Definition o_eq (i j : nat) : hm bool :=
  let! mi := array AMean i in let! mj := array AMean j in let! me := lift (allclose mi mj) in
  let! ci := array ACov i in let! cj := array ACov j in let! ce := lift (allclose ci cj) in
  lift (Ok (me && ce)).
(** Gaussian.py:231-238 *)
Definition o_nll (i : nat) (x : nd) : hm R :=
  let! m := array AMean i in let! c := array ACov i in let! l := lift (logpdf x m c) in lift (Ok (- l)%R).
(** Gaussian.py:240-246 *)
Definition o_squared_error (i : nat) (x : nd) : hm R :=
  let! m := array AMean i in let! d := lift (nsub m x) in lift (Ok (nsumsq d)).
(** Gaussian.py:267-271 *)
Definition o_copy (i : nat) : hm nat := fun h =>
  if o_mode (nth none h i) is MNatural
  then (let! p := array APrec i in let! s := array AShift i in new_natural p s) h
  else (let! m := array AMean i in let! c := array ACov i in new_moment m c) h.
(** Utils/linalg.py:48-50 *)
Definition o_validate (i : nat) : hm unit := let! c := array ACov i in lift (validate_cov c).

(** what a program can do with Gaussians without assigning to attributes *)
Inductive cmd :=
| KMoment (m c : nd) | KNatural (p s : nd) | KFactor (dim : nat) | KMarginal (dim : nat)
| KMul (i j : nat) | KDiv (i j : nat) | KPow (i : nat) (power : R) | KCopy (i : nat)
| KRead (a : attr) (i : nat) | KEq (i j : nat) | KNll (i : nat) (x : nd) | KError (i : nat) (x : nd) | KValidate (i : nat).
(** what it sees: the number of the new object, or the result *)
Inductive answer := ANew of nat | AOut of out nd | ABool of bool | ANum of R | ADone.
Definition say A (f : A -> answer) (m : hm A) : hm answer := let! a := m in lift (Ok (f a)).

Definition exec (c : cmd) : hm answer :=
  match c with
  | KMoment m c => say ANew (new_moment m c)
  | KNatural p s => say ANew (new_natural p s)
  | KFactor dim => say ANew (new_natural (nzeros2 dim) (nzeros1 dim))      (* Gaussian.py:273-279 *)
  | KMarginal dim => say ANew (new_moment (nzeros1 dim) (nscale (large_num R) (neye dim)))  (* Gaussian.py:285-289 *)
  | KMul i j => let! _ := name i in let! _ := name j in say ANew (o_mul i j)
  | KDiv i j => let! _ := name i in let! _ := name j in say ANew (o_div i j)
  | KPow i power => let! _ := name i in say ANew (o_pow i power)
  | KCopy i => let! _ := name i in say ANew (o_copy i)
  | KRead a i => let! _ := name i in say AOut (attribute a i)
  | KEq i j => let! _ := name i in let! _ := name j in say ABool (o_eq i j)
  | KNll i x => let! _ := name i in say ANum (o_nll i x)
  | KError i x => let! _ := name i in say ANum (o_squared_error i x)
  | KValidate i => let! _ := name i in say (fun _ => ADone) (o_validate i)
  end.
(** a program that chooses its next step by what it has seen (exceptions are caught); the answers of its first [n] steps *)
Fixpoint run (prog : seq (res answer) -> cmd) (n : nat) : heap * seq (res answer) :=
  if n is n'.+1 then let st := run prog n' in let r := exec (prog st.2) st.1 in (r.1, rcons st.2 r.2) else ([::], [::]).
End Heap.
