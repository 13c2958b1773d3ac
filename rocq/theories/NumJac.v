(** * The numerical Jacobian

    MomentMatching/TaylorLinearisation.py:31-47.  [_transform] has the call commented out (line 51)
    and uses autograd instead. *)
Set Warnings "-notation-overridden,-ambiguous-paths".
From mathcomp Require Import all_ssreflect all_algebra.
From Verif Require Import Base ND LinAlg Gauss Transforms.
Set Implicit Arguments.
Unset Strict Implicit.
Unset Printing Implicit Defensive.
Import GRing.Theory Num.Theory.
Local Open Scope ring_scope.

Section NumJac.
Variable R : rcfType.
Notation nd := (nd R).
Notation jarr := (jarr R).

(** lines 37-39 and 41-43: the list [x.tolist()] with entry [i] replaced by [np.array(data) + e],
    turned into an array again: one component of a 1-d array, one row of a 2-d array *)
Definition bump (x : nd) (i : nat) (e : R) : nd :=
  match x with
  | Nd0 _ => x
  | Nd1 n v => Nd1 (\col_(j < n) if j == i :> nat then v j 0 + e else v j 0)
  | Nd2 m n A => Nd2 (\matrix_(k < m, j < n) if k == i :> nat then A k j + e else A k j)
  end.

(** lines 36-46: the central differences in the order of [enumerate(x_list)]
    ([2*eps = 0] gives nan or raises, depending on the type of the difference: not modelled) *)
Fixpoint central (f : nd -> res nd) (x : nd) (eps : R) (ks : seq nat) : res (seq nd) :=
  match ks with
  | [::] => Ok [::]
  | i :: ks' =>
      do y1 <- f (bump x i eps);
      do y2 <- f (bump x i (- eps));
      do d <- nsub y1 y2;
      do q <- (if 2%:R * eps == 0 then Err Unsupported else Ok (nscale (2%:R * eps)^-1 d));
      do l <- central f x eps ks';
      Ok (q :: l)
  end.

(** entry [i] of a 1-d array, entry [i, j] of a 2-d array *)
Definition at1 (a : nd) (i : nat) : R := if a is Nd1 _ v then ent v i 0 else 0.
Definition at2 (a : nd) (i j : nat) : R := if a is Nd2 _ _ A then ent A i j else 0.
Definition at0 (a : nd) : R := if a is Nd0 x then x else 0.

(** line 47: [np.array(jacobian).T]; differences of different shapes are not modelled.  The transpose
    of an array of shape [k, m, n] has shape [n, m, k]. *)
Definition stackT (l : seq nd) : res jarr :=
  match l with
  | [::] => Ok (JLow (Nd1 (0 : 'cV[R]_0)))
  | a :: _ =>
      if ~~ all (fun b => shape b == shape a) l then Err Unsupported else
      match a with
      | Nd0 _ => Ok (JLow (Nd1 (\col_(k < size l) at0 (nth a l k))))
      | Nd1 m _ => Ok (JLow (Nd2 (\matrix_(i < m, k < size l) at1 (nth a l k) i)))
      | Nd2 m n _ => Ok (JHigh [:: n; m; size l]
          (mkseq (fun p => at2 (nth a l (p %% size l)) ((p %/ size l) %% m) (p %/ (m * size l))) (n * (m * size l))))
      end
  end.

(** TaylorLinearisation.py:31-47; [enumerate] of a Python float (0-d [x]) raises TypeError *)
Definition numerical_jacobian (f : nd -> res nd) (x : nd) (eps : R) : res jarr :=
  do _ <- f x;
  do n <- (match x with Nd0 _ => Err TypeErr | Nd1 n _ => Ok n | Nd2 m _ _ => Ok m end);
  do l <- central f x eps (iota 0 n);
  stackT l.

(** line 22: the default step *)
Definition EPS : R := (10%:R ^+ 4)^-1.

(** [_transform] with line 51 in place of line 52 *)
Definition numeric (F : dfun R) (eps : R) : dfun R :=
  DFun (call F) (fun x => numerical_jacobian (call F) x eps).

End NumJac.
