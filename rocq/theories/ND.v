(** * numpy arrays of rank at most 2 over an exact real closed field

    Models the fragment of numpy used by /repo: shapes, broadcasting, [@], [np.dot],
    [.T], [np.trace], [np.eye], [np.squeeze], [np.atleast_1d], [.reshape(-1,1)], [+=].
    Entries live in an arbitrary [R : rcfType]: arithmetic is exact (no rounding, no
    NaN/inf).  Arrays of rank >= 3 are not modelled. *)
Set Warnings "-notation-overridden,-ambiguous-paths".
From mathcomp Require Import all_ssreflect all_algebra.
From Verif Require Import Base.
Set Implicit Arguments.
Unset Strict Implicit.
Unset Printing Implicit Defensive.
Import GRing.Theory Num.Theory.
Local Open Scope ring_scope.

Section ND.
Variable R : rcfType.

(** An array: 0-d (or numpy scalar), 1-d of length [n] (stored as a column), 2-d. *)
Inductive nd : Type :=
| Nd0 of R
| Nd1 n of 'cV[R]_n
| Nd2 m n of 'M[R]_(m, n).
Arguments Nd1 {n}.
Arguments Nd2 {m n}.

(** [a.shape] *)
Definition shape (a : nd) : seq nat :=
  match a with
  | Nd0 _ => [::]
  | @Nd1 n _ => [:: n]
  | @Nd2 m n _ => [:: m; n]
  end.

(** entry by natural-number index, 0 outside (only used inside the bounds) *)
Definition ent m n (A : 'M[R]_(m, n)) (i j : nat) : R :=
  if insub i is Some i' then if insub j is Some j' then A i' j' else 0 else 0.

(** entry of [A] stretched by broadcasting: an axis of length 1 is repeated *)
Definition bent m n (A : 'M[R]_(m, n)) (i j : nat) : R :=
  ent A (if m == 1%N then 0%N else i) (if n == 1%N then 0%N else j).

(** numpy broadcasting of one axis: equal lengths, or one of them is 1 *)
Definition bdim (m p : nat) : option nat :=
  if m == p then Some m else if m == 1%N then Some p else if p == 1%N then Some m else None.

Definition bop2 (op : R -> R -> R) m n (A : 'M[R]_(m, n)) m' n' (B : 'M[R]_(m', n')) : res nd :=
  match bdim m m', bdim n n' with
  | Some p, Some q => Ok (Nd2 (\matrix_(i < p, j < q) op (bent A i j) (bent B i j)))
  | _, _ => Err ValueErr
  end.

(** element-wise binary operator with broadcasting (a 1-d array is a row) *)
Definition bop (op : R -> R -> R) (a b : nd) : res nd :=
  match a, b with
  | Nd0 x, Nd0 y => Ok (Nd0 (op x y))
  | Nd0 x, Nd1 _ v => Ok (Nd1 (\col_i op x (v i 0)))
  | Nd1 _ v, Nd0 y => Ok (Nd1 (\col_i op (v i 0) y))
  | Nd0 x, Nd2 _ _ B => Ok (Nd2 (\matrix_(i, j) op x (B i j)))
  | Nd2 _ _ A, Nd0 y => Ok (Nd2 (\matrix_(i, j) op (A i j) y))
  | Nd1 n v, Nd1 n' w =>
      if bdim n n' is Some p then Ok (Nd1 (\col_(i < p) op (bent v i 0) (bent w i 0)))
      else Err ValueErr
  | Nd1 _ v, Nd2 _ _ B => bop2 op v^T B
  | Nd2 _ _ A, Nd1 _ w => bop2 op A w^T
  | Nd2 _ _ A, Nd2 _ _ B => bop2 op A B
  end.

Definition nadd := bop +%R.
Definition nsub := bop (fun x y => x - y).

(** [a += b]: the result must have the shape of [a] (numpy scalars are rebound) *)
Definition niadd (a b : nd) : res nd :=
  do r <- nadd a b;
  if a is Nd0 _ then Ok r else if shape r == shape a then Ok r else Err ValueErr.

(** multiplication / division by a Python scalar *)
Definition nscale (c : R) (a : nd) : nd :=
  match a with
  | Nd0 x => Nd0 (c * x)
  | Nd1 _ v => Nd1 (c *: v)
  | Nd2 _ _ A => Nd2 (c *: A)
  end.

(** [a.T] *)
Definition ntr (a : nd) : nd :=
  match a with Nd2 _ _ A => Nd2 A^T | _ => a end.

(** [a @ b] *)
Definition nmatmul (a b : nd) : res nd :=
  match a, b with
  | Nd1 k v, Nd1 k' w =>
      if k == k' then Ok (Nd0 ((v^T *m conform_mx (0 : 'cV_k) w) 0 0)) else Err ValueErr
  | Nd1 k v, Nd2 k' n B =>
      if k == k' then Ok (Nd1 ((conform_mx (0 : 'M_(k, n)) B)^T *m v)) else Err ValueErr
  | Nd2 m k A, Nd1 k' w =>
      if k == k' then Ok (Nd1 (A *m conform_mx (0 : 'cV_k) w)) else Err ValueErr
  | Nd2 m k A, Nd2 k' n B =>
      if k == k' then Ok (Nd2 (A *m conform_mx (0 : 'M_(k, n)) B)) else Err ValueErr
  | _, _ => Err ValueErr
  end.

(** [np.dot(a, b)]: like [@] but scalars multiply *)
Definition ndot (a b : nd) : res nd :=
  match a, b with
  | Nd0 x, _ => Ok (nscale x b)
  | _, Nd0 y => Ok (nscale y a)
  | _, _ => nmatmul a b
  end.

(** [np.trace(a)] *)
Definition ntrace (a : nd) : res R :=
  if a is Nd2 m n A then Ok (\sum_(i < minn m n) ent A i i) else Err ValueErr.

(** [a.shape[0]], [a.shape[-1]] *)
Definition shape0 (a : nd) : res nat :=
  match a with Nd0 _ => Err IndexErr | Nd1 n _ => Ok n | Nd2 m _ _ => Ok m end.
Definition shape_last (a : nd) : res nat :=
  match a with Nd0 _ => Err IndexErr | Nd1 n _ => Ok n | Nd2 _ n _ => Ok n end.

(** [np.eye(n)], [np.zeros((n,))], [np.zeros((n,n))] *)
Definition neye n : nd := Nd2 (1%:M : 'M[R]_n).
Definition nzeros1 n : nd := Nd1 (0 : 'cV[R]_n).
Definition nzeros2 n : nd := Nd2 (0 : 'M[R]_n).

(** [np.atleast_1d(a)] *)
Definition natleast1 (a : nd) : nd := if a is Nd0 x then Nd1 (const_mx x : 'cV_1) else a.
(** [np.atleast_2d(a)] *)
Definition natleast2 (a : nd) : nd :=
  match a with Nd0 x => Nd2 (const_mx x : 'M_1) | Nd1 _ v => Nd2 v^T | _ => a end.

(** [np.squeeze(a)] *)
Definition nsqueeze (a : nd) : nd :=
  match a with
  | Nd0 _ => a
  | Nd1 n v => if n == 1%N then Nd0 (ent v 0 0) else a
  | Nd2 m n A =>
      if m == 1%N then
        if n == 1%N then Nd0 (ent A 0 0) else Nd1 (\col_(j < n) ent A 0 j)
      else if n == 1%N then Nd1 (\col_(i < m) ent A i 0) else a
  end.

(** [a.reshape(-1,1)] (row-major) *)
Definition nreshape_col (a : nd) : nd :=
  match a with
  | Nd0 x => Nd2 (const_mx x : 'M_1)
  | Nd1 n v => Nd2 v
  | Nd2 m n A => Nd2 (mxvec A)^T
  end.

(** Utils/linalg.py:45-46  [symmetrize(cov) = (cov + cov.T) / 2] *)
Definition symmetrize (cov : nd) : res nd :=
  do s <- nadd cov (ntr cov); Ok (nscale (2%:R)^-1 s).

End ND.

Arguments Nd0 {R}.
Arguments Nd1 {R n}.
Arguments Nd2 {R m n}.
Arguments neye {R}.
Arguments nzeros1 {R}.
Arguments nzeros2 {R}.
Arguments bop : simpl never.
Arguments nadd : simpl never.
Arguments nsub : simpl never.
Arguments niadd : simpl never.
Arguments nmatmul : simpl never.
Arguments ndot : simpl never.
Arguments ntrace : simpl never.
Arguments symmetrize : simpl never.
Arguments neye : simpl never.
