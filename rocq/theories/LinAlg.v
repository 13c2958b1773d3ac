(** * Model of numpy.linalg / scipy.linalg as used by Utils/linalg.py, StateModel/Gaussian.py,
    MomentMatching/*.py and Filters/KalmanFilter.py.

    Exact arithmetic over [R : rcfType].  [illcond] is the verdict of LAPACK's reciprocal
    condition estimate (scipy warns, and the code turns the warning into an exception,
    Gaussian.py:31); it is an arbitrary predicate. *)
Set Warnings "-notation-overridden,-ambiguous-paths".
From mathcomp Require Import all_ssreflect all_algebra.
From Verif Require Import Base ND.
Set Implicit Arguments.
Unset Strict Implicit.
Unset Printing Implicit Defensive.
Import GRing.Theory Num.Theory.
Local Open Scope ring_scope.

Section LinAlg.
Variable R : rcfType.

(** Cholesky factorisation, right-looking.  Reads the lower triangle only; [None] on a
    non-positive pivot (LAPACK potrf info > 0). *)
Fixpoint chol (n : nat) : 'M[R]_n -> option 'M[R]_n :=
  match n return 'M[R]_n -> option 'M[R]_n with
  | 0 => fun A => Some A
  | k.+1 => fun A : 'M[R]_(1 + k) =>
      let a := A 0 0 in
      if 0 < a then
        let s := Num.sqrt a in
        let l := s^-1 *: dlsubmx A in
        if chol (drsubmx A - l *m l^T) is Some L
        then Some (block_mx s%:M 0 l L : 'M_(1 + k))
        else None
      else None
  end.

(** [np.linalg.cholesky(a)]: lower factor, reads the lower triangle;
    LinAlgError for rank < 2, non-square and non-positive-definite input. *)
Definition np_cholesky (a : nd R) : res (nd R) :=
  match a with
  | @Nd2 _ m n A =>
      if m == n then
        if chol (conform_mx (0 : 'M_n) A) is Some L then Ok (Nd2 L) else Err LinAlgErr
      else Err LinAlgErr
  | _ => Err LinAlgErr
  end.

(** [scipy.linalg.cholesky(a, lower=...)]: [lower=False] reads the upper triangle and returns
    the upper factor [U], [U^T U = A].  Rank < 2 input is promoted by [atleast_2d]. *)
Definition sp_cholesky (lower : bool) (a : nd R) : res (nd R) :=
  match natleast2 a with
  | @Nd2 _ m n A0 =>
      if m == n then
        let A := conform_mx (0 : 'M_n) A0 in
        if lower then (if chol A is Some L then Ok (Nd2 L) else Err LinAlgErr)
        else (if chol A^T is Some L then Ok (Nd2 L^T) else Err LinAlgErr)
      else Err ValueErr
  | _ => Err ValueErr
  end.

(** the symmetric matrix that has the upper triangle of [A] *)
Definition upsym n (A : 'M[R]_n) : 'M[R]_n := \matrix_(i, j) if (i <= j)%N then A i j else A j i.

(** solve [A X = B] with right-hand side [b] of rank 1 or 2 *)
Definition rhs_solve n (Ainv : 'M[R]_n) (b : nd R) : res (nd R) :=
  match b with
  | @Nd1 _ m v => if m == n then Ok (Nd1 (Ainv *m conform_mx (0 : 'cV_n) v)) else Err ValueErr
  | @Nd2 _ m p B => if m == n then Ok (Nd2 (Ainv *m conform_mx (0 : 'M_(n, p)) B)) else Err ValueErr
  | Nd0 _ => Err ValueErr
  end.

(** [np.linalg.solve(a, b)] *)
Definition np_solve (a b : nd R) : res (nd R) :=
  match a with
  | @Nd2 _ m n A0 =>
      if m == n then
        let A := conform_mx (0 : 'M_n) A0 in
        do r <- rhs_solve (invmx A) b;
        if A \in unitmx then Ok r else Err LinAlgErr
      else Err LinAlgErr
  | _ => Err LinAlgErr
  end.

Variable illcond : forall n, 'M[R]_n -> bool.

(** [scipy.linalg.solve(a, b, assume_a='pos')]: Cholesky of the upper triangle; raises
    LinAlgError when it fails and LinAlgWarning when the condition estimate is bad. *)
Definition sp_solve_pos (a b : nd R) : res (nd R) :=
  match natleast2 a with
  | @Nd2 _ m n A0 =>
      if m == n then
        let A := conform_mx (0 : 'M_n) A0 in
        do r <- rhs_solve (invmx (upsym A)) b;
        if chol A^T is Some _ then (if illcond A then Err LinAlgWarn else Ok r) else Err LinAlgErr
      else Err ValueErr
  | _ => Err ValueErr
  end.

(** [scipy.linalg.solve(a, b, assume_a='gen')] *)
Definition sp_solve_gen (a b : nd R) : res (nd R) :=
  match natleast2 a with
  | @Nd2 _ m n A0 =>
      if m == n then
        let A := conform_mx (0 : 'M_n) A0 in
        do r <- rhs_solve (invmx A) b;
        if A \in unitmx then (if illcond A then Err LinAlgWarn else Ok r) else Err LinAlgErr
      else Err ValueErr
  | _ => Err ValueErr
  end.

(** Utils/linalg.py:18  [JIT = 1e-10] *)
Definition jit : R := (10%:R ^+ 10)^-1.

(** Utils/linalg.py:25-26, 37-38  [a = (a + a.T)/2; a = a + jitter*np.eye(a.shape[-1])] *)
Definition jitter_mat (a : nd R) : res (nd R) :=
  do s <- symmetrize a;
  do n <- shape_last s;
  nadd s (nscale jit (neye n)).

(** Utils/linalg.py:21-31  [jittered_chol(a, lower=...)] *)
Definition jittered_chol (lower : bool) (a : nd R) : res (nd R) :=
  do a' <- jitter_mat a; sp_cholesky lower a'.

(** Utils/linalg.py:34-43  [jittered_solve(a, b, assume_a='pos')] *)
Definition jittered_solve_pos (a b : nd R) : res (nd R) :=
  do a' <- jitter_mat a;
  catch_any (sp_solve_pos a' b) (sp_solve_gen a' b).

(** Utils/linalg.py:48-50  [validate_covariance(state)] given [state.cov] *)
Definition validate_cov (cov : nd R) : res unit := do _ <- np_cholesky cov; Ok tt.

End LinAlg.
Arguments jit {R}.
Arguments rhs_solve : simpl never.
Arguments np_solve : simpl never.
Arguments np_cholesky : simpl never.
Arguments sp_cholesky : simpl never.
Arguments sp_solve_pos : simpl never.
Arguments sp_solve_gen : simpl never.
Arguments jitter_mat : simpl never.
Arguments jittered_chol : simpl never.
Arguments jittered_solve_pos : simpl never.
Arguments validate_cov : simpl never.
