(** * StateModel/Gaussian.py, value semantics (exact arithmetic)

    A Gaussian object is represented by what it was constructed from; the attributes are
    computed on demand.  [GaussObj.v] models the caching object and proves that it
    answers every read like this value. *)
Set Warnings "-notation-overridden,-ambiguous-paths".
From mathcomp Require Import all_ssreflect all_algebra.
From Verif Require Import Base ND LinAlg.
Set Implicit Arguments.
Unset Strict Implicit.
Unset Printing Implicit Defensive.
Import GRing.Theory Num.Theory Order.Theory.
Local Open Scope ring_scope.

Section Gauss.
Variable R : rcfType.
Variable illcond : forall n, 'M[R]_n -> bool.
Notation nd := (nd R).

(** Gaussian.py:29  [LARGE_NUM = 1e10]; Gaussian.py:36 the trace threshold [1e-10];
    Gaussian.py:26, 226-227 [RTOL = 1e-3] (used as both tolerances). *)
Definition large_num : R := 10%:R ^+ 10.
Definition trace_min : R := (10%:R ^+ 10)^-1.
Definition rtol : R := (10%:R ^+ 3)^-1.

(** Gaussian.py:33-59 *)
Definition natural_to_moment (precision shift : nd) : res (nd * nd) :=
  do dim <- shape0 precision;
  do tr <- ntrace precision;
  if tr < trace_min then
    do cov <- symmetrize (nscale large_num (neye dim));
    Ok (nzeros1 dim, cov)
  else
    do cov0 <- catch_any (sp_solve_pos illcond precision (neye dim))
                         (jittered_solve_pos illcond precision (neye dim));
    do cov <- symmetrize cov0;
    do mean <- ndot cov shift;
    Ok (mean, cov).

(** Gaussian.py:62-78 *)
Definition moment_to_natural (mean cov : nd) : res (nd * nd) :=
  do dim <- shape0 cov;
  do p0 <- catch_any (sp_solve_pos illcond cov (neye dim))
                     (jittered_solve_pos illcond cov (neye dim));
  do precision <- symmetrize p0;
  do shift <- nmatmul precision mean;
  Ok (precision, shift).

(** Gaussian.py:95-123: mode 'moment' or mode 'natural' *)
Inductive gauss : Type :=
| Mom (mean cov : nd)
| Nat (precision shift : nd).

(** Gaussian.py:115-118, [Gaussian(mean, cov)] *)
Definition gaussian (mean cov : nd) : gauss := Mom (natleast1 mean) cov.
(** Gaussian.py:120-123, 281-283, [Gaussian(precision_mat=, shift_vec=)], [from_natural] *)
Definition from_natural (precision shift : nd) : gauss := Nat precision (natleast1 shift).

(** Gaussian.py:127-132 *)
Definition g_mean (g : gauss) : res nd :=
  match g with
  | Mom m _ => Ok m
  | Nat p s => do mc <- natural_to_moment p s; Ok mc.1
  end.
(** Gaussian.py:147-152 *)
Definition g_cov (g : gauss) : res nd :=
  match g with
  | Mom _ c => Ok c
  | Nat p s => do mc <- natural_to_moment p s; Ok mc.2
  end.
(** Gaussian.py:158-163 *)
Definition g_precision (g : gauss) : res nd :=
  match g with
  | Mom m c => do ps <- moment_to_natural m c; Ok ps.1
  | Nat p _ => Ok p
  end.
(** Gaussian.py:169-174 *)
Definition g_shift (g : gauss) : res nd :=
  match g with
  | Mom m c => do ps <- moment_to_natural m c; Ok ps.2
  | Nat _ s => Ok s
  end.
(** Gaussian.py:138-145 *)
Definition g_dim (g : gauss) : res nat :=
  match g with
  | Mom m _ => shape0 m
  | Nat _ s => shape0 s
  end.

(** Gaussian.py:190-196 *)
Definition gmul (a b : gauss) : res gauss :=
  do pa <- g_precision a;
  do pb <- g_precision b;
  do p0 <- nadd pa pb;
  do p <- symmetrize p0;
  do sa <- g_shift a;
  do sb <- g_shift b;
  do s <- nadd sa sb;
  Ok (from_natural p s).

(** Gaussian.py:198-210 *)
Definition gdiv (a b : gauss) : res gauss :=
  do pa <- g_precision a;
  do pb <- g_precision b;
  do p <- nsub pa pb;
  do sa <- g_shift a;
  do sb <- g_shift b;
  do s <- nsub sa sb;
  Ok (from_natural p s).

(** Gaussian.py:212-220 *)
Definition gpow (a : gauss) (power : R) : res gauss :=
  do p <- g_precision a;
  do s <- g_shift a;
  Ok (from_natural (nscale power p) (nscale power s)).

(** [np.allclose(a, b, rtol, atol)] with [rtol = atol] *)
Definition close1 (x y : R) : bool := `|x - y| <= rtol + rtol * `|y|.
Definition nall (p : R -> bool) (a : nd) : bool :=
  match a with
  | Nd0 x => p x
  | Nd1 n v => [forall i, p (v i 0)]
  | Nd2 m n A => [forall i, [forall j, p (A i j)]]
  end.
Definition allclose (a b : nd) : res bool :=
  do r <- bop (fun x y => (close1 x y)%:R) a b; Ok (nall (fun x => x == 1) r).

(** Gaussian.py:222-229 *)
Definition geq (a b : gauss) : res bool :=
  do ma <- g_mean a;
  do mb <- g_mean b;
  do me <- allclose ma mb;
  do ca <- g_cov a;
  do cb <- g_cov b;
  do ce <- allclose ca cb;
  Ok (me && ce).

(** sum of squares of all entries, [np.square(np.linalg.norm(a))] *)
Definition nsumsq (a : nd) : R :=
  match a with
  | Nd0 x => x ^+ 2
  | Nd1 n v => \sum_i (v i 0) ^+ 2
  | Nd2 m n A => \sum_i \sum_j (A i j) ^+ 2
  end.

(** Gaussian.py:240-246 *)
Definition g_squared_error (g : gauss) (x : nd) : res R :=
  do m <- g_mean g; do d <- nsub m x; Ok (nsumsq d).

(** Gaussian.py:267-271 *)
Definition g_copy (g : gauss) : gauss :=
  match g with
  | Mom m c => gaussian m c
  | Nat p s => from_natural p s
  end.

(** Gaussian.py:273-279 and 292-296 *)
Definition as_factor (dim : nat) : gauss := from_natural (nzeros2 dim) (nzeros1 dim).
(** Gaussian.py:285-289 *)
Definition as_marginal (dim : nat) : gauss :=
  gaussian (nzeros1 dim) (nscale large_num (neye dim)).

(** Utils/linalg.py:48-50 *)
Definition gvalidate (g : gauss) : res unit := do c <- g_cov g; validate_cov c.

End Gauss.

Arguments Mom {R}.
Arguments Nat {R}.
Arguments as_factor {R}.
Arguments as_marginal {R}.
Arguments natural_to_moment : simpl never.
Arguments moment_to_natural : simpl never.
Arguments gmul : simpl never.
Arguments gdiv : simpl never.
Arguments gpow : simpl never.
Arguments allclose : simpl never.
