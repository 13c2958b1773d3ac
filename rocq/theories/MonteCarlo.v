(** * StateModel/Gaussian.py:248-253 and MomentMatching/MonteCarloTransform.py with the random generator *)
Set Warnings "-notation-overridden,-ambiguous-paths".
From mathcomp Require Import all_ssreflect all_algebra.
From Verif Require Import Base ND LinAlg Gauss Transforms Estimator.
Set Implicit Arguments.
Unset Strict Implicit.
Unset Printing Implicit Defensive.
Import GRing.Theory Num.Theory Order.Theory.
Local Open Scope ring_scope.

Section MonteCarlo.
Variable R : rcfType.
Variable illcond : forall n, 'M[R]_n -> bool.
Variable W : Type.
Notation nd := (nd R).
Notation gauss := (gauss R).
Notation dfun := (dfun R).

(** the numbers numpy's global generator draws for a mean and a covariance; arbitrary *)
Variable draw : forall size n, 'cV[R]_n -> 'M[R]_n -> W -> W * 'M[R]_(size, n).

(** Gaussian.py:248-253.  [np.random.multivariate_normal] raises ValueError unless the mean is
    one-dimensional and the covariance is a square array of the same length; then it returns an
    array with one draw per row.  Simplified: the singular value decomposition inside numpy is
    assumed to converge. *)
Definition g_sample (size : nat) (g : gauss) (w : W) : W * res nd :=
  match (do m <- g_mean illcond g; do c <- g_cov illcond g; Ok (m, c)) with
  | Err e => (w, Err e)
  | Ok (@Nd1 _ n m, @Nd2 _ a b C) =>
      if (a == n) && (b == n) then
        let: (w', X) := draw size m (conform_mx (0 : 'M_n) C) w in (w', Ok (Nd2 X))
      else (w, Err ValueErr)
  | Ok _ => (w, Err ValueErr)
  end.

(** MonteCarloTransform.py:6-24: [number_of_samples] is [int(1e4)] when it is not given *)
Definition mc_default : nat := 10 * 10 * 10 * 10.
Definition mc_map (number_of_samples : option nat) : transform R W := fun func g w =>
  let size := if number_of_samples is Some s then s else mc_default in
  match g_sample size g w with
  | (w', Err e) => (w', Err e)
  | (w', Ok samples) => (w', mc_transform samples func)
  end.
End MonteCarlo.
