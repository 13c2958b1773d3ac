(** * MomentMatching: the unscented, Taylor and Monte Carlo transforms

    UnscentedTransform.py:27-87, TaylorLinearisation.py:24-60, MonteCarloTransform.py:6-38.
    Exact arithmetic.  The user's function is a value [dfun]: how it acts on an array, and what
    [autograd.jacobian(func)] returns at an array (autograd itself is not modelled). *)
Set Warnings "-notation-overridden,-ambiguous-paths".
From mathcomp Require Import all_ssreflect all_algebra.
From Verif Require Import Base ND LinAlg Gauss.
Set Implicit Arguments.
Unset Strict Implicit.
Unset Printing Implicit Defensive.
Import GRing.Theory Num.Theory Order.Theory.
Local Open Scope ring_scope.

Section Transforms.
Variable R : rcfType.
Variable illcond : forall n, 'M[R]_n -> bool.
Notation nd := (nd R).
Notation gauss := (gauss R).

(** what a Jacobian call returns: an array of rank at most 2, or a higher-rank array given by its
    shape and its entries in row-major order *)
Inductive jarr := JLow of nd | JHigh of seq nat & seq R.

(** array of rank at most 2 with given shape and row-major entries *)
Definition nd_of_flat (shape : seq nat) (data : seq R) : option nd :=
  match shape with
  | [::] => Some (Nd0 (nth 0 data 0))
  | [:: n] => Some (Nd1 (\col_(i < n) nth 0 data i))
  | [:: m; n] => Some (Nd2 (\matrix_(i < m, j < n) nth 0 data (i * n + j)))
  | _ => None
  end.

(** [np.squeeze] of an array of rank > 2 *)
Definition jsqueeze (shape : seq nat) (data : seq R) : option nd :=
  nd_of_flat [seq k <- shape | k != 1%N] data.

Record dfun := DFun { call : nd -> res nd; jac : nd -> res jarr }.

Notation moments := (nd * nd * nd)%type.      (* mean, cov, cross_cov *)

(** *** Unscented transform *)
Section UT.
(** UnscentedTransform.py:32-39: constructor arguments *)
Variables (n : nat) (alpha beta kappa : R).

(** line 34 and line 64 *)
Definition ut_lambda : R := alpha * alpha * (n%:R + kappa) - n%:R.
(** lines 65, 43 *)
Definition ut_npl : R := n%:R + ut_lambda.

(** the number of sigma points [2 * n + 1] *)
Notation pts := (1 + n + n)%N.

(** lines 67-77 *)
Definition ut_wm : 'cV[R]_pts :=
  \col_i if i == 0%N :> nat then ut_lambda / ut_npl else 1 / (2%:R * ut_npl).
Definition ut_wc : 'cV[R]_pts :=
  \col_i if i == 0%N :> nat then ut_lambda / ut_npl + (1 - alpha * alpha + beta) else 1 / (2%:R * ut_npl).

(** lines 62-84.  A zero [n + lambda] divides Python numbers by zero. *)
Definition ut_weights : res (nd * nd) :=
  if ut_npl == 0 then Err ZeroDivErr else
  do w_left <- nsub (neye pts) (Nd1 ut_wm);
  do t <- nmatmul (ntr w_left) (Nd2 (diag_mx ut_wc^T));
  do W0 <- nmatmul t w_left;
  do W <- symmetrize W0;
  Ok (Nd1 ut_wm, W).

(** [np.vstack((a, b, c))] *)
Definition nvstack3 (a b c : nd) : res nd :=
  match natleast2 a, natleast2 b, natleast2 c with
  | Nd2 m n A, Nd2 m' n' B, Nd2 m'' n'' C =>
      if (n' == n) && (n'' == n) then
        Ok (Nd2 (col_mx (col_mx A (conform_mx (0 : 'M_(m', n)) B)) (conform_mx (0 : 'M_(m'', n)) C)))
      else Err ValueErr
  | _, _, _ => Err ValueErr
  end.

(** lines 41-58.  numpy's square root of a negative number is nan: outside the model *)
Definition ut_sigma_points (mean cov : nd) : res nd :=
  if ut_npl < 0 then Err Unsupported else
  do cov <- symmetrize cov;
  do L <- catch_any (sp_cholesky false cov) (jittered_chol false cov);
  let scaledL := nscale (Num.sqrt ut_npl) L in
  do mean_plus_L <- nadd mean scaledL;
  do mean_minus_L <- nsub mean scaledL;
  nvstack3 mean mean_plus_L mean_minus_L.

(** lines 86-94 with the weights of the constructor *)
Definition ut_transform (func : dfun) (state : gauss) : res moments :=
  do '(w_m, W) <- ut_weights;
  do m <- g_mean illcond state;
  do P <- g_cov illcond state;
  do sigma_pts <- ut_sigma_points m P;
  do Y <- call func sigma_pts;
  do mean <- nmatmul w_m Y;
  do YtW <- nmatmul (ntr Y) W;
  do c0 <- nmatmul YtW Y;
  do cov <- symmetrize c0;
  do StW <- nmatmul (ntr sigma_pts) W;
  do cross_cov <- nmatmul StW Y;
  Ok (mean, cov, cross_cov).

End UT.

(** *** Taylor transform: TaylorLinearisation.py:49-60 (isinstance assertion: [state] is a Gaussian) *)
Definition tt_jacobian (func : dfun) (x : nd) : res nd :=
  do j <- jac func x;
  match j with
  | JLow a => Ok a
  | JHigh s data => if jsqueeze s data is Some a then Ok a else Err Unsupported
  end.
Definition tt_transform (func : dfun) (state : gauss) : res moments :=
  do m <- g_mean illcond state;
  do J_t <- tt_jacobian func m;
  do mean0 <- call func m;
  let mean := nsqueeze mean0 in
  do P <- g_cov illcond state;
  do JP <- nmatmul J_t P;
  do cov <- nmatmul JP (ntr J_t);
  do cross_cov <- nmatmul P (ntr J_t);
  Ok (mean, cov, cross_cov).

(** *** Monte Carlo transform *)
(** [np.mean(y, axis=-2)] *)
Definition nmean_rows (y : nd) : res nd :=
  match y with
  | Nd2 N m Y => if N == 0%N then Err Unsupported else Ok (Nd1 ((N%:R)^-1 *: \sum_(k < N) (row k Y)^T))
  | _ => Err ValueErr
  end.
(** MonteCarloTransform.py:29-38.  [np.cov(x, y, bias=False)] stacks the rows of x and y, removes
    the row means and divides by [N - 1]; for [N = 1] it divides by zero (nan, outside the model) *)
Definition sample_covariance (y_samples x_samples : nd) : res (nd * nd) :=
  match x_samples, y_samples with
  | Nd2 n N X, Nd2 m N' Y0 =>
      if N' == N then
        if (N <= 1)%N then Err Unsupported else
        let Y := conform_mx (0 : 'M_(m, N)) Y0 in
        let Z := col_mx X Y in
        let Zbar := (N%:R)^-1 *: \sum_k col k Z in
        let D : 'M_(n + m, N) := \matrix_(i, k) (Z i k - Zbar i 0) in
        let total := (N.-1%:R)^-1 *: (D *m D^T) in
        Ok (Nd2 (drsubmx total), Nd2 (ursubmx total))
      else Err ValueErr
  | _, _ => Err Unsupported
  end.
(** MonteCarloTransform.py:16-27; [samples] is what [state.sample(number_of_samples)] drew *)
Definition mc_transform (samples : nd) (func : dfun) : res moments :=
  do prop <- call func samples;
  do mean <- nmean_rows prop;
  do '(cov, cross_cov) <- sample_covariance (ntr prop) (ntr samples);
  Ok (mean, cov, cross_cov).

End Transforms.
Arguments DFun {R}.
Arguments JLow {R}.
Arguments JHigh {R}.
Arguments ut_weights : simpl never.
Arguments ut_sigma_points : simpl never.
Arguments nvstack3 : simpl never.
Arguments sample_covariance : simpl never.
