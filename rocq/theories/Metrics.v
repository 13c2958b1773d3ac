(** * Utils/Metrics.py and the componentwise metrics of Experiments/EP_Sweep_BearingsOnly.py

    [logpdf x mean cov] is scipy.stats.multivariate_normal.logpdf(..., allow_singular=True): an arbitrary
    function that may raise.  The mean of an empty list (numpy: nan with a warning) is the outcome
    [Unsupported]. *)
Set Warnings "-notation-overridden,-ambiguous-paths".
From mathcomp Require Import all_ssreflect all_algebra.
From Verif Require Import Base ND LinAlg Gauss.
Set Implicit Arguments.
Unset Strict Implicit.
Unset Printing Implicit Defensive.
Import GRing.Theory Num.Theory Order.Theory.
Local Open Scope ring_scope.

Section Metrics.
Variable R : rcfType.
Variable illcond : forall n, 'M[R]_n -> bool.
Notation nd := (nd R).
Notation gauss := (gauss R).
Variable logpdf : nd -> nd -> nd -> res R.

(** StateModel/Gaussian.py:231-238 *)
Definition g_nll (g : gauss) (x : nd) : res R :=
  do m <- g_mean illcond g; do c <- g_cov illcond g; do l <- logpdf x m c; Ok (- l).

(** [np.mean] of a list of numbers *)
Definition np_mean (xs : seq R) : res R := if xs is [::] then Err Unsupported else Ok ((\sum_(x <- xs) x) / (size xs)%:R).

(** Utils/Metrics.py:4-9 *)
Definition nll (states : seq gauss) (truths : seq nd) : res R :=
  do r <- mapM (fun p => g_nll p.1 p.2) (zip states truths); np_mean r.
(** Utils/Metrics.py:12-18; the argument of [np.sqrt] is never negative *)
Definition rmse (states : seq gauss) (truths : seq nd) : res R :=
  do r <- mapM (fun p => g_squared_error illcond p.1 p.2) (zip states truths);
  do m <- np_mean r; Ok (Num.sqrt m).
(** Utils/Metrics.py:21-23; the argument is the list of the nodes' marginals *)
Definition node_metrics (states : seq gauss) (truths : seq nd) : res (R * R) :=
  do r <- rmse states truths; do n <- nll states truths; Ok (r, n).

(** [a[i]] *)
Definition item (a : nd) (i : nat) : res nd :=
  match a with
  | Nd0 _ => Err IndexErr
  | Nd1 n v => if (i < n)%N then Ok (Nd0 (ent v i 0)) else Err IndexErr
  | Nd2 m n A => if (i < m)%N then Ok (Nd1 (\col_(j < n) ent A i j)) else Err IndexErr
  end.
(** [a[i, j]] *)
Definition item2 (a : nd) (i j : nat) : res R :=
  if a is Nd2 m n A then if (i < m)%N && (j < n)%N then Ok (ent A i j) else Err IndexErr else Err IndexErr.
(** [np.array([a1, ..., ak])] of scalars or of equally long one-dimensional arrays *)
Definition is0 (a : nd) : bool := if a is Nd0 _ then true else false.
Definition is1 (k : nat) (a : nd) : bool := if a is Nd1 n _ then n == k else false.
Definition get0 (a : nd) : R := if a is Nd0 x then x else 0.
Definition get1 (a : nd) (j : nat) : R := if a is Nd1 _ v then ent v j 0 else 0.
Definition nstack (xs : seq nd) : res nd :=
  if all is0 xs then Ok (Nd1 (\col_(i < size xs) get0 (nth (Nd0 0) xs i)))
  else if xs is Nd1 k _ :: _ then
    if all (is1 k) xs then Ok (Nd2 (\matrix_(i < size xs, j < k) get1 (nth (Nd0 0) xs i) j)) else Err Unsupported
  else Err Unsupported.

(** Experiments/EP_Sweep_BearingsOnly.py:94-99: the components [ix] of a state *)
Definition component (ix : seq nat) (m c : nd) : res gauss :=
  do ms <- mapM (item m) ix;
  do mean <- nstack ms;
  do rows <- mapM (fun i => mapM (item2 c i) ix) ix;
  Ok (gaussian mean (Nd2 (\matrix_(i < size ix, j < size ix) nth 0 (nth [::] rows i) j))).
(** lines 101-103 *)
Definition component_true (ix : seq nat) (x : nd) : res nd :=
  do xs <- mapM (item2 x 0) ix; Ok (Nd1 (\col_(i < size ix) nth 0 xs i)).
(** lines 85-109 *)
Record bott := Bott { pos_rmse : R; pos_nll : R; vel_rmse : R; vel_nll : R; ang_rmse : R; ang_nll : R }.
Definition bott_metrics (states : seq gauss) (truths : seq nd) : res bott :=
  do means <- mapM (g_mean illcond) states;
  do covs <- mapM (g_cov illcond) states;
  do pos <- mapM (fun p => component [:: 0; 2]%N p.1 p.2) (zip means covs);
  do vel <- mapM (fun p => component [:: 1; 3]%N p.1 p.2) (zip means covs);
  do ang <- mapM (fun p => component [:: 4]%N p.1 p.2) (zip means covs);
  do post <- mapM (component_true [:: 0; 2]%N) truths;
  do velt <- mapM (component_true [:: 1; 3]%N) truths;
  do angt <- mapM (component_true [:: 4]%N) truths;
  do pr <- rmse pos post; do pn <- nll pos post;
  do vr <- rmse vel velt; do vn <- nll vel velt;
  do ar <- rmse ang angt; do an <- nll ang angt;
  Ok (Bott pr pn vr vn ar an).
End Metrics.
