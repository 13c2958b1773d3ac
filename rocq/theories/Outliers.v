(** * Experiments/DisplayResults.py:54-72, remove_outliers (exact arithmetic)

    [x] is a one-dimensional array without nan; an array of shape (n, 1) is treated in the same way by every
    operation here.  [np.percentile] of an empty array is [Unsupported] (nan or an exception, depending on
    the version of numpy). *)
Set Warnings "-notation-overridden,-ambiguous-paths".
From mathcomp Require Import all_ssreflect all_algebra.
From Verif Require Import Base.
Set Implicit Arguments.
Unset Strict Implicit.
Unset Printing Implicit Defensive.
Import GRing.Theory Num.Theory Order.Theory.
Local Open Scope ring_scope.

Section Outliers.
Variable R : rcfType.

(** [np.percentile(x, q)] with linear interpolation between the neighbours of the position (n - 1) q / 100 *)
Definition percentile (x : seq R) (q : nat) : R :=
  let s := sort <=%R x in
  let h := ((size x).-1 * q)%N in
  let a := nth 0 s (h %/ 100) in
  let b := nth 0 s (minn (h %/ 100).+1 (size x).-1) in
  a + (b - a) * ((h %% 100)%:R / 100%:R).
(** [np.where(x > t)[0]] for a condition [p] *)
Definition where_ (p : pred R) (x : seq R) : seq int := [seq i%:Z | i <- iota 0 (size x) & p (nth 0 x i)].
(** lines 58-64 *)
Definition outliers (x : seq R) : res (seq int) :=
  if x is [::] then Err Unsupported else
  let first_quartile := percentile x 25 in
  let third_quartile := percentile x 75 in
  let IQR := third_quartile - first_quartile in
  let upper_lim := third_quartile + (3%:R / 2%:R) * IQR in
  let lower_lim := first_quartile - (3%:R / 2%:R) * IQR in
  Ok (where_ (fun v => upper_lim < v) x ++ where_ (fun v => v < lower_lim) x).
(** lines 66-72; an empty list makes a float array, which is no index *)
Definition keep (x : seq R) (out : seq int) : res (seq R) :=
  let idxs := [seq i <- iota 0 (size x) | i%:Z \notin out] in
  if idxs is [::] then Err IndexErr else Ok [seq nth 0 x i | i <- idxs].
(** lines 54-72 *)
Definition remove_outliers (x : seq R) (outlier_idxs : option (seq int)) (dont_remove : bool) : res (option (seq int) * seq R) :=
  if dont_remove then Ok (None, x) else
  do out <- (if outlier_idxs is Some l then Ok l else outliers x);
  do y <- keep x out;
  Ok (Some out, y).
End Outliers.
