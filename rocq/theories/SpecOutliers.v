(** * Quartiles and Tukey's fences, as specification of remove_outliers

    The order statistics are those of any sorted rearrangement of the data; the quartiles are averages of four of
    them (the usual linear interpolation with weights in quarters). *)
Set Warnings "-notation-overridden,-ambiguous-paths".
From mathcomp Require Import all_ssreflect all_algebra.
Set Implicit Arguments.
Unset Strict Implicit.
Unset Printing Implicit Defensive.
Import GRing.Theory Num.Theory Order.Theory.
Local Open Scope ring_scope.

Section Spec.
Variable R : rcfType.
(** [s] lists the values of [x] in increasing order *)
Definition ordered (s x : seq R) := sorted <=%R s /\ perm_eq s x.
Definition quartile (s : seq R) (c : nat) : R := (\sum_(j < 4) nth 0 s ((c * (size s).-1 + j) %/ 4)) / 4%:R.
(** more than one and a half times the interquartile range outside the quartiles *)
Definition far (s : seq R) (v : R) : Prop :=
  let iqr := quartile s 3 - quartile s 1 in
  quartile s 3 + (3%:R / 2%:R) * iqr < v \/ v < quartile s 1 - (3%:R / 2%:R) * iqr.
(** the values of [x] at the positions outside [out], in order *)
Definition others (x : seq R) (out : seq int) : seq R := mask [seq i%:Z \notin out | i <- iota 0 (size x)] x.
End Spec.
