(** * Averages, spreads and bands, as specification of what Plot_Helper draws *)
Set Warnings "-notation-overridden,-ambiguous-paths".
From mathcomp Require Import all_ssreflect all_algebra.
From Verif Require Import Base ND LinAlg Gauss Plot.
Set Implicit Arguments.
Unset Strict Implicit.
Unset Printing Implicit Defensive.
Import GRing.Theory Num.Theory Order.Theory.
Local Open Scope ring_scope.

Section Spec.
Variable R : rcfType.
Variable illcond : forall n, 'M[R]_n -> bool.
(** the arithmetic mean of a family of numbers *)
Definition avg N (x : 'I_N -> R) : R := (\sum_i x i) / N%:R.
(** at its [j]-th abscissa the figure has a curve through [c] and a band from [c - w] to [c + w] *)
Definition centred (f : figure R) (j : nat) (c w : R) : Prop :=
  exists l b, [/\ f_line f = Some l, f_band f = Some b, nth [::] (l_rows l) j = [:: c],
    nth None (b_lower b) j = Some (c - w) & nth None (b_upper b) j = Some (c + w)].
(** [lo, hi] is the band of [w] standard deviations about [m], for the variance [v]; no band for a negative variance *)
Definition spread (w m v : R) (lo hi : option R) : Prop :=
  (v < 0 /\ lo = None /\ hi = None) \/
  exists s, [/\ 0 <= s, s ^+ 2 = v, lo = Some (m - w * s) & hi = Some (m + w * s)].
(** the components of a vector *)
Definition components n (v : 'cV[R]_n) : seq R := [seq v i 0 | i <- enum 'I_n].
(** three layouts of a vector as an array: (n,), (1, n) and (n, 1) *)
Inductive layout := Flat | AsRow | AsColumn.
Definition laid n (k : layout) (v : 'cV[R]_n) : nd R :=
  match k with Flat => Nd1 v | AsRow => Nd2 v^T | AsColumn => Nd2 v end.
(** the state reports this mean, in this layout, and this covariance *)
Definition reports n (k : layout) (g : gauss R) (p : 'cV[R]_n * 'M[R]_n) : Prop :=
  g_mean illcond g = Ok (laid k p.1) /\ g_cov illcond g = Ok (Nd2 p.2).
End Spec.
