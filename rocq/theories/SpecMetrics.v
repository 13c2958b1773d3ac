(** * Vocabulary for the metrics *)
Set Warnings "-notation-overridden,-ambiguous-paths".
From mathcomp Require Import all_ssreflect all_algebra.
From Verif Require Import Base ND PosDef LinAlg Gauss.
Set Implicit Arguments.
Unset Strict Implicit.
Unset Printing Implicit Defensive.
Import GRing.Theory Num.Theory Order.Theory.
Local Open Scope ring_scope.

Section Spec.
Variable R : rcfType.
(** squared Euclidean distance *)
Definition dist2 n (u v : 'cV[R]_n) : R := \sum_i (u i 0 - v i 0) ^+ 2.
(** the squared distances over the common prefix *)
Definition errors n (ms vs : seq 'cV[R]_n) : seq R := [seq dist2 p.1 p.2 | p <- zip ms vs].
Definition average (xs : seq R) : R := (\sum_(x <- xs) x) / (size xs)%:R.
(** an array holding the vector [v]: of shape (n,) or (1, n) *)
Definition holds n (x : nd R) (v : 'cV[R]_n) : Prop := x = Nd1 v \/ x = Nd2 v^T.
Inductive forall2 (A B : Type) (P : A -> B -> Prop) : seq A -> seq B -> Prop :=
| F2nil : forall2 P [::] [::]
| F2cons a b l l' : P a b -> forall2 P l l' -> forall2 P (a :: l) (b :: l').
(** some of the components of a vector, and the corresponding block of a matrix *)
Definition pick k n (ix : 'I_k -> 'I_n) (v : 'cV[R]_n) : 'cV[R]_k := \col_i v (ix i) 0.
Definition block k n (ix : 'I_k -> 'I_n) (c : 'M[R]_n) : 'M[R]_k := \matrix_(i, j) c (ix i) (ix j).
(** the tracker's state is (x, x', y, y', w) *)
Definition positions (i : 'I_2) : 'I_5 := inord (2 * i).
Definition velocities (i : 'I_2) : 'I_5 := inord (2 * i).+1.
Definition turn_rate (i : 'I_1) : 'I_5 := inord 4.
(** the state [g] reports the mean [m]; the mean and the covariance [p]; and the covariance is positive definite *)
Section Report.
Variable illcond : forall n, 'M[R]_n -> bool.
Definition tells n (g : gauss R) (m : 'cV[R]_n) : Prop := g_mean illcond g = Ok (Nd1 m).
Definition tells2 n (g : gauss R) (p : 'cV[R]_n * 'M[R]_n) : Prop := g_mean illcond g = Ok (Nd1 p.1) /\ g_cov illcond g = Ok (Nd2 p.2).
Definition tells3 n (g : gauss R) (p : 'cV[R]_n * 'M[R]_n) : Prop := tells2 g p /\ posdef p.2.
End Report.
End Spec.
