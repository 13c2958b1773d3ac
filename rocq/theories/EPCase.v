(** * A concrete system used by the examples: a scalar random walk with unit noise *)
Set Warnings "-notation-overridden,-ambiguous-paths".
From mathcomp Require Import all_ssreflect all_algebra.
From Verif Require Import Base ND NDFacts Gauss Nodes Transforms TransformFacts Estimator SpecGauss.
Set Implicit Arguments.
Unset Strict Implicit.
Unset Printing Implicit Defensive.
Import GRing.Theory Num.Theory Order.Theory.
Local Open Scope ring_scope.

Section Case.
Variable R : rcfType.
Definition never : forall n, 'M[R]_n -> bool := fun _ _ => false.
Definition idf : dfun R := DFun (fun x => Ok x) (fun _ => Err TypeErr).
Definition walk : lgssm R 1 1 := Lgssm 0 1%:M (fun=> 1%:M) (fun=> 0) 1%:M (fun=> 1%:M) (fun=> 0) 1%:M.
Definition walk_sys : system (gauss R) (dfun R) (dfun R) unit unit :=
  System (fun=> idf) idf tt (gaussian (Nd1 (0 : 'cV[R]_1)) (Nd2 (1%:M : 'M[R]_1))).
Definition walk_y (i : nat) : 'cV[R]_1 := if i is 0%N then 3%:R%:M else 1%:M.
Definition walk_ys : seq (nd R) := [:: Nd1 (walk_y 0); Nd1 (walk_y 1)].
Definition walk_ut := pure_transform (W := unit) (ut_transform never 1 1 0 (2%:R : R)).
Lemma idf_rowwise : rowwise idf (fun x : 'cV[R]_1 => 1%:M *m x + 0).
Proof.
move=> k X; congr (Ok (Nd2 _)); apply/matrixP=> i j; by rewrite mxE mul1mx addr0 !mxE.
Qed.
End Case.
Arguments never {R}.
Arguments idf {R}.
Arguments walk {R}.
Arguments walk_sys {R}.
Arguments walk_y {R}.
Arguments walk_ys {R}.
Arguments walk_ut {R}.
