(** * Property C71: programs cannot tell shared caching Gaussians from immutable values (StateModel/Gaussian.py) *)
Set Warnings "-notation-overridden,-ambiguous-paths".
From mathcomp Require Import all_ssreflect all_algebra.
From mathcomp Require Import real_closed.realalg.
From Verif Require Import Base ND LinAlg Gauss GaussObj GaussLink Metrics GaussHeap SpecHeap NDFacts GaussFacts PosDef GaussHeapFacts.
Set Implicit Arguments.
Unset Strict Implicit.
Unset Printing Implicit Defensive.
Import GRing.Theory.
Local Open Scope ring_scope.

Section Heap.
Variable R : rcfType.
Variable illcond : forall n, 'M[R]_n -> bool.
Variable logpdf : nd R -> nd R -> nd R -> res R.

(** whatever a program does with its objects, operand of several operators, compared with themselves, after exceptions,
    and however it chooses its next step by what it has seen, every answer is the one computed from values that never change *)
Theorem C71_values prog n : (run illcond logpdf prog n).2 = (vrun illcond logpdf prog n).2.
Proof. exact: run_values. Qed.
(** so a query (a read, a comparison, an error, a validation) may be added to or removed from a program: no other answer changes *)
Theorem C71_queries l1 c l2 : query c ->
  let a := (run illcond logpdf (script (l1 ++ l2)) (size (l1 ++ l2))).2 in
  let b := (run illcond logpdf (script (l1 ++ c :: l2)) (size (l1 ++ c :: l2))).2 in
  a = take (size l1) b ++ drop (size l1).+1 b.
Proof. exact: query_free. Qed.
(** a query about existing objects has the same answer at every later time *)
Theorem C71_later prog n k c : query c -> (forall i, i \in used c -> (i < size (run illcond logpdf prog n).1)%N) ->
  (exec illcond logpdf c (run illcond logpdf prog (n + k)).1).2 = (exec illcond logpdf c (run illcond logpdf prog n).1).2.
Proof. exact: query_later. Qed.

(** ** a case: a standard normal multiplied with itself *)
Definition square : seq (cmd R) :=
  [:: KMoment (nzeros1 2) (neye 2); KMul R 0 0; KDiv R 1 7; KRead R APrec 1; KRead R AShift 0].
Local Arguments gmul : simpl never.
Local Arguments gaussian : simpl never.
Local Arguments moment_to_natural : simpl never.
Local Arguments nadd : simpl never.
Local Arguments symmetrize : simpl never.
Local Arguments nzeros1 : simpl never.
Local Arguments get_prec : simpl never.
Local Arguments neye : simpl never.
Hypothesis easy : forall n (A : 'M[R]_n), ~~ illcond A.
Lemma eye_pd : posdef (1%:M : 'M[R]_2).
Proof. exact: posdef1. Qed.
Lemma eye_natural : moment_to_natural illcond (nzeros1 2) (neye 2) = Ok (neye 2, nzeros1 2).
Proof. by rewrite /nzeros1 /neye (moment_to_naturalE _ eye_pd) // invmx1 mulmx0. Qed.
Lemma two_sym : symmetrize (Nd2 (1%:M + 1%:M : 'M[R]_2)) = Ok (Nd2 (1%:M + 1%:M : 'M[R]_2)).
Proof. by rewrite symmetrize_sym // linearD /= trmx1. Qed.
(** the answers are those of values *)
Example C71_case : (run illcond logpdf (script square) (size square)).2 =
  [:: Ok (ANew R 0); Ok (ANew R 1); Err IndexErr; Ok (AOut (OV (Some (Nd2 (1%:M + 1%:M : 'M[R]_2))))); Ok (AOut (OV (Some (nzeros1 2))))].
Proof.
have sy : symmetrize (Nd2 (1%:M + 1%:M : 'M[R]_2)) = Ok (Nd2 (1%:M + 1%:M : 'M[R]_2)).
  exact: two_sym.
have mu : gmul illcond (gaussian (nzeros1 2) (neye 2)) (gaussian (nzeros1 2) (neye 2)) = Ok (from_natural (Nd2 (1%:M + 1%:M : 'M[R]_2)) (nzeros1 2)).
  rewrite /gmul /gaussian /g_precision /g_shift -[natleast1 _]/(nzeros1 2) eye_natural.
  rewrite -[bind _ _]/(do p0 <- nadd (neye 2) (neye 2); do p <- symmetrize p0; do s <- nadd (nzeros1 2) (nzeros1 2); Ok (from_natural p s)).
  by rewrite /neye naddmm bindE sy bindE /nzeros1 naddvv bindE addr0.
set G := gaussian _ _ in mu; set P := from_natural _ _ in mu.
have v1 : vstep illcond logpdf [::] (KMoment (nzeros1 2) (neye 2)) = ([:: G], Ok (ANew R 0)) by [].
have v2 : vstep illcond logpdf [:: G] (KMul R 0 0) = ([:: G; P], Ok (ANew R 1)).
  by rewrite /vstep -[creates _ _ _]/(Some (gmul illcond G G)) mu.
have v3 : vstep illcond logpdf [:: G; P] (KDiv R 1 7) = ([:: G; P], Err IndexErr) by [].
have v4 : vstep illcond logpdf [:: G; P] (KRead R APrec 1) = ([:: G; P], Ok (AOut (OV (Some (Nd2 (1%:M + 1%:M : 'M[R]_2)))))) by [].
have v5 : vstep illcond logpdf [:: G; P] (KRead R AShift 0) = ([:: G; P], Ok (AOut (OV (Some (nzeros1 2))))).
  rewrite /vstep -[creates _ _ _]/None -[asks _ _ _ _]/(do o <- value illcond G AShift; Ok (AOut o)) /value /g_shift /G /gaussian.
  by rewrite -[natleast1 _]/(nzeros1 2) eye_natural.
rewrite (run_script _ _ square) (vplay_cons _ v1) (vplay_cons _ v2) (vplay_cons _ v3) (vplay_cons _ v4) (vplay_cons _ v5).
reflexivity.
Qed.
(** reading the precision of the shared operand fills its caches: the heap does change *)
Example C71_fills : let o := init (@natleast1 R) (Some (nzeros1 2)) (Some (neye 2)) None None in
  exec illcond logpdf (KRead R APrec 0) [:: o] = ([:: set_ps o (neye 2, nzeros1 2)], Ok (AOut (OV (Some (neye 2))))).
Proof.
cbv zeta; set o := init _ _ _ _ _.
have n1 : get_prec (m2n_o illcond) o = (set_ps o (neye 2, nzeros1 2), Ok (Some (neye 2))) by rewrite /get_prec /= eye_natural.
by rewrite /exec /= /say /hbind /attribute /read /= n1.
Qed.
End Heap.
(** at a concrete field and a concrete test of conditioning *)
Definition C71_concrete logpdf := @C71_case [rcfType of realalg] (fun _ _ => false) logpdf (fun _ _ => isT).
Print Assumptions C71_values. Print Assumptions C71_queries. Print Assumptions C71_later.
