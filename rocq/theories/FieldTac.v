(** * [ring]/[field] for MathComp real fields
    Coq's standard [ring] and [field] tactics need the operators to be syntactically
    those of the declared structure; MathComp terms carry varying canonical-structure
    paths.  [mring]/[mfield] first rename the operators to wrappers. No axioms. *)
Set Warnings "-notation-overridden,-ambiguous-paths".
From Coq Require Import Ring Field.
From mathcomp Require Import all_ssreflect all_algebra.
Set Implicit Arguments.
Unset Strict Implicit.
Import GRing.Theory.
Local Open Scope ring_scope.

Definition fadd (F : fieldType) (x y : F) : F := x + y.
Definition fmul (F : fieldType) (x y : F) : F := x * y.
Definition fopp (F : fieldType) (x : F) : F := - x.
Definition fsub (F : fieldType) (x y : F) : F := x - y.
Definition finv (F : fieldType) (x : F) : F := x^-1.
Definition fdiv (F : fieldType) (x y : F) : F := x / y.
Definition fzero (F : fieldType) : F := 0.
Definition fone (F : fieldType) : F := 1.
Definition fnatm (F : fieldType) (x : F) (n : nat) : F := x *+ n.

Lemma ffth (F : fieldType) :
  Field_theory.field_theory (fzero F) (fone F) (@fadd F) (@fmul F) (@fsub F) (@fopp F) (@fdiv F) (@finv F) eq.
Proof.
constructor; last by move=> x /eqP; exact: mulVf.
- constructor=> *; rewrite /fadd /fmul /fsub /fopp /fzero /fone
    ?(add0r,addrA,mul1r,mulrA,mulrDl,subrr)//; by [exact: addrC | exact: mulrC].
- by apply/eqP; exact: oner_neq0.
- by [].
Qed.

Ltac fnorm F :=
  rewrite ?(mulr2n, expr2, exprS, expr0, mulrS, mulr0n);
  repeat match goal with
  | |- context [@GRing.opp ?Z ?x] => change (@GRing.opp Z x) with (@fopp F x)
  end;
  repeat match goal with
  | |- context [@GRing.inv ?Z ?x] => change (@GRing.inv Z x) with (@finv F x)
  end;
  repeat match goal with
  | |- context [@GRing.add ?Z ?x ?y] => change (@GRing.add Z x y) with (@fadd F x y)
  end;
  repeat match goal with
  | |- context [@GRing.mul ?Z ?x ?y] => change (@GRing.mul Z x y) with (@fmul F x y)
  end;
  repeat match goal with
  | |- context [@GRing.natmul ?Z ?x ?n] => change (@GRing.natmul Z x n) with (@fnatm F x n)
  end;
  repeat match goal with
  | |- context [GRing.zero ?Z] => change (GRing.zero Z) with (fzero F)
  end;
  repeat match goal with
  | |- context [GRing.one ?Z] => change (GRing.one Z) with (fone F)
  end;
  match goal with
  | |- @eq _ ?x ?y => change (@eq (GRing.Field.sort F) x y)
  | _ => idtac
  end.

Section Test.
Variable F : fieldType.
Add Field fieldF : (ffth F).
Lemma fring_test (a b c : F) : (a + b) ^+ 2 = a ^+ 2 + b * b + 2%:R * (a * b).
Proof. fnorm F. ring. Qed.
Lemma ffield_test (a b c : F) : a != 0 -> a / a * b - c * b = b * (1 - c).
Proof. move=> /eqP h. fnorm F. field. exact: h. Qed.
End Test.
