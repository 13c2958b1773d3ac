(** * Gaussian.__eq__ (StateModel/Gaussian.py:222-229) *)
Set Warnings "-notation-overridden,-ambiguous-paths".
From Coq Require Import Ring Field.
From mathcomp Require Import all_ssreflect all_algebra.
From Verif Require Import Base FieldTac ND NDFacts PosDef LinAlg LinAlgFacts Gauss GaussFacts.
Set Implicit Arguments.
Unset Strict Implicit.
Unset Printing Implicit Defensive.
Import GRing.Theory Num.Theory Order.Theory.
Local Open Scope ring_scope.

Section Eq.
Variable R : rcfType.
Variable illcond : forall n, 'M[R]_n -> bool.
Add Field fieldR : (ffth R).

Lemma rtol_gt0 : 0 < rtol R.
Proof. by rewrite invr_gt0 exprn_gt0 // ltr0n. Qed.

Lemma close1xx (x : R) : close1 x x.
Proof. have t0 := ltW rtol_gt0.
by rewrite /close1 subrr normr0 addr_ge0 ?mulr_ge0 ?normr_ge0. Qed.

Lemma allclosexx (a : nd R) : allclose a a = Ok true.
Proof.
case: a => [x|n v|m n A]; rewrite /allclose ?bop_vv ?bop_mm bindE /=; congr Ok.
- by rewrite close1xx eqxx.
- by apply/forallP=> i; rewrite mxE close1xx eqxx.
- by apply/forallP=> i; apply/forallP=> j; rewrite mxE close1xx eqxx.
Qed.

Theorem geq_refl (g : gauss R) m c :
  g_mean illcond g = Ok m -> g_cov illcond g = Ok c -> geq illcond g g = Ok true.
Proof. by move=> hm hc; rewrite /geq hm !bindE allclosexx hc !bindE allclosexx. Qed.

(** one-dimensional Gaussian with mean [x] and variance 1 *)
Definition g1 (x : R) : gauss R := gaussian (Nd1 (const_mx x : 'cV_1)) (Nd2 (1%:M : 'M_1)).

Lemma geq_g1 x y : geq illcond (g1 x) (g1 y) = Ok (close1 x y).
Proof.
have e1 : allclose (Nd1 (const_mx x : 'cV[R]_1)) (Nd1 (const_mx y : 'cV[R]_1)) = Ok (close1 x y).
  rewrite /allclose bop_vv bindE /=; congr Ok.
  apply/forallP/idP => [/(_ 0)|h i]; rewrite !mxE.
    by case: close1 => //; rewrite eq_sym oner_eq0.
  by rewrite h eqxx.
by rewrite /geq [X in bind X]/= bindE [X in bind X]/= bindE e1 bindE [X in bind X]/= bindE [X in bind X]/= bindE
   allclosexx bindE andbT.
Qed.

Lemma invk_lt (a b : nat) : (0 < a < b)%N -> (b%:R)^-1 < (a%:R)^-1 :> R.
Proof.
case/andP=> a0 ab; rewrite ltf_pinv ?ltr_nat // posrE ltr0n //.
exact: ltn_trans ab.
Qed.

Lemma rtolE : rtol R = (1000%:R)^-1.
Proof. by rewrite /rtol -natrX. Qed.

Theorem geq_not_sym : exists a b : gauss R,
  geq illcond a b = Ok true /\ geq illcond b a = Ok false.
Proof.
exists (g1 0), (g1 (999%:R)^-1); rewrite !geq_g1; split; congr Ok; rewrite /close1 rtolE.
  rewrite sub0r normrN ger0_norm ?invr_ge0 ?ler0n //.
  have e : (999%:R)^-1 = (1000%:R)^-1 + (1000%:R)^-1 * (999%:R)^-1 :> R.
    have c0 : (999%:R : R) != 0 by rewrite pnatr_eq0.
    have c1 : (1000%:R : R) != 0 by rewrite pnatr_eq0.
    move: c0 c1; rewrite -[1000%N]/(999 + 1)%N natrD; move: (999%:R : R) => c /eqP c0 /eqP c1.
    by fnorm R; field.
  by rewrite {1}e lexx.
rewrite normr0 mulr0 addr0 subr0 ger0_norm ?invr_ge0 ?ler0n // leNgt.
by rewrite invk_lt.
Qed.

Theorem geq_not_trans : exists a b c : gauss R,
  [/\ geq illcond a b = Ok true, geq illcond b c = Ok true & geq illcond a c = Ok false].
Proof.
have t0 := rtol_gt0.
exists (g1 0), (g1 (rtol R)), (g1 (2%:R * rtol R)); rewrite !geq_g1; split; congr Ok; rewrite /close1.
- by rewrite sub0r normrN gtr0_norm // ler_addl mulr_ge0 // ltW.
- have -> : rtol R - 2%:R * rtol R = - rtol R by rewrite mulr_natl mulr2n opprD addrA subrr sub0r.
  by rewrite normrN gtr0_norm // ler_addl mulr_ge0 // ltW.
- rewrite sub0r normrN gtr0_norm ?mulr_gt0 ?ltr0n // mulr_natl mulr2n ler_add2l.
  rewrite -[X in X <= _]mulr1 ler_pmul2l // leNgt; apply/negbF.
  by rewrite rtolE -mulr2n -mulr_natl ltr_pdivr_mulr ?ltr0n // mul1r ltr_nat.
Qed.

End Eq.
