(** * Properties C01, C02, C03, C06, C09, C10 (StateModel/Gaussian.py) *)
Set Warnings "-notation-overridden,-ambiguous-paths".
From mathcomp Require Import all_ssreflect all_algebra.
From mathcomp Require Import real_closed.realalg.
From Verif Require Import Base ND NDFacts PosDef LinAlg LinAlgFacts Gauss GaussFacts GaussEq.
Set Implicit Arguments.
Unset Strict Implicit.
Unset Printing Implicit Defensive.
Import GRing.Theory Num.Theory Order.Theory.
Local Open Scope ring_scope.

Section Props.
Variable R : rcfType.
Variable illcond : forall n, 'M[R]_n -> bool.
Notation gmul := (gmul illcond).
Notation gdiv := (gdiv illcond).
Notation gpow := (gpow illcond).
Notation dens := (dens illcond).
Notation natp := (natp illcond).
Notation momp := (momp illcond).

(** C01: the operators act on (log-)densities *)
Theorem C01_mul d a b (fa fb : 'cV[R]_d -> R) : dens a fa -> dens b fb ->
  exists c fc, [/\ gmul a b = Ok c, dens c fc & exists k, forall x, fc x = fa x + fb x + k].
Proof. exact: gmul_dens. Qed.
Theorem C01_div d a b (fa fb : 'cV[R]_d -> R) : dens a fa -> dens b fb ->
  exists c fc, [/\ gdiv a b = Ok c, dens c fc & exists k, forall x, fc x = fa x - fb x + k].
Proof. exact: gdiv_dens. Qed.
Theorem C01_pow d a p (fa : 'cV[R]_d -> R) : dens a fa ->
  exists c fc, [/\ gpow a p = Ok c, dens c fc & exists k, forall x, fc x = p * fa x + k].
Proof. exact: gpow_dens. Qed.

(** C02: algebraic laws, for operands whose natural parameters can be read *)
Section Laws.
Variables (d : nat) (a b c : gauss R) (La Lb Lc : 'M[R]_d) (sa sb sc : 'cV[R]_d).
Hypotheses (na : natp a La sa) (nb : natp b Lb sb) (nc : natp c Lc sc).
Theorem C02_mulC : gmul a b = gmul b a.
Proof. exact: gmulC na nb. Qed.
Theorem C02_mulA : (do ab <- gmul a b; gmul ab c) = (do bc <- gmul b c; gmul a bc).
Proof. exact: gmulA na nb nc. Qed.
Theorem C02_unit : gmul a (as_factor d) = Ok (from_natural (Nd2 La) (Nd1 sa)).
Proof. exact: gmul_unit na. Qed.
Theorem C02_mulK : (do ab <- gmul a b; gdiv ab b) = Ok (from_natural (Nd2 La) (Nd1 sa)).
Proof. exact: gmulK na nb. Qed.
Theorem C02_divK : (do ab <- gdiv a b; gmul ab b) = Ok (from_natural (Nd2 La) (Nd1 sa)).
Proof. exact: gdivK na nb. Qed.
Theorem C02_divV : gdiv a a = Ok (as_factor d).
Proof. exact: gdivV na. Qed.
Theorem C02_pow_add p q : (do x <- gpow a p; do y <- gpow a q; gmul x y) = gpow a (p + q).
Proof. exact: gpow_add na p q. Qed.
Theorem C02_pow_mul p q : (do x <- gpow a p; gpow x q) = gpow a (p * q).
Proof. exact: gpow_mul na p q. Qed.
Theorem C02_mul_pow p :
  (do x <- gmul a b; gpow x p) = (do x <- gpow a p; do y <- gpow b p; gmul x y).
Proof. exact: gmul_pow na nb p. Qed.
Theorem C02_pow0 : gpow a 0 = Ok (as_factor d).
Proof. exact: gpow0 na. Qed.
Theorem C02_pow1 : gpow a 1 = Ok (from_natural (Nd2 La) (Nd1 sa)).
Proof. exact: gpow1 na. Qed.
End Laws.
(** which operands the laws apply to *)
Theorem C02_operands d (m : 'cV[R]_d) P (L : 'M[R]_d) s :
  (posdef P -> ~~ illcond P -> natp (gaussian (Nd1 m) (Nd2 P)) (invmx P) (invmx P *m m)) /\
  (L^T = L -> natp (from_natural (Nd2 L) (Nd1 s)) L s).
Proof. split; [exact: natp_mom|exact: natp_nat]. Qed.

(** C03: (mean, cov) -> (precision, shift) -> (mean, cov) *)
Theorem C03_round_trip d (m : 'cV[R]_d) (P : 'M[R]_d) :
  posdef P -> ~~ illcond P -> ~~ illcond (invmx P) ->
  exists (L : 'M[R]_d) (s : 'cV[R]_d), [/\ natp (gaussian (Nd1 m) (Nd2 P)) L s,
     trace_min R <= \tr (invmx P) -> momp (from_natural (Nd2 L) (Nd1 s)) m P,
     \tr (invmx P) < trace_min R -> momp (from_natural (Nd2 L) (Nd1 s)) (0 : 'cV_d) (large_num R *: 1%:M)
   & (0 < d)%N -> (momp (from_natural (Nd2 L) (Nd1 s)) m P <-> trace_min R <= \tr (invmx P))].
Proof. exact: round_trip. Qed.

(** C06 *)
Theorem C06_refl (g : gauss R) m c :
  g_mean illcond g = Ok m -> g_cov illcond g = Ok c -> geq illcond g g = Ok true.
Proof. exact: geq_refl. Qed.
Theorem C06_not_sym : exists a b : gauss R, geq illcond a b = Ok true /\ geq illcond b a = Ok false.
Proof. exact: geq_not_sym. Qed.
Theorem C06_not_trans : exists a b c : gauss R,
  [/\ geq illcond a b = Ok true, geq illcond b c = Ok true & geq illcond a c = Ok false].
Proof. exact: geq_not_trans. Qed.

(** C09: outcome of natural_to_moment *)
Theorem C09_outcome d (L : 'M[R]_d) (s : 'cV[R]_d) : L^T = L ->
  let g := from_natural (Nd2 L) (Nd1 s) in
  let L' := L + jit *: 1%:M in
  [/\ \tr L < trace_min R -> momp g (0 : 'cV_d) (large_num R *: 1%:M),
      trace_min R <= \tr L -> posdef L -> ~~ illcond L -> momp g (invmx L *m s) (invmx L),
      trace_min R <= \tr L -> ~ (posdef L /\ ~~ illcond L) -> L' \in unitmx -> ~~ illcond L' ->
        momp g (invmx L' *m s) (invmx L')
    & trace_min R <= \tr L -> ~ (posdef L /\ ~~ illcond L) -> ~ (L' \in unitmx /\ ~~ illcond L') ->
        exists e, g_mean illcond g = Err e /\ g_cov illcond g = Err e].
Proof.
move=> sL g L'; rewrite /momp /g /=; split.
- by move=> h; rewrite n2m_flat // !bindE.
- by move=> h pL ic; rewrite n2m_pos // !bindE.
- by move=> h np uL /negbTE ic; rewrite n2m_jit //= uL ic !bindE.
- move=> h np nu; rewrite n2m_jit //=; case: ifP => uL; last by exists LinAlgErr; rewrite !bindE.
  case: ifP => ic; first by exists LinAlgWarn; rewrite !bindE.
  by case: nu; rewrite uL ic.
Qed.

(** C10: what passes validation *)
Theorem C10_validated d (L : 'M[R]_d) (s : 'cV[R]_d) : L^T = L ->
  gvalidate illcond (from_natural (Nd2 L) (Nd1 s)) = Ok tt <->
  [\/ \tr L < trace_min R, posdef L /\ ~~ illcond L |
      posdef (L + jit *: 1%:M) /\ ~~ illcond (L + jit *: 1%:M)].
Proof. exact: gvalidate_natP. Qed.
(** in particular minus the identity passes in every dimension *)
Theorem C10_negative d (s : 'cV[R]_d) : gvalidate illcond (from_natural (Nd2 (- 1%:M : 'M[R]_d)) (Nd1 s)) = Ok tt.
Proof.
apply/C10_validated; first by rewrite linearN /= trmx1.
apply: Or31; rewrite linearN /= mxtrace1; apply: le_lt_trans (trace_min_gt0 R).
by rewrite oppr_le0 ler0n.
Qed.
End Props.
Print Assumptions C01_mul. Print Assumptions C01_div. Print Assumptions C01_pow.
Print Assumptions C02_mulC. Print Assumptions C02_mulA. Print Assumptions C02_unit.
Print Assumptions C02_mulK. Print Assumptions C02_divK. Print Assumptions C02_divV.
Print Assumptions C02_pow_add. Print Assumptions C02_pow_mul. Print Assumptions C02_mul_pow.
Print Assumptions C02_pow0. Print Assumptions C02_pow1. Print Assumptions C02_operands.
Print Assumptions C03_round_trip.
Print Assumptions C06_refl. Print Assumptions C06_not_sym. Print Assumptions C06_not_trans.
Print Assumptions C09_outcome. Print Assumptions C10_validated. Print Assumptions C10_negative.

(** ** Non-vacuity over the real algebraic numbers *)
Section Examples.
Let R := [rcfType of realalg].
Let ill n (_ : 'M[R]_n) := false.

(** a moment-form and a natural-form (indefinite) operand in dimension 2 *)
Let a : gauss R := gaussian (Nd1 (const_mx 1 : 'cV_2)) (Nd2 (2%:R *: 1%:M : 'M_2)).
Let b : gauss R := from_natural (Nd2 (- 1%:M : 'M_2)) (Nd1 (delta_mx 0 0 : 'cV_2)).
Lemma pd2 : posdef (2%:R *: 1%:M : 'M[R]_2).
Proof. by apply: posdefZ1; rewrite ltr0n. Qed.

Example C01_example : exists fa fb, @dens _ ill 2 a fa /\ @dens _ ill 2 b fb.
Proof.
exists (logN (const_mx 1 : 'cV_2) (2%:R *: 1%:M : 'M[R]_2)), (logE (- 1%:M) (delta_mx 0 0)); split.
  by left; do 2!eexists; split=> //; exact: pd2.
by right; do 2!eexists; split=> //; rewrite linearN /= trmx1.
Qed.

Example C02_example : exists L s L' s', @natp _ ill 2 a L s /\ @natp _ ill 2 b L' s'.
Proof.
do 4!eexists; split; first by apply: (C02_operands ill _ _ 0 0).1 => //; exact: pd2.
by apply: (C02_operands ill 0 0 _ _).2; rewrite linearN /= trmx1.
Qed.

(** both sides of the threshold of C03 occur *)
Example C03_example :
  [/\ posdef (2%:R *: 1%:M : 'M[R]_2), trace_min R <= \tr (invmx (2%:R *: 1%:M : 'M[R]_2)),
      posdef ((2%:R * large_num R) *: 1%:M : 'M[R]_1) &
      \tr (invmx ((2%:R * large_num R) *: 1%:M : 'M[R]_1)) < trace_min R].
Proof.
have l0 : 0 < large_num R by exact: large_gt0.
split; first exact: pd2.
- rewrite scalemx1 invmx_scalar mxtrace_scalar -mulr_natl mulfV ?pnatr_eq0 // /trace_min.
  by rewrite /trace_min invf_le1 ?exprn_gt0 ?ltr0n // exprn_ege1 ?ler1n.
- by apply: posdefZ1; rewrite mulr_gt0 ?ltr0n.
- rewrite scalemx1 invmx_scalar mxtrace_scalar mulr1n /trace_min -/(large_num R).
  by rewrite ltf_pinv ?posrE ?mulr_gt0 ?ltr0n // mulr_natl mulr2n ltr_addl.
Qed.

Example C06_example : g_mean ill a = Ok (Nd1 (const_mx 1 : 'cV_2)) /\ g_cov ill a = Ok (Nd2 (2%:R *: 1%:M : 'M[R]_2)).
Proof. by []. Qed.

(** the three successful cases of C09 and the failing one all occur in dimension 1 *)
Example C09_example :
  [/\ \tr (-1%:M : 'M[R]_1) < trace_min R,
      trace_min R <= \tr (1%:M : 'M[R]_1) /\ posdef (1%:M : 'M[R]_1),
      exists L : 'M[R]_2, [/\ L^T = L, trace_min R <= \tr L, ~ posdef L & L + jit *: 1%:M \in unitmx] &
      exists L : 'M[R]_2, [/\ L^T = L, trace_min R <= \tr L, ~ posdef L & L + jit *: 1%:M \notin unitmx]].
Proof.
have t0 := trace_min_gt0 R.
have t1 : trace_min R <= 1 by rewrite /trace_min invf_le1 ?exprn_gt0 ?ltr0n // exprn_ege1 ?ler1n.
have j0 : 0 < jit :> R by exact: jit_gt0.
have tr2 (x y : R) : \tr (block_mx x%:M 0 0 y%:M : 'M[R]_(1 + 1)) = x + y.
  by rewrite mxtrace_block !mxtrace_scalar !mulr1n.
have np (x y : R) : y <= 0 -> ~ posdef (block_mx x%:M 0 0 y%:M : 'M[R]_(1 + 1)).
  move=> y0 h; have := proj1 (@posdef_schur R 1 1 x%:M 0 y%:M).
  rewrite trmx0 => /(_ h) [_]; rewrite mul0mx mul0mx subr0 => /posdef_scalar11.
  by rewrite ltNge y0.
have sb (x y : R) : (block_mx x%:M 0 0 y%:M : 'M[R]_(1 + 1))^T = block_mx x%:M 0 0 y%:M.
  by rewrite tr_block_mx !trmx0 !tr_scalar_mx.
have dj (x y : R) : (block_mx x%:M 0 0 y%:M : 'M[R]_(1 + 1)) + jit *: 1%:M =
    block_mx (x + jit)%:M 0 0 (y + jit)%:M.
  by rewrite scalemx1 (scalar_mx_block 1 1) add_block_mx !addr0 -!raddfD.
have un (x y : R) : (block_mx x%:M 0 0 y%:M : 'M[R]_(1 + 1)) \in unitmx = (x != 0) && (y != 0).
  by rewrite unitmxE det_ublock !det_scalar1 unitfE mulf_eq0 negb_or.
split.
- by rewrite linearN /= mxtrace1 (lt_trans _ t0) // oppr_lt0 ltr0n.
- by rewrite mxtrace1; split=> //; exact: posdef1.
- exists (block_mx 1%:M 0 0 0%:M : 'M[R]_(1 + 1)); split.
  + exact: sb.
  + by rewrite tr2 addr0.
  + exact: np.
  + by rewrite dj un add0r lt0r_neq0 ?addr_gt0 ?ltr01 // lt0r_neq0.
- exists (block_mx 1%:M 0 0 (- jit)%:M : 'M[R]_(1 + 1)); split.
  + exact: sb.
  + rewrite tr2 -[X in _ <= X]/(1 - trace_min R) ler_subr_addr.
    rewrite -mulr2n -mulr_natl ler_pdivr_mulr ?exprn_gt0 ?ltr0n // mul1r -natrX ler_nat.
    by [].
  + by apply: np; rewrite oppr_le0 ltW.
  + by rewrite dj un addNr eqxx andbF.
Qed.

Example C10_example : exists L : 'M[R]_1, L^T = L /\ posdef L.
Proof. by exists 1%:M; rewrite trmx1; split=> //; exact: posdef1. Qed.
End Examples.
