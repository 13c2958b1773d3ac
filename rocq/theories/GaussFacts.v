(** * Proofs about StateModel/Gaussian.py (value semantics) *)
Set Warnings "-notation-overridden,-ambiguous-paths".
From Coq Require Import Ring Field.
From mathcomp Require Import all_ssreflect all_algebra.
From Verif Require Import Base FieldTac ND NDFacts PosDef LinAlg LinAlgFacts Gauss.
Set Implicit Arguments.
Unset Strict Implicit.
Unset Printing Implicit Defensive.
Import GRing.Theory Num.Theory Order.Theory.
Local Open Scope ring_scope.

Section Facts.
Variable R : rcfType.
Variable illcond : forall n, 'M[R]_n -> bool.
Add Field fieldR : (ffth R).

(** ** Specification vocabulary *)

(** log density of N(m, P) up to a constant, textbook formula *)
Definition logN d (m : 'cV[R]_d) (P : 'M[R]_d) (x : 'cV[R]_d) : R :=
  - (2%:R)^-1 * qf (invmx P) (x - m).
(** log of the exponential-family density with natural parameters, up to a constant *)
Definition logE d (L : 'M[R]_d) (s : 'cV[R]_d) (x : 'cV[R]_d) : R :=
  - (2%:R)^-1 * qf L x + (s^T *m x) 0 0.

(** [dens g f]: the d-dimensional Gaussian [g] was built from well-formed parameters
    and [f] is its textbook log density (up to a constant) *)
Definition dens d (g : gauss R) (f : 'cV[R]_d -> R) : Prop :=
  (exists m P, [/\ g = Mom (Nd1 m) (Nd2 P), posdef P, ~~ illcond P & f =1 logN m P]) \/
  (exists L s, [/\ g = Nat (Nd2 L) (Nd1 s), L^T = L & f =1 logE L s]).

(** [natp g L s]: reading [g.precision] and [g.shift] gives [L] and [s] *)
Definition natp d (g : gauss R) (L : 'M[R]_d) (s : 'cV[R]_d) : Prop :=
  [/\ g_precision illcond g = Ok (Nd2 L), g_shift illcond g = Ok (Nd1 s) & L^T = L].

(** [momp g m P]: reading [g.mean] and [g.cov] gives [m] and [P] *)
Definition momp d (g : gauss R) (m : 'cV[R]_d) (P : 'M[R]_d) : Prop :=
  g_mean illcond g = Ok (Nd1 m) /\ g_cov illcond g = Ok (Nd2 P).

(** ** Conversions *)

Lemma moment_to_naturalE d (m : 'cV[R]_d) (P : 'M[R]_d) : posdef P -> ~~ illcond P ->
  moment_to_natural illcond (Nd1 m) (Nd2 P) = Ok (Nd2 (invmx P), Nd1 (invmx P *m m)).
Proof.
move=> pP ic; rewrite /moment_to_natural /= bindE sp_solve_pos_pd //= bindE symmetrize_inv ?pP.1 // bindE.
by rewrite nmatmulmv.
Qed.

Lemma symmetrize_eye n c : symmetrize (nscale c (neye n)) = Ok (Nd2 (c *: 1%:M : 'M[R]_n)).
Proof. by rewrite /neye /= symmetrize_sym // linearZ /= trmx1. Qed.

Lemma n2m_flat d (L : 'M[R]_d) (s : 'cV[R]_d) : \tr L < trace_min R ->
  natural_to_moment illcond (Nd2 L) (Nd1 s) = Ok (Nd1 (0 : 'cV_d), Nd2 (large_num R *: 1%:M : 'M_d)).
Proof. by move=> h; rewrite /natural_to_moment bindE ntraceE bindE h symmetrize_eye. Qed.

Lemma n2m_pos d (L : 'M[R]_d) (s : 'cV[R]_d) : trace_min R <= \tr L -> posdef L -> ~~ illcond L ->
  natural_to_moment illcond (Nd2 L) (Nd1 s) = Ok (Nd1 (invmx L *m s), Nd2 (invmx L)).
Proof.
move=> h pL ic; rewrite /natural_to_moment bindE ntraceE bindE ltNge h /=.
by rewrite sp_solve_pos_pd //= bindE symmetrize_inv ?pL.1 // bindE ndotmv.
Qed.

Lemma n2m_jit d (L : 'M[R]_d) (s : 'cV[R]_d) : L^T = L -> trace_min R <= \tr L ->
  ~ (posdef L /\ ~~ illcond L) ->
  natural_to_moment illcond (Nd2 L) (Nd1 s) =
  let L' := L + jit *: 1%:M in
  if L' \in unitmx then
    (if illcond L' then Err LinAlgWarn else Ok (Nd1 (invmx L' *m s), Nd2 (invmx L')))
  else Err LinAlgErr.
Proof.
move=> sL h np; rewrite /natural_to_moment bindE ntraceE bindE ltNge h /=.
set L' := L + _; have sL' : L'^T = L' by rewrite /L' linearD /= linearZ /= trmx1 sL.
have -> : catch_any (sp_solve_pos illcond (Nd2 L) (neye d))
   (jittered_solve_pos illcond (Nd2 L) (neye d)) = jittered_solve_pos illcond (Nd2 L) (neye d).
  rewrite sp_solve_posE //; have [_ cp] := chol_posdef sL; case E: (chol L) cp => [K|] //= cp.
  by case: ifP => // ic; case: np; split; [exact: cp|rewrite ic].
rewrite jittered_solve_posE //= -/L'; case: ifP => //= uL'; case: ifP => //= ic.
by rewrite bindE symmetrize_inv // bindE ndotmv.
Qed.

(** ** Natural parameters of well-formed Gaussians *)

Lemma natp_mom d (m : 'cV[R]_d) P : posdef P -> ~~ illcond P ->
  natp (Mom (Nd1 m) (Nd2 P)) (invmx P) (invmx P *m m).
Proof.
move=> pP ic; split; rewrite /= ?moment_to_naturalE //.
exact: sym_inv pP.1.
Qed.

Lemma natp_nat d (L : 'M[R]_d) s : L^T = L -> natp (Nat (Nd2 L) (Nd1 s)) L s.
Proof. by []. Qed.

Lemma logN_logE d (m : 'cV[R]_d) P : posdef P -> exists k, forall x,
  logE (invmx P) (invmx P *m m) x = logN m P x + k.
Proof.
move=> pP; exists ((2%:R)^-1 * qf (invmx P) m) => x.
have sP := sym_inv pP.1.
rewrite /logE /logN qfB //.
have -> : ((invmx P *m m)^T *m x) 0 0 = bf (invmx P) x m.
  by rewrite bfC sP trmx_mul sP /bf.
rewrite mulrDr mulrBr !mulNr mulrA mulVf ?pnatr_eq0 // mul1r opprK.
by rewrite addrNK.
Qed.

Lemma dens_natp d (g : gauss R) (f : 'cV[R]_d -> R) : dens g f ->
  exists L s, natp g L s /\ exists k, forall x, logE L s x = f x + k.
Proof.
case=> [[m [P [-> pP ic fE]]]|[L [s [-> sL fE]]]].
  exists (invmx P), (invmx P *m m); split; first exact: natp_mom.
  by have [k hk] := logN_logE m pP; exists k => x; rewrite hk fE.
by exists L, s; split; [exact: natp_nat|exists 0 => x; rewrite fE addr0].
Qed.

(** ** Operators in natural parameters *)

Lemma gmulE d a b (La Lb : 'M[R]_d) sa sb : natp a La sa -> natp b Lb sb ->
  gmul illcond a b = Ok (Nat (Nd2 (La + Lb)) (Nd1 (sa + sb))).
Proof.
case=> pa ha syma [pb hb symb]; rewrite /gmul pa bindE pb bindE naddmm bindE symmetrize_sym ?linearD /= ?syma ?symb // bindE.
by rewrite ha bindE hb bindE naddvv.
Qed.

Lemma gdivE d a b (La Lb : 'M[R]_d) sa sb : natp a La sa -> natp b Lb sb ->
  gdiv illcond a b = Ok (Nat (Nd2 (La - Lb)) (Nd1 (sa - sb))).
Proof. by case=> pa ha syma [pb hb symb]; rewrite /gdiv pa bindE pb bindE nsubmm bindE ha bindE hb bindE nsubvv. Qed.

Lemma gpowE d a (La : 'M[R]_d) sa p : natp a La sa ->
  gpow illcond a p = Ok (Nat (Nd2 (p *: La)) (Nd1 (p *: sa))).
Proof. by case=> pa ha syma; rewrite /gpow pa bindE ha. Qed.

Lemma natpD d (La Lb : 'M[R]_d) sa sb : La^T = La -> Lb^T = Lb ->
  natp (Nat (Nd2 (La + Lb)) (Nd1 (sa + sb))) (La + Lb) (sa + sb).
Proof. by move=> ha hb; split=> //; rewrite linearD /= ha hb. Qed.
Lemma natpB d (La Lb : 'M[R]_d) sa sb : La^T = La -> Lb^T = Lb ->
  natp (Nat (Nd2 (La - Lb)) (Nd1 (sa - sb))) (La - Lb) (sa - sb).
Proof. by move=> ha hb; split=> //; rewrite linearB /= ha hb. Qed.
Lemma natpZ d c (La : 'M[R]_d) sa : La^T = La ->
  natp (Nat (Nd2 (c *: La)) (Nd1 (c *: sa))) (c *: La) (c *: sa).
Proof. by move=> ha; split=> //; rewrite linearZ /= ha. Qed.

Lemma logED d (La Lb : 'M[R]_d) sa sb x : logE (La + Lb) (sa + sb) x = logE La sa x + logE Lb sb x.
Proof. by rewrite /logE qfDm linearD /= mulmxDl mxE mulrDr addrACA. Qed.
Lemma logEZ d c (La : 'M[R]_d) sa x : logE (c *: La) (c *: sa) x = c * logE La sa x.
Proof. by rewrite /logE qfZm linearZ /= -scalemxAl mxE mulrDr mulrCA. Qed.
Lemma logEB d (La Lb : 'M[R]_d) sa sb x : logE (La - Lb) (sa - sb) x = logE La sa x - logE Lb sb x.
Proof. by rewrite -scaleN1r -[- sb]scaleN1r logED logEZ mulN1r. Qed.

Theorem gmul_dens d a b (fa fb : 'cV[R]_d -> R) : dens a fa -> dens b fb ->
  exists c fc, [/\ gmul illcond a b = Ok c, dens c fc & exists k, forall x, fc x = fa x + fb x + k].
Proof.
move=> /dens_natp [La [sa [na [ka ha]]]] /dens_natp [Lb [sb [nb [kb hb]]]].
exists (Nat (Nd2 (La + Lb)) (Nd1 (sa + sb))), (logE (La + Lb) (sa + sb)).
split; first exact: gmulE.
  right; exists (La + Lb), (sa + sb); split=> //.
  by case: na nb => _ _ h1 [_ _ h2]; rewrite linearD /= h1 h2.
by exists (ka + kb) => x; rewrite logED ha hb addrACA.
Qed.

Theorem gdiv_dens d a b (fa fb : 'cV[R]_d -> R) : dens a fa -> dens b fb ->
  exists c fc, [/\ gdiv illcond a b = Ok c, dens c fc & exists k, forall x, fc x = fa x - fb x + k].
Proof.
move=> /dens_natp [La [sa [na [ka ha]]]] /dens_natp [Lb [sb [nb [kb hb]]]].
exists (Nat (Nd2 (La - Lb)) (Nd1 (sa - sb))), (logE (La - Lb) (sa - sb)).
split; first exact: gdivE.
  right; exists (La - Lb), (sa - sb); split=> //.
  by case: na nb => _ _ h1 [_ _ h2]; rewrite linearB /= h1 h2.
by exists (ka - kb) => x; rewrite logEB ha hb opprD addrACA.
Qed.

Theorem gpow_dens d a p (fa : 'cV[R]_d -> R) : dens a fa ->
  exists c fc, [/\ gpow illcond a p = Ok c, dens c fc & exists k, forall x, fc x = p * fa x + k].
Proof.
move=> /dens_natp [La [sa [na [ka ha]]]].
exists (Nat (Nd2 (p *: La)) (Nd1 (p *: sa))), (logE (p *: La) (p *: sa)).
split; first exact: gpowE.
  right; exists (p *: La), (p *: sa); split=> //.
  by case: na => _ _ h1; rewrite linearZ /= h1.
by exists (p * ka) => x; rewrite logEZ ha mulrDr.
Qed.

(** ** Algebraic laws *)
Section Laws.
Variable d : nat.
Variables (a b c : gauss R) (La Lb Lc : 'M[R]_d) (sa sb sc : 'cV[R]_d).
Hypotheses (na : natp a La sa) (nb : natp b Lb sb) (nc : natp c Lc sc).

Let syma : La^T = La. Proof. by case: na. Qed.
Let symb : Lb^T = Lb. Proof. by case: nb. Qed.
Let symc : Lc^T = Lc. Proof. by case: nc. Qed.

Lemma gmulC : gmul illcond a b = gmul illcond b a.
Proof. by rewrite (gmulE na nb) (gmulE nb na) addrC [sa + _]addrC. Qed.

Lemma gmulA :
  (do ab <- gmul illcond a b; gmul illcond ab c) = (do bc <- gmul illcond b c; gmul illcond a bc).
Proof.
rewrite (gmulE na nb) (gmulE nb nc) !bindE (gmulE (natpD _ _ syma symb) nc) (gmulE na (natpD _ _ symb symc)).
by rewrite !addrA.
Qed.

Lemma gmul_unit : gmul illcond a (as_factor d) = Ok (Nat (Nd2 La) (Nd1 sa)).
Proof. by rewrite (gmulE na (natp_nat 0 (trmx0 _ _ _))) !addr0. Qed.

Lemma gmulK : (do ab <- gmul illcond a b; gdiv illcond ab b) = Ok (Nat (Nd2 La) (Nd1 sa)).
Proof. by rewrite (gmulE na nb) bindE (gdivE (natpD _ _ syma symb) nb) !addrK. Qed.

Lemma gdivK : (do ab <- gdiv illcond a b; gmul illcond ab b) = Ok (Nat (Nd2 La) (Nd1 sa)).
Proof. by rewrite (gdivE na nb) bindE (gmulE (natpB _ _ syma symb) nb) !subrK. Qed.

Lemma gdivV : gdiv illcond a a = Ok (as_factor d).
Proof. by rewrite (gdivE na na) !subrr. Qed.

Lemma gpow_add p q :
  (do x <- gpow illcond a p; do y <- gpow illcond a q; gmul illcond x y) = gpow illcond a (p + q).
Proof. by rewrite !(gpowE _ na) !bindE (gmulE (natpZ _ _ syma) (natpZ _ _ syma)) !scalerDl. Qed.

Lemma gpow_mul p q : (do x <- gpow illcond a p; gpow illcond x q) = gpow illcond a (p * q).
Proof. by rewrite !(gpowE _ na) !bindE (gpowE _ (natpZ _ _ syma)) !scalerA mulrC. Qed.

Lemma gmul_pow p : (do x <- gmul illcond a b; gpow illcond x p) =
  (do x <- gpow illcond a p; do y <- gpow illcond b p; gmul illcond x y).
Proof.
rewrite (gmulE na nb) bindE (gpowE _ (natpD _ _ syma symb)) (gpowE _ na) (gpowE _ nb) !bindE.
by rewrite (gmulE (natpZ _ _ syma) (natpZ _ _ symb)) !scalerDr.
Qed.

Lemma gpow0 : gpow illcond a 0 = Ok (as_factor d).
Proof. by rewrite (gpowE _ na) !scale0r. Qed.
Lemma gpow1 : gpow illcond a 1 = Ok (Nat (Nd2 La) (Nd1 sa)).
Proof. by rewrite (gpowE _ na) !scale1r. Qed.
End Laws.

(** ** Round trip *)
Lemma large_tr d : \tr (invmx (large_num R *: 1%:M : 'M[R]_d)) = trace_min R *+ d.
Proof.
rewrite scalemx1 invmx_scalar mxtrace_scalar /large_num /trace_min; by [].
Qed.

Lemma trace_min_gt0 : 0 < trace_min R.
Proof. by rewrite invr_gt0 exprn_gt0 // ltr0n. Qed.
Lemma large_gt0 : 0 < large_num R.
Proof. by rewrite exprn_gt0 // ltr0n. Qed.

Theorem round_trip d (m : 'cV[R]_d) (P : 'M[R]_d) :
  posdef P -> ~~ illcond P -> ~~ illcond (invmx P) ->
  exists (L : 'M[R]_d) (s : 'cV[R]_d), [/\ natp (gaussian (Nd1 m) (Nd2 P)) L s,
     trace_min R <= \tr (invmx P) -> momp (from_natural (Nd2 L) (Nd1 s)) m P,
     \tr (invmx P) < trace_min R -> momp (from_natural (Nd2 L) (Nd1 s)) (0 : 'cV_d) (large_num R *: 1%:M)
   & (0 < d)%N -> (momp (from_natural (Nd2 L) (Nd1 s)) m P <-> trace_min R <= \tr (invmx P))].
Proof.
move=> pP ic ici; exists (invmx P), (invmx P *m m).
have uP := posdef_unit pP.
have h1 : trace_min R <= \tr (invmx P) ->
    momp (from_natural (Nd2 (invmx P)) (Nd1 (invmx P *m m))) m P.
  move=> h; rewrite /momp /= n2m_pos //; last exact: posdef_inv.
  by rewrite !bindE /= invmxK mulKVmx.
have h2 : \tr (invmx P) < trace_min R ->
    momp (from_natural (Nd2 (invmx P)) (Nd1 (invmx P *m m))) (0 : 'cV_d) (large_num R *: 1%:M).
  by move=> h; rewrite /momp /= n2m_flat.
split=> //; first exact: natp_mom.
move=> d0; split=> // -[_ hc]; rewrite leNgt; apply/negP => lt; move: hc (lt).
case: (h2 lt) => _ -> /Ok_inj /Nd2_inj <-; rewrite large_tr ltNge => /negP; apply.
by rewrite -{1}[trace_min R]mulr1n ler_pmuln2l ?trace_min_gt0.
Qed.

(** ** Validation of natural-parameter Gaussians *)

Lemma gvalidate_flat d (L : 'M[R]_d) (s : 'cV[R]_d) : \tr L < trace_min R ->
  gvalidate illcond (Nat (Nd2 L) (Nd1 s)) = Ok tt.
Proof.
move=> h; rewrite /gvalidate /= n2m_flat // !bindE /=; apply/validate_covP.
  by rewrite linearZ /= trmx1.
exact: posdefZ1 large_gt0.
Qed.

Lemma posdef_jit d (L : 'M[R]_d) : posdef L -> posdef (L + jit *: 1%:M).
Proof. by move=> pL; apply: posdefDD => //; apply: posdefZ1; exact: jit_gt0. Qed.

Lemma gvalidate_nat_inv d (L : 'M[R]_d) (s : 'cV[R]_d) : L^T = L -> trace_min R <= \tr L ->
  gvalidate illcond (Nat (Nd2 L) (Nd1 s)) = Ok tt -> posdef (L + jit *: 1%:M).
Proof.
move=> sL h; rewrite /gvalidate /=.
have sL' : (L + jit *: 1%:M)^T = L + jit *: 1%:M by rewrite linearD /= linearZ /= trmx1 sL.
have [_ cp] := chol_posdef sL.
case E: (isSome (chol L)) cp => cp; first by move=> _; apply/posdef_jit/cp.
have np : ~ posdef L by move/(chol_posdef sL); rewrite E.
rewrite n2m_jit //=; last by case.
case: ifP => //= uL'; case: ifP => //= ic; rewrite !bindE => /validate_covP -/(_ (sym_inv sL')).
exact: posdef_invE.
Qed.

Theorem gvalidate_natP d (L : 'M[R]_d) (s : 'cV[R]_d) : L^T = L ->
  gvalidate illcond (from_natural (Nd2 L) (Nd1 s)) = Ok tt <->
  [\/ \tr L < trace_min R, posdef L /\ ~~ illcond L |
      posdef (L + jit *: 1%:M) /\ ~~ illcond (L + jit *: 1%:M)].
Proof.
move=> sL; have sL' : (L + jit *: 1%:M)^T = L + jit *: 1%:M by rewrite linearD /= linearZ /= trmx1 sL.
case: (ltP (\tr L) (trace_min R)) => h; first by split=> // _; [exact: Or31|exact: gvalidate_flat].
have [/andP [/(chol_posdef sL) pL ic]|/negP np] := boolP (isSome (chol L) && ~~ illcond L).
  split=> [_|_]; first exact: Or32.
  rewrite /gvalidate /= n2m_pos // !bindE /=; apply/validate_covP; first exact: sym_inv.
  exact: posdef_inv.
have {}np : ~ (posdef L /\ ~~ illcond L).
  by case=> /(chol_posdef sL) h1 h2; apply: np; rewrite h1.
rewrite /gvalidate /= n2m_jit //=; split.
  case: ifP => //= uL'; case: ifP => //= ic; rewrite !bindE => /validate_covP -/(_ (sym_inv sL')) pL.
  by apply: Or33; split; [exact: posdef_invE|].
case=> [||[pL' /negbTE ->]] //; rewrite (posdef_unit pL') !bindE /=; apply/validate_covP; first exact: sym_inv.
exact: posdef_inv.
Qed.

End Facts.
