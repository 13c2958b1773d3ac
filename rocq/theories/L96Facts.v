(** * Proofs about the Lorenz-96 model *)
Set Warnings "-notation-overridden,-ambiguous-paths".
From mathcomp Require Import all_ssreflect all_algebra.
From Coq Require Import Ring Field.
From Verif Require Import FieldTac Base ND NDFacts L96 SpecL96.
Set Implicit Arguments.
Unset Strict Implicit.
Unset Printing Implicit Defensive.
Import GRing.Theory Num.Theory.
Local Open Scope ring_scope.

Section Index.
Variable n : nat.
Notation I := 'I_n.+1.
Notation one := (Zp1 : I).

Lemma rev_one (j : I) : rev_ord j = - j - one.
Proof.
rewrite -opprD; apply/eqP; rewrite -addr_eq0; apply/eqP/val_inj; rewrite /= !(modnDml, modnDmr).
by rewrite addnA modnDmr -addnA addn1 subnK ?modnn.
Qed.
Lemma rev_shift (j c : I) : rev_ord (rev_ord j + c) = j - c.
Proof. by rewrite !rev_one !opprD !opprK addrAC addrK. Qed.
Lemma rshiftE k (j : I) : rshift k j = j + inZp k.
Proof. by apply: val_inj; rewrite /= modnDmr. Qed.
Lemma roll1 (j : I) : rshift `|((- (-1)) %% n.+1)%Z|%N j = j + one.
Proof. by rewrite rshiftE; congr (_ + _); apply: val_inj; rewrite opprK modz_nat absz_nat /= modn_mod. Qed.
Lemma roll2 (j : I) : rshift `|((- (-2)) %% n.+1)%Z|%N j = j + one + one.
Proof.
rewrite rshiftE -addrA; congr (_ + _); apply: val_inj.
by rewrite opprK modz_nat absz_nat /= modn_mod modnDml modnDmr.
Qed.
Lemma rollm1 (j : I) : rshift `|((- 1) %% n.+1)%Z|%N j = j - one.
Proof.
rewrite rshiftE; congr (_ + _); apply/eqP; rewrite -addr_eq0; apply/eqP/val_inj.
rewrite (_ : ((-1) %% n.+1)%Z = n%:Z) ?absz_nat.
  by rewrite /= modnDml modnDmr addn1 modnn.
by rewrite -[-1]/(Negz 0) modNz_nat //= mod0n subr0 intS addrC addKr.
Qed.
End Index.

Section Facts.
Variable R : rcfType.
Notation nd := (nd R).
Variables m n : nat.
Notation mat := 'M[R]_(m, n.+1).
Notation one := (Zp1 : 'I_n.+1).

Definition tend (F : R) (X : mat) : mat :=
  \matrix_(i, j) ((X i (j - one) - X i (j + one + one)) * X i (j + one) - X i j + F).
Definition step (dt F : R) (X : mat) : mat :=
  let k1 := tend F X in
  let k2 := tend F (X + (dt / 2%:R) *: k1) in
  let k3 := tend F (X + (dt / 2%:R) *: k2) in
  let k4 := tend F (X + dt *: k3) in
  X + (dt / 6%:R) *: (k1 + 2%:R *: k2 + 2%:R *: k3 + k4).

Lemma modelE F (X : mat) : l96_model (Nd2 X) F = Ok (Nd2 (tend F X)).
Proof.
rewrite /l96_model /= !bindE nsubmm bindE /nmul /= bop_mm bindE nsubmm bindE /nadd /=.
congr (Ok (Nd2 _)); apply/matrixP=> i j; rewrite !mxE roll1 roll2 rollm1.
by rewrite mulN1r mulNr -mulrN opprB mulrC.
Qed.

Lemma fE dt F (X : mat) : l96_f dt F (Nd2 X) = Ok (Nd2 (step dt F X)).
Proof.
rewrite /l96_f modelE !bindE /= naddmm !bindE modelE bindE /= naddmm bindE modelE bindE /= naddmm bindE modelE bindE /=.
rewrite naddmm bindE /= naddmm bindE naddmm bindE /= naddmm !scalerA.
by rewrite /step ![2%:R^-1 * dt]mulrC ![6%:R^-1 * dt]mulrC.
Qed.

Lemma nadd_row (v : 'cV[R]_n.+1) (B : 'M[R]_(1, n.+1)) : nadd (Nd1 v) (Nd2 B) = nadd (Nd2 v^T) (Nd2 B).
Proof. by []. Qed.

Lemma tend_readme F (X : mat) : tend F X = matf (fun i => mirror (readme F (mirror (rowf X i)))).
Proof.
apply/matrixP=> i j; rewrite !mxE /mirror /readme /rowf rev_ordK -!addrA -opprD !rev_shift opprK.
by rewrite opprK.
Qed.
End Facts.

Section Facts2.
Variable R : rcfType.
Notation nd := (nd R).
Variable n : nat.
Notation I := 'I_n.+1.
Notation one := (Zp1 : I).

Add Field fieldR : (ffth R).

Lemma modelvE F (v : 'cV[R]_n.+1) : l96_model (Nd1 v) F = Ok (Nd2 (tend F v^T)).
Proof. by rewrite -modelE. Qed.

Lemma fvE dt F (v : 'cV[R]_n.+1) : l96_f dt F (Nd1 v) = Ok (Nd2 (step dt F v^T)).
Proof.
rewrite /l96_f modelvE !bindE /= nadd_row naddmm !bindE modelE bindE /= nadd_row naddmm bindE modelE bindE /= nadd_row naddmm bindE modelE bindE /=.
rewrite naddmm bindE /= naddmm bindE naddmm bindE /= nadd_row naddmm !scalerA.
by rewrite /step ![2%:R^-1 * dt]mulrC ![6%:R^-1 * dt]mulrC.
Qed.

(** rows and cyclic shifts *)
Section Rel.
Variables (m m' : nat) (i : 'I_m) (i' : 'I_m') (s : I -> I).
Hypothesis s1 : forall j, s (j + one) = s j + one.
Definition rel (X : 'M[R]_(m, n.+1)) (Y : 'M[R]_(m', n.+1)) := forall j, X i j = Y i' (s j).
Lemma sB j : s (j - one) = s j - one.
Proof. by apply: (addIr one); rewrite -s1 !subrK. Qed.
Lemma rel_add X X' Y Y' : rel X Y -> rel X' Y' -> rel (X + X') (Y + Y').
Proof. by move=> h h' j; rewrite !mxE h h'. Qed.
Lemma rel_scale c X Y : rel X Y -> rel (c *: X) (c *: Y).
Proof. by move=> h j; rewrite !mxE h. Qed.
Lemma rel_tend F X Y : rel X Y -> rel (tend F X) (tend F Y).
Proof. by move=> h j; rewrite !mxE !h !s1 sB. Qed.
Lemma rel_step dt F X Y : rel X Y -> rel (step dt F X) (step dt F Y).
Proof.
move=> h; rewrite /step.
by do !(apply: rel_add || apply: rel_scale || apply: rel_tend || assumption).
Qed.
End Rel.

Lemma step_readme m dt F (X : 'M[R]_(m, n.+1)) :
  step dt F X = matf (fun i => mirror (rk4 dt (readme F) (mirror (rowf X i)))).
Proof.
pose rl (X : 'M[R]_(m, n.+1)) i (y : I -> R) := forall j, X i j = y (rev_ord j).
have hT i A y : rl A i y -> rl (tend F A) i (readme F y).
  move=> h j; rewrite !mxE !h /readme !rev_one !opprD !opprK.
  by rewrite addrK subrK.
have hD i A B (y z : I -> R) c : rl A i y -> rl B i z -> rl (A + c *: B) i (fun k => y k + c * z k).
  by move=> h h' j; rewrite !mxE h h'.
apply/matrixP=> i j; rewrite [RHS]mxE.
suff: rl (step dt F X) i (rk4 dt (readme F) (mirror (rowf X i))) by apply.
have h0 : rl X i (mirror (rowf X i)) by move=> k; rewrite /mirror rev_ordK.
have h1 := hT _ _ _ h0; have h2 := hT _ _ _ (hD _ _ _ _ _ (dt / 2%:R) h0 h1).
have h3 := hT _ _ _ (hD _ _ _ _ _ (dt / 2%:R) h0 h2); have h4 := hT _ _ _ (hD _ _ _ _ _ dt h0 h3).
have hS A B (y z : I -> R) : rl A i y -> rl B i z -> rl (A + B) i (fun k => y k + z k).
  by move=> h h' j'; rewrite !mxE h h'.
exact: (hD _ _ _ _ _ (dt / 6%:R) h0 (hS _ _ _ _ (hD _ _ _ _ _ 2%:R (hD _ _ _ _ _ 2%:R h1 h2) h3) h4)).
Qed.

Lemma roll_commutes m dt F (X : 'M[R]_(m, n.+1)) s :
  (do y <- l96_f dt F (Nd2 X); nroll y s) = (do x <- nroll (Nd2 X) s; l96_f dt F x).
Proof.
rewrite fE /nroll !bindE fE; congr (Ok (Nd2 _)); apply/matrixP=> i j; rewrite mxE; symmetry.
set k := `|_|%N.
apply: (@rel_step m m i i (fun j => rshift k j)) => [j'|j']; last by rewrite mxE.
by rewrite !rshiftE addrAC.
Qed.

Lemma row_step m dt F (X : 'M[R]_(m, n.+1)) i : row i (step dt F X) = step dt F (row i X).
Proof.
apply/rowP=> j; rewrite mxE; symmetry.
by apply: (@rel_step 1 m 0 i id) => // j'; rewrite mxE.
Qed.

(** the advection does no work *)
Lemma energy m F (X : 'M[R]_(m, n.+1)) i :
  \sum_j X i j * tend F X i j = F * (\sum_j X i j) - \sum_j X i j ^+ 2.
Proof.
have shift (f : I -> R) c : \sum_j f (j + c) = \sum_j f j.
  by rewrite [RHS](reindex_inj (addIr c)).
pose a j := X i j * (X i (j - one) * X i (j + one)).
have e j : X i j * tend F X i j = a j - a (j + one) + (F * X i j - X i j ^+ 2).
  rewrite mxE /a addrK expr2.
  move: (X i j) (X i (j - one)) (X i (j + one)) (X i (j + one + one)) => x x1 x2 x3.
  by fnorm R; ring.
under eq_bigr do rewrite e.
by rewrite !big_split /= !sumrN -mulr_sumr (shift a) subrr add0r.
Qed.

Lemma fixed m dt F : step dt F (const_mx F : 'M[R]_(m, n.+1)) = const_mx F.
Proof.
have t0 : tend F (const_mx F : 'M[R]_(m, n.+1)) = 0.
  by apply/matrixP=> i j; rewrite !mxE subrr mul0r sub0r addNr.
by rewrite /step !(t0, scaler0, addr0).
Qed.

(** code and documentation agree exactly up to three components *)
Lemma agree_iff F : (forall v : 'cV[R]_n.+1, tend F v^T = matf (fun i => readme F (rowf v^T i))) <-> (n.+1 <= 3)%N.
Proof.
split=> [h|hn v].
- rewrite leqNgt; apply/negP=> hn.
  pose v : 'cV[R]_n.+1 := \col_j ((j == one) || (j == one + one))%:R.
  have hv : val one = 1%N by rewrite /= modn_small // (leq_trans _ hn).
  have hv2 : val (one + one) = 2%N by rewrite /= modnDml modnDmr modn_small // (leq_trans _ hn).
  have ne (k : nat) (j : I) : val j = k -> k != 1%N -> k != 2%N -> v j 0 = 0.
    by move=> e h1 h2; rewrite mxE -!val_eqE hv hv2 /= e (negbTE h1) (negbTE h2).
  have o1 : v one 0 = 1 by rewrite mxE eqxx.
  have o2 : v (one + one) 0 = 1 by rewrite mxE eqxx orbT.
  have m1 : val (- one : I) = n by rewrite /= (@modn_small 1) ?subn1 ?modn_small // (leq_trans _ hn).
  have z0 : v (0 - one) 0 = 0.
    by rewrite add0r (ne n) //; apply/eqP=> e; move: hn; rewrite e.
  clearbody v; move/matrixP: (h v) => /(_ 0 0); rewrite !mxE /readme /rowf ![v^T _ _]mxE z0 mulr0 !add0r o1 o2 mulr1 => /addIr h'.
  have /eqP: (-1 : R) = 0 by apply: (@addIr _ (- v 0 0)); rewrite h' add0r.
  by rewrite oppr_eq0 oner_eq0.
- apply/matrixP=> i j; rewrite !mxE /readme /rowf ![v^T _ _]mxE; congr (_ - _ + _).
  have e : one *+ n.+1 = 0 by apply: val_inj; rewrite Zp_mulrn /= modnMml mul1n modnn.
  move: n hn v j e => [|[|[|k]]] // _ v j e.
  have e' : Zp1 + Zp1 = - Zp1 :> 'I_3 by apply/eqP; rewrite -addr_eq0 -mulr2n -mulrSr e.
  by rewrite -!addrA e' -opprD e' opprK !subrr !mul0r.
Qed.
End Facts2.

(** ** the initial condition *)
Section Init.
Variable R : rcfType.
Notation nd := (nd R).
Variable array_last : seq nd -> res nd.

Lemma iter_rows n k (X : 'M[R]_(1, n.+1)) acc :
  exists l, l96_iter k (Nd2 X) acc = Ok (acc ++ l) /\ size l = k /\
    forall y, y \in map (@shape R) l -> y = [:: 1; n.+1]%N.
Proof.
elim: k X acc => [|k IH] X acc; first by exists [::]; rewrite /= cats0.
rewrite /= fE bindE; case: (IH (step (default_dt R) (default_F R) X) (rcons acc (Nd2 (step (default_dt R) (default_F R) X)))).
move=> l [-> [sl hl]]; exists (Nd2 (step (default_dt R) (default_F R) X) :: l).
rewrite cat_rcons /= sl; split=> //; split=> // y; rewrite inE => /orP [/eqP -> //|]; exact: hl.
Qed.

Lemma iter_start n k (v : 'cV[R]_n.+1) :
  exists xs b, l96_iter k.+1 (Nd1 v) [:: Nd1 v] = Ok (Nd1 v :: rcons xs b) /\ shape b = [:: 1; n.+1]%N.
Proof.
rewrite /= fvE bindE; set X := step _ _ _.
case: (iter_rows k X [:: Nd1 v; Nd2 X]) => l [-> [_ hl]].
case: (lastP l) hl => [|l' b] hl; first by exists [::], (Nd2 X).
exists (Nd2 X :: l'), b; split; first by [].
by apply: hl; rewrite map_rcons mem_rcons inE eqxx.
Qed.

Hypothesis mixed : forall a xs b, shape0 a <> shape0 b ->
  array_last (a :: rcons xs b) = Err ValueErr \/ array_last (a :: rcons xs b) = Ok b.

Lemma generate_shape dim F : dim <> 1%N ->
  match l96_generate array_last dim F with
  | Err e => e = if dim is 0 then IndexErr else ValueErr
  | Ok x => shape x = [:: 1; dim]%N
  end.
Proof.
case: dim => [|n] n1; first by [].
rewrite /l96_generate; case: (iter_start 998 (perturbed n F)) => xs [b [e sb]].
rewrite -[l96_iter 999 _ _]/(l96_iter 998.+1 _ _) e bindE.
have ns : shape0 (Nd1 (perturbed n F)) <> shape0 b.
  by case: b sb {e} => // m1 n2 B /= [-> _] [h]; apply: n1; rewrite h.
by case: (mixed xs ns) => ->.
Qed.
End Init.

Lemma shape0_of (R : rcfType) (x : nd R) a b : shape x = [:: a; b] -> shape0 x = Ok a.
Proof. by case: x => // m n X /= [-> _]. Qed.
