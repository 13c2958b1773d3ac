(** * Facts about Plot.v *)
Set Warnings "-notation-overridden,-ambiguous-paths".
From mathcomp Require Import all_ssreflect all_algebra.
From mathcomp Require Import fingroup perm.
From Verif Require Import Base ND LinAlg Gauss SpecMetrics Plot SpecPlot.
Set Implicit Arguments.
Unset Strict Implicit.
Unset Printing Implicit Defensive.
Import GRing.Theory Num.Theory Order.Theory.
Local Open Scope ring_scope.

Section Facts.
Variable R : rcfType.
Variable illcond : forall n, 'M[R]_n -> bool.

(** ** samples *)
Lemma natr_gt0 N : (0 < N)%N -> 0 < N%:R :> R.
Proof. by rewrite ltr0n. Qed.
Lemma avg_const N (c : R) : (0 < N)%N -> avg (fun _ : 'I_N => c) = c.
Proof. move=> h; rewrite /avg sumr_const card_ord -[c *+ N]mulr_natr mulfK //; by rewrite gt_eqF // natr_gt0. Qed.
Lemma avgD N (x y : 'I_N -> R) : avg (fun i => x i + y i) = avg x + avg y.
Proof. by rewrite /avg big_split mulrDl. Qed.
Lemma avgZ N (c : R) (x : 'I_N -> R) : avg (fun i => c * x i) = c * avg x.
Proof. by rewrite /avg -mulr_sumr mulrA. Qed.
Lemma eq_avg N (x y : 'I_N -> R) : (forall i, x i = y i) -> avg x = avg y.
Proof. by move=> h; rewrite /avg (eq_bigr _ (fun i _ => h i)). Qed.
Lemma avg_ge0 N (x : 'I_N -> R) : (forall i, 0 <= x i) -> 0 <= avg x.
Proof. by move=> h; rewrite /avg divr_ge0 ?ler0n // sumr_ge0. Qed.
(** the variance of a family *)
Definition vari N (x : 'I_N -> R) : R := avg (fun i => (x i - avg x) ^+ 2).
Lemma vari_ge0 N (x : 'I_N -> R) : 0 <= vari x.
Proof. by apply: avg_ge0 => i; rewrite sqr_ge0. Qed.
Lemma avg_shift N (x : 'I_N -> R) c : (0 < N)%N -> avg (fun i => (x i - c) ^+ 2) = vari x + (avg x - c) ^+ 2.
Proof.
move=> N0.
have -> : avg (fun i => (x i - c) ^+ 2) = avg (fun i => (x i - avg x) ^+ 2 + ((avg x - c) *+ 2 * (x i - avg x) + (avg x - c) ^+ 2)).
  apply: eq_avg => i; have -> : x i - c = (x i - avg x) + (avg x - c) by rewrite addrA subrK.
  by rewrite sqrrD -addrA; congr (_ + (_ + _)); rewrite mulrnAl mulrC.
rewrite avgD -/(vari x) avgD avg_const // avgZ.
have -> : avg (fun i => x i - avg x) = 0.
  by rewrite (avgD x (fun _ => - avg x)) avg_const // subrr.
by rewrite mulr0 add0r.
Qed.
Lemma vari_sq N (x : 'I_N -> R) : (0 < N)%N -> vari x = avg (fun i => x i ^+ 2) - avg x ^+ 2.
Proof.
move=> N0; have := avg_shift x 0 N0; rewrite subr0 => e.
have -> : avg (fun i => x i ^+ 2) = avg (fun i => (x i - 0) ^+ 2) by apply: eq_avg => i; rewrite subr0.
by rewrite e addrK.
Qed.
Lemma vari_affine N (x : 'I_N -> R) a b : (0 < N)%N -> vari (fun i => a * x i + b) = a ^+ 2 * vari x.
Proof.
move=> N0; rewrite /vari -avgZ; apply: eq_avg => i.
have -> : avg (fun i => a * x i + b) = a * avg x + b.
  by rewrite (avgD (fun i => a * x i) (fun _ => b)) avg_const // avgZ.
by rewrite -exprMn mulrBr opprD addrACA subrr addr0.
Qed.
Lemma vari_eq0 N (x : 'I_N -> R) : (0 < N)%N -> vari x = 0 <-> forall i j, x i = x j.
Proof.
move=> N0; split.
  move=> e; suff h i : x i = avg x by move=> i j; rewrite !h.
  have nz : N%:R^-1 != 0 :> R by rewrite invr_eq0 gt_eqF // natr_gt0.
  have : \sum_i (x i - avg x) ^+ 2 = 0.
    by apply/eqP; move/eqP: e; rewrite /vari /avg mulf_eq0 (negbTE nz) orbF.
  move/psumr_eq0P => H; have /eqP := H (fun i _ => sqr_ge0 _) i isT.
  by rewrite expf_eq0 subr_eq0 => /eqP.
move=> h; rewrite /vari -[RHS](avg_const (N := N)) //; apply: eq_avg => i.
have -> : avg x = x i by rewrite (eq_avg (h^~ i)) avg_const.
by rewrite subrr expr0n.
Qed.
(** no sample is further than [sqrt (N - 1)] standard deviations from the mean *)
Lemma samuelson N (x : 'I_N -> R) k : (x k - avg x) ^+ 2 <= N.-1%:R * vari x.
Proof.
have N0 : (0 < N)%N by case: N x k => [? []|].
pose d i := x i - avg x.
have s0 : d k = - \sum_(i | i != k) d i.
  have e : \sum_i d i = d k + \sum_(i | i != k) d i by rewrite (bigD1 k).
  apply/eqP; rewrite -addr_eq0 -e.
  have : avg d = 0.
    by rewrite /d (avgD x (fun _ => - avg x)) avg_const // subrr.
  move/eqP; rewrite /avg mulf_eq0 => /orP[|] //.
  by rewrite invr_eq0 gt_eqF // natr_gt0.
(* Cauchy-Schwarz over the other samples *)
have cs (P : pred 'I_N) : (\sum_(i | P i) d i) ^+ 2 <= #|P|%:R * \sum_(i | P i) d i ^+ 2.
  case: (posnP #|P|) => [p0|p1].
    rewrite p0 mul0r big_pred0 ?expr0n // => i; exact: (card0_eq p0).
  set S := \sum_(i | P i) d i; set Q := \sum_(i | P i) d i ^+ 2; set c := #|P|%:R : R.
  have c0 : 0 < c by rewrite /c ltr0n.
  have : 0 <= \sum_(i | P i) (c * d i - S) ^+ 2 by apply: sumr_ge0 => i _; rewrite sqr_ge0.
  have -> : \sum_(i | P i) (c * d i - S) ^+ 2 = c * (c * Q - S ^+ 2).
    rewrite (eq_bigr (fun i => c ^+ 2 * d i ^+ 2 + (- (c * S *+ 2) * d i + S ^+ 2))); last first.
      move=> i _; rewrite sqrrB exprMn -!addrA; congr (_ + (_ + _)).
      by rewrite mulNr mulrnAl mulrAC.
    rewrite big_split big_split /= -!mulr_sumr sumr_const -/S -/Q -[S *+ #|P|]mulr_natr -/c [S * (S * c)]mulrA [S * S * c]mulrC.
    rewrite mulNr mulrnAl -[c * S * S]mulrA mulr2n opprD -[- _ - _ + _]addrA addNr addr0 mulrBr [c * (c * Q)]mulrA.
    by rewrite -!expr2.
  by rewrite pmulr_rge0 // subr_ge0.
have := cs (predC1 k); rewrite cardC1 card_ord => h.
have dk : d k ^+ 2 = (\sum_(i | i != k) d i) ^+ 2 by rewrite s0 sqrrN.
have tot : N%:R * vari x = d k ^+ 2 + \sum_(i | i != k) d i ^+ 2.
  have <- : \sum_i d i ^+ 2 = d k ^+ 2 + \sum_(i | i != k) d i ^+ 2 by rewrite (bigD1 k).
  rewrite /vari /avg mulrC mulfVK //; by rewrite gt_eqF // natr_gt0.
rewrite -/(d k).
have h' : d k ^+ 2 <= N.-1%:R * (N%:R * vari x - d k ^+ 2).
  by rewrite tot addrAC subrr add0r dk.
have eN : N%:R = N.-1%:R + 1 :> R by rewrite -[in LHS](prednK N0) -addn1 natrD.
move: h'; rewrite mulrBr ler_subr_addr.
have -> : d k ^+ 2 + N.-1%:R * d k ^+ 2 = N%:R * d k ^+ 2 by rewrite eN mulrDl mul1r addrC.
by rewrite [N.-1%:R * (_ * _)]mulrCA (ler_pmul2l (natr_gt0 N0)).
Qed.
Lemma vari_some N (x : 'I_N -> R) : (0 < N)%N ->
  (exists i, (x i - avg x) ^+ 2 <= vari x) /\ (exists i, vari x <= (x i - avg x) ^+ 2).
Proof.
move=> N0; have nz := natr_gt0 N0.
have tot : \sum_i ((x i - avg x) ^+ 2 - vari x) = 0.
  rewrite sumrB sumr_const card_ord -[vari x *+ N]mulr_natr /vari /avg mulfVK ?subrr //; by rewrite gt_eqF.
split.
  case: (pickP (fun i => (x i - avg x) ^+ 2 <= vari x)) => [i h|h]; first by exists i.
  exfalso; have : 0 < \sum_i ((x i - avg x) ^+ 2 - vari x).
    case: N N0 x {nz tot} h => // n _ x h; rewrite big_ord_recl; apply: ltr_paddr.
      by apply: sumr_ge0 => i _; rewrite subr_ge0 ltW // ltNge h.
    by rewrite subr_gt0 ltNge h.
  by rewrite tot ltxx.
case: (pickP (fun i => vari x <= (x i - avg x) ^+ 2)) => [i h|h]; first by exists i.
exfalso; have : 0 < \sum_i (vari x - (x i - avg x) ^+ 2).
  case: N N0 x {nz tot} h => // n _ x h; rewrite big_ord_recl; apply: ltr_paddr.
    by apply: sumr_ge0 => i _; rewrite subr_ge0 ltW // ltNge h.
  by rewrite subr_gt0 ltNge h.
suff -> : \sum_i (vari x - (x i - avg x) ^+ 2) = - \sum_i ((x i - avg x) ^+ 2 - vari x) by rewrite tot oppr0 ltxx.
by rewrite -sumrN; apply: eq_bigr => i _; rewrite opprB.
Qed.

(** ** plot_1d_data *)
Lemma mean0E N T (X : 'M[R]_(N, T)) j : mean0 X 0 j = avg (X^~ j).
Proof. by rewrite mxE. Qed.
Lemma stdE N T (X : 'M[R]_(N, T)) j : (get_mean_and_std X).2 0 j = Num.sqrt (vari (X^~ j)).
Proof.
rewrite /get_mean_and_std /= !mxE /vari /avg; congr (Num.sqrt (_ / _)).
by apply: eq_bigr => i _; rewrite !mxE.
Qed.
Lemma meanE N T (X : 'M[R]_(N, T)) j : (get_mean_and_std X).1 0 j = avg (X^~ j).
Proof. exact: mean0E. Qed.
Lemma rowB T (m s : 'rV[R]_T) j : (m - s) 0 j = m 0 j - s 0 j.
Proof. by rewrite !mxE. Qed.
Lemma rowD T (m s : 'rV[R]_T) j : (m + s) 0 j = m 0 j + s 0 j.
Proof. by rewrite mxE. Qed.
(** everything that plot_1d_data draws *)
Definition pic N T (X : 'M[R]_(N, T)) : figure R :=
  Figure (Some (Line (iota 1 T) [seq [:: avg (X^~ j)] | j <- enum 'I_T]))
    (if (1 < N)%N then Some (Band (iota 1 T)
       [seq Some (avg (X^~ j) - Num.sqrt (vari (X^~ j))) | j <- enum 'I_T]
       [seq Some (avg (X^~ j) + Num.sqrt (vari (X^~ j))) | j <- enum 'I_T]) else None) None.
Lemma plot_1dE N T (X : 'M[R]_(N, T)) : (0 < N)%N -> plot_1d_data (Nd2 X) = Ok (pic X).
Proof.
move=> N0; rewrite /plot_1d_data gtn_eqF // /pic.
rewrite [get_mean_and_std X]surjective_pairing; congr (Ok (Figure _ _ _)).
  by rewrite -map_comp; congr (Some (Line _ _)); apply: eq_map => j /=; rewrite mean0E.
case: ltnP => // _; rewrite -!map_comp; congr (Some (Band _ _ _)); apply: eq_map => j.
  by rewrite /comp rowB stdE meanE.
by rewrite /comp rowD stdE meanE.
Qed.
Lemma nth_ord T (A : Type) (f : 'I_T -> A) a k (h : (k < T)%N) : nth a [seq f j | j <- enum 'I_T] k = f (Ordinal h).
Proof.
rewrite (nth_map (Ordinal h)) ?size_enum_ord //; congr f; apply: val_inj; by rewrite /= nth_enum_ord.
Qed.

Lemma curve N T (X : 'M[R]_(N, T)) : (0 < N)%N ->
  exists h : 'I_T -> R, (forall j, 0 <= h j /\ h j ^+ 2 = avg (fun i => X i j ^+ 2) - avg (X^~ j) ^+ 2) /\
  plot_1d_data (Nd2 X) = Ok (Figure (Some (Line (iota 1 T) [seq [:: avg (X^~ j)] | j <- enum 'I_T]))
    (if (1 < N)%N then Some (Band (iota 1 T) [seq Some (avg (X^~ j) - h j) | j <- enum 'I_T]
                                             [seq Some (avg (X^~ j) + h j) | j <- enum 'I_T]) else None) None).
Proof.
move=> N0; exists (fun j => Num.sqrt (vari (X^~ j))); split.
  by move=> j; rewrite sqrtr_ge0 sqr_sqrtr ?vari_ge0 // vari_sq.
by rewrite plot_1dE.
Qed.
Lemma centredP N T (X : 'M[R]_(N, T)) f (j : 'I_T) c w : plot_1d_data (Nd2 X) = Ok f -> centred f j c w ->
  [/\ (1 < N)%N, c = avg (X^~ j) & w = Num.sqrt (vari (X^~ j))].
Proof.
case: (posnP N) => [/eqP N0|N0]; first by rewrite /plot_1d_data N0.
rewrite plot_1dE // => /Ok_inj <- [l] [b] [] /= [<-]; case: ltnP => // N1 [<-] /=.
have eo : Ordinal (ltn_ord j) = j by apply: val_inj.
rewrite !(nth_ord _ _ (ltn_ord j)) eo => [[<-]] _ [] /addrI <-; by split.
Qed.
Lemma centredI N T (X : 'M[R]_(N, T)) (j : 'I_T) : (1 < N)%N ->
  centred (pic X) j (avg (X^~ j)) (Num.sqrt (vari (X^~ j))).
Proof.
move=> N1; rewrite /pic N1; do 2 eexists; split; try reflexivity.
all: have eo : Ordinal (ltn_ord j) = j by apply: val_inj.
all: by rewrite /= (nth_ord _ _ (ltn_ord j)) eo.
Qed.
Lemma exists_centred N T (X : 'M[R]_(N, T)) (j : 'I_T) : (1 < N)%N ->
  exists f c w, plot_1d_data (Nd2 X) = Ok f /\ centred f j c w.
Proof. by move=> N1; do 3 eexists; split; [apply: plot_1dE; apply: ltnW|exact: centredI]. Qed.
Lemma centred_least N T (X : 'M[R]_(N, T)) f (j : 'I_T) c w : plot_1d_data (Nd2 X) = Ok f -> centred f j c w ->
  0 <= w /\ forall a, avg (fun i => (X i j - a) ^+ 2) = w ^+ 2 + (c - a) ^+ 2.
Proof.
move=> e h; have [N1 -> ->] := centredP e h; split; first exact: sqrtr_ge0.
by move=> a; rewrite (avg_shift _ _ (ltnW N1)) sqr_sqrtr // vari_ge0.
Qed.
Lemma centred_reach N T (X : 'M[R]_(N, T)) f (j : 'I_T) c w : plot_1d_data (Nd2 X) = Ok f -> centred f j c w ->
  [/\ forall i, (X i j - c) ^+ 2 <= N.-1%:R * w ^+ 2, exists i, c - w <= X i j <= c + w
    & exists i, X i j <= c - w \/ c + w <= X i j].
Proof.
move=> e h; have [N1 -> ->] := centredP e h.
have [[i hi] [k hk]] := vari_some (X^~ j) (ltnW N1).
set c' := avg _ in hi hk *; set s := Num.sqrt _.
have s0 : 0 <= s by exact: sqrtr_ge0.
have es : s ^+ 2 = vari (X^~ j) by rewrite sqr_sqrtr // vari_ge0.
split.
- by move=> l; rewrite es; exact: (samuelson (X^~ j) l).
- exists i; move: hi; rewrite -es -real_normK ?num_real // ler_pexpn2r ?nnegrE // ler_norml.
  by rewrite ler_subr_addr ler_subl_addr addrC [X in _ && (_ <= X)]addrC.
- exists k; move: hk; rewrite -es -[X in _ <= X]real_normK ?num_real // ler_pexpn2r ?nnegrE // leNgt ltr_norml negb_and -!leNgt.
  case/orP => q; [left|right].
    by move: q; rewrite ler_subl_addr [- s + _]addrC.
  by move: q; rewrite ler_subr_addr addrC.
Qed.
Lemma centred_flat N T (X : 'M[R]_(N, T)) f (j : 'I_T) c w : plot_1d_data (Nd2 X) = Ok f -> centred f j c w ->
  w = 0 <-> forall i k, X i j = X k j.
Proof.
move=> e h; have [N1 _ ->] := centredP e h; rewrite -(vari_eq0 (X^~ j) (ltnW N1)); split.
  by move/eqP; rewrite sqrtr_eq0 => q; apply/eqP; rewrite eq_le q vari_ge0.
by move=> ->; rewrite sqrtr0.
Qed.
Lemma centred_affine N T (X : 'M[R]_(N, T)) a b f f' (j : 'I_T) c w :
  plot_1d_data (Nd2 X) = Ok f -> plot_1d_data (Nd2 (\matrix_(i, j) (a * X i j + b))) = Ok f' ->
  centred f j c w -> centred f' j (a * c + b) (`|a| * w).
Proof.
move=> e e' h; have [N1 -> ->] := centredP e h.
move: e'; rewrite (plot_1dE _ (ltnW N1)) => /Ok_inj <-.
have := centredI (\matrix_(i < N, j < T) (a * X i j + b)) j N1.
have -> : avg ((\matrix_(i < N, j0 < T) (a * X i j0 + b))^~ j) = a * avg (X^~ j) + b.
  rewrite -avgZ -[X in _ = _ + X](avg_const b (ltnW N1)) -avgD; apply: eq_avg => i; by rewrite mxE.
suff -> : Num.sqrt (vari ((\matrix_(i < N, j0 < T) (a * X i j0 + b))^~ j)) = `|a| * Num.sqrt (vari (X^~ j)) by [].
rewrite -sqrtr_sqr -sqrtrM ?sqr_ge0 // -(vari_affine _ a b (ltnW N1)); congr Num.sqrt.
have em i : (\matrix_(i < N, j0 < T) (a * X i j0 + b)) i j = a * X i j + b by rewrite mxE.
by rewrite /vari (eq_avg em); apply: eq_avg => i; rewrite em.
Qed.
Lemma plot_perm N T (X : 'M[R]_(N, T)) (s : 'S_N) : plot_1d_data (Nd2 (row_perm s X)) = plot_1d_data (Nd2 X).
Proof.
case: (posnP N) => [/eqP N0|N0]; first by rewrite /plot_1d_data N0.
have ea (g : 'I_N -> R) : avg (fun i => g (s i)) = avg g.
  by rewrite /avg [in RHS](reindex_inj (@perm_inj _ s)).
have e1 j : avg ((row_perm s X)^~ j) = avg (X^~ j).
  by rewrite -(ea (X^~ j)); apply: eq_avg => i; rewrite mxE.
have e2 j : vari ((row_perm s X)^~ j) = vari (X^~ j).
  rewrite /vari e1 -(ea (fun i => (X i j - avg (X^~ j)) ^+ 2)); apply: eq_avg => i; by rewrite mxE.
rewrite !plot_1dE // /pic; congr (Ok (Figure (Some (Line _ _)) _ _)).
  by apply: eq_map => j; rewrite e1.
by case: ltnP => // _; congr (Some (Band _ _ _)); apply: eq_map => j; rewrite e1 e2.
Qed.
Lemma centred_pair T (X : 'M[R]_(2, T)) f (j : 'I_T) c w : plot_1d_data (Nd2 X) = Ok f -> centred f j c w ->
  c - w = Num.min (X 0 j) (X 1 j) /\ c + w = Num.max (X 0 j) (X 1 j).
Proof.
move=> e h; have [N1 -> ->] := centredP e h.
set x := X 0 j; set y := X 1 j.
have nz : 2%:R != 0 :> R by rewrite pnatr_eq0.
have ec : avg (X^~ j) = (x + y) / 2%:R by rewrite /avg big_ord_recl big_ord1; congr ((_ + X _ _) / _); apply: val_inj.
have ev : vari (X^~ j) = ((x - y) / 2%:R) ^+ 2.
  have e2 : x - (x + y) / 2%:R = (x - y) / 2%:R.
    apply: (mulIf nz); by rewrite mulrBl !mulfVK // mulr_natr mulr2n opprD addrACA subrr add0r.
  have e3 : y - (x + y) / 2%:R = - ((x - y) / 2%:R).
    apply: (mulIf nz); by rewrite mulrBl mulNr !mulfVK // mulr_natr mulr2n opprD addrACA subrr addr0 opprB.
  rewrite /vari ec {1}/avg big_ord_recl big_ord1.
  have -> : X (lift ord0 ord0) j = y by congr (X _ _); apply: val_inj.
  by rewrite -/x e2 e3 sqrrN -mulr2n -[_ *+ 2]mulr_natr mulfK.
rewrite ec ev sqrtr_sqr normrM normfV [`|2%:R|]ger0_norm ?ler0n // -mulrBl -mulrDl.
have half (u v : R) : u = v + v -> u / 2%:R = v by move=> ->; rewrite -mulr2n -[_ *+ 2]mulr_natr mulfK.
case: (leP x y) => q.
  rewrite ler0_norm ?subr_le0 // opprB; split; apply: half.
    by rewrite opprB addrACA subrr addr0.
  by rewrite [x + y]addrC addrACA subrr addr0.
rewrite gtr0_norm ?subr_gt0 //; split; apply: half.
  by rewrite opprB [x + y]addrC addrACA subrr addr0.
by rewrite addrACA subrr addr0.
Qed.

(** ** bands of Gaussian states *)
Lemma np_sqrtP (m v s : R) :
  match np_sqrt v with
  | None => v < 0
  | Some r => 0 <= r /\ r ^+ 2 = v
  end.
Proof. by rewrite /np_sqrt; case: (lerP 0 v) => // h; rewrite sqrtr_ge0 sqr_sqrtr. Qed.
Lemma edge_spread m v : spread (c196 R) m v (edge (-1) (m, np_sqrt v)) (edge 1 (m, np_sqrt v)).
Proof.
have := np_sqrtP m v 0; rewrite /edge; case: (np_sqrt v) => /= [r [r0 rv]|h]; last by left.
by right; exists r; rewrite mulN1r mul1r.
Qed.
Lemma entries_laid n k (v : 'cV[R]_n) : entries (laid k v) = components v.
Proof.
case: k => //=.
  by rewrite -[enum 'I_1]/(enum 'I_1) enum_ordSl enum_ord0 /= cats0 /components; apply: eq_map => i; rewrite mxE.
rewrite /components; elim: (enum 'I_n) => //= i l ->; by rewrite enum_ordSl enum_ord0.
Qed.
Lemma uniform_laid n k (vs : seq 'cV[R]_n) : uniform [seq laid k v | v <- vs] = Ok tt.
Proof.
case: vs => //= v vs; have -> // : all (fun b => shape b == shape (laid k v)) [seq laid k v | v <- vs].
by rewrite all_map; apply/allP => w _; case: k; rewrite /= eqxx.
Qed.
Lemma mapM_forall2 A B (P : A -> B -> Prop) (C : Type) (f : A -> res C) (g : B -> C) l l' :
  (forall a b, P a b -> f a = Ok (g b)) -> forall2 P l l' -> mapM f l = Ok [seq g b | b <- l'].
Proof. by move=> h; elim=> //= a b x y /h -> _ ->. Qed.
Lemma mapM_ok A C (f : A -> res C) (g : A -> C) (l : seq A) : (forall a, f a = Ok (g a)) -> mapM f l = Ok [seq g a | a <- l].
Proof. by move=> h; elim: l => //= a l ->; rewrite h. Qed.
Lemma forall2_size A B (P : A -> B -> Prop) l l' : forall2 P l l' -> size l = size l'.
Proof. by elim=> //= a b x y _ _ ->. Qed.
Definition row0 n (c : 'M[R]_n.+1) : seq (option R) := [seq np_sqrt (c 0 j) | j <- enum 'I_n.+1].
Lemma sqrt_row0E n (c : 'M[R]_n.+1) : sqrt_row0 (Nd2 c) = Ok (row0 c).
Proof.
rewrite /sqrt_row0; case: insubP => [i _ hi|//].
by congr Ok; apply: eq_map => j; congr (np_sqrt (c _ _)); apply: val_inj.
Qed.
Lemma edgesE n s (ps : seq ('cV[R]_n.+1 * 'M[R]_n.+1)) : ps != [::] ->
  edges s [seq components p.1 | p <- ps] [seq row0 p.2 | p <- ps] = Ok [seq edge s (p.1 0 0, np_sqrt (p.2 0 0)) | p : 'cV[R]_n.+1 * 'M[R]_n.+1 <- ps].
Proof.
move=> ne; rewrite /edges.
have sr (p : 'cV[R]_n.+1 * 'M[R]_n.+1) : size (row0 p.2) = n.+1 by rewrite size_map size_enum_ord.
have sc (p : 'cV[R]_n.+1 * 'M[R]_n.+1) : size (components p.1) = n.+1 by rewrite size_map size_enum_ord.
have -> : size (head [::] [seq components p.1 | p <- ps]) = n.+1 by case: ps ne => //= p ps _; exact: sc.
have -> : size (head [::] [seq row0 p.2 | p <- ps]) = n.+1 by case: ps ne => //= p ps _; exact: sr.
have -> : all (fun r => size r == n.+1) [seq row0 p.2 | p <- ps] by apply/allP => r /mapP[p _ ->]; rewrite sr.
rewrite /bdim eqxx; congr Ok; elim: ps {ne} => //= p ps ->; congr (edge s (_, _) :: _).
  by rewrite /components enum_ordSl.
by rewrite /row0 enum_ordSl.
Qed.
Definition lowers n (ps : seq ('cV[R]_n.+1 * 'M[R]_n.+1)) := [seq edge (-1) (p.1 0 0, np_sqrt (p.2 0 0)) | p : 'cV[R]_n.+1 * 'M[R]_n.+1 <- ps].
Definition uppers n (ps : seq ('cV[R]_n.+1 * 'M[R]_n.+1)) := [seq edge 1 (p.1 0 0, np_sqrt (p.2 0 0)) | p : 'cV[R]_n.+1 * 'M[R]_n.+1 <- ps].
Lemma lu_spread n (ps : seq ('cV[R]_n.+1 * 'M[R]_n.+1)) :
  [/\ size (lowers ps) = size ps, size (uppers ps) = size ps & forall t, (t < size ps)%N ->
   let p := nth (0, 0) ps t in spread (c196 R) (p.1 0 0) (p.2 0 0) (nth None (lowers ps) t) (nth None (uppers ps) t)].
Proof.
rewrite !size_map; split=> // t ht p; rewrite /lowers /uppers !(nth_map (0, 0)) //; exact: edge_spread.
Qed.
Lemma reports_mean n k data (ps : seq ('cV[R]_n * 'M[R]_n)) : forall2 (reports illcond k) data ps ->
  mapM (g_mean illcond) data = Ok [seq laid k p.1 | p <- ps].
Proof. by apply: mapM_forall2 => g p []. Qed.
Lemma reports_cov n k data (ps : seq ('cV[R]_n * 'M[R]_n)) : forall2 (reports illcond k) data ps ->
  mapM (g_cov illcond) data = Ok [seq Nd2 p.2 | p <- ps].
Proof. by apply: mapM_forall2 => g p []. Qed.
Local Arguments sqrt_row0 : simpl never.
Lemma sigmas n (ps : seq ('cV[R]_n.+1 * 'M[R]_n.+1)) : mapM (@sqrt_row0 R) [seq Nd2 p.2 | p <- ps] = Ok [seq row0 p.2 | p <- ps].
Proof. by elim: ps => //= p ps ->; rewrite sqrt_row0E. Qed.
Lemma means n k (ps : seq ('cV[R]_n * 'M[R]_n)) : [seq entries m | m <- [seq laid k p.1 | p <- ps]] = [seq components p.1 | p <- ps].
Proof. by rewrite -map_comp; apply: eq_map => p; exact: entries_laid. Qed.

Lemma node_ok n k data (ps : seq ('cV[R]_n.+1 * 'M[R]_n.+1)) truth : ps != [::] -> forall2 (reports illcond k) data ps ->
  plot_gaussian_node illcond data truth =
  if (if truth is Some g then size g == size ps else true) then
    Ok (Figure (Some (Line (iota 1 (size ps)) [seq components p.1 | p <- ps]))
      (Some (Band (iota 1 (size ps)) (lowers ps) (uppers ps))) (omap (fun g => Line (iota 1 (size ps)) [seq [:: x] | x <- g]) truth))
  else Err ValueErr.
Proof.
move=> ne h; rewrite /plot_gaussian_node (reports_mean h) !bindE.
have -> : uniform [seq laid k p.1 | p <- ps] = Ok tt by rewrite (map_comp (laid k) fst); exact: uniform_laid.
rewrite !bindE (reports_cov h) !bindE sigmas !bindE means !edgesE // !bindE (forall2_size h).
by case: ps ne {h} => // p ps _ /=; case: truth => [g|//] /=; case: eqP.
Qed.
Lemma states_ok n data (ps : seq ('cV[R]_n.+1 * 'M[R]_n.+1)) : ps != [::] -> forall2 (reports illcond Flat) data ps ->
  plot_gaussian illcond data = Ok (Figure None (Some (Band (iota 0 (size ps)) (lowers ps) (uppers ps))) None).
Proof.
move=> ne h; rewrite /plot_gaussian (reports_mean h) !bindE.
have -> : uniform [seq laid Flat p.1 | p <- ps] = Ok tt by rewrite (map_comp (laid Flat) fst); exact: uniform_laid.
rewrite !bindE (reports_cov h) !bindE sigmas !bindE means !edgesE // !bindE (forall2_size h).
have -> : all (fun m => size (shape m) == 1%N) [seq laid Flat p.1 | p <- ps] by rewrite all_map; apply/allP.
by case: ps ne {h}.
Qed.
End Facts.
