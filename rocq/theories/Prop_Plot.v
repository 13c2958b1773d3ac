(** * C64: averages over runs with their spread (Utils/Plot_Helper.py:55-84);
      C65: bands of Gaussian states (Utils/Plot_Helper.py:20-52) *)
Set Warnings "-notation-overridden,-ambiguous-paths".
From mathcomp Require Import all_ssreflect all_algebra fingroup perm real_closed.realalg.
From Verif Require Import Base ND LinAlg Gauss SpecMetrics Plot SpecPlot PlotFacts.
Set Implicit Arguments.
Unset Strict Implicit.
Unset Printing Implicit Defensive.
Import GRing.Theory Num.Theory Order.Theory.
Local Open Scope ring_scope.

Section Runs.
Variable R : rcfType.

(** the whole figure: the averages at 1, ..., T, and with at least two runs the band of one standard deviation *)
Theorem C64_figure N T (X : 'M[R]_(N, T)) : (0 < N)%N ->
  exists h : 'I_T -> R, (forall j, 0 <= h j /\ h j ^+ 2 = avg (fun i => X i j ^+ 2) - avg (X^~ j) ^+ 2) /\
  plot_1d_data (Nd2 X) = Ok (Figure (Some (Line (iota 1 T) [seq [:: avg (X^~ j)] | j <- enum 'I_T]))
    (if (1 < N)%N then Some (Band (iota 1 T) [seq Some (avg (X^~ j) - h j) | j <- enum 'I_T]
                                             [seq Some (avg (X^~ j) + h j) | j <- enum 'I_T]) else None) None).
Proof. exact: curve. Qed.
(** the curve is the best constant fit to the runs, and the half-width of the band is its error *)
Theorem C64_least N T (X : 'M[R]_(N, T)) f (j : 'I_T) c w : plot_1d_data (Nd2 X) = Ok f -> centred f j c w ->
  0 <= w /\ forall a, avg (fun i => (X i j - a) ^+ 2) = w ^+ 2 + (c - a) ^+ 2.
Proof. exact: centred_least. Qed.
(** no run is further from the curve than the square root of N - 1 half-widths; one is in the band, and one is on its
    edge or outside *)
Theorem C64_reach N T (X : 'M[R]_(N, T)) f (j : 'I_T) c w : plot_1d_data (Nd2 X) = Ok f -> centred f j c w ->
  [/\ forall i, (X i j - c) ^+ 2 <= N.-1%:R * w ^+ 2, exists i, c - w <= X i j <= c + w
    & exists i, X i j <= c - w \/ c + w <= X i j].
Proof. exact: centred_reach. Qed.
(** two runs are the edges of the band *)
Theorem C64_pair T (X : 'M[R]_(2, T)) f (j : 'I_T) c w : plot_1d_data (Nd2 X) = Ok f -> centred f j c w ->
  c - w = Num.min (X 0 j) (X 1 j) /\ c + w = Num.max (X 0 j) (X 1 j).
Proof. exact: centred_pair. Qed.
(** the band collapses where all runs agree, and only there *)
Theorem C64_flat N T (X : 'M[R]_(N, T)) f (j : 'I_T) c w : plot_1d_data (Nd2 X) = Ok f -> centred f j c w ->
  w = 0 <-> forall i k, X i j = X k j.
Proof. exact: centred_flat. Qed.
(** a change of units carries over; the order of the runs does not matter *)
Theorem C64_affine N T (X : 'M[R]_(N, T)) a b f f' (j : 'I_T) c w :
  plot_1d_data (Nd2 X) = Ok f -> plot_1d_data (Nd2 (\matrix_(i, j) (a * X i j + b))) = Ok f' ->
  centred f j c w -> centred f' j (a * c + b) (`|a| * w).
Proof. exact: centred_affine. Qed.
Theorem C64_order N T (X : 'M[R]_(N, T)) (s : 'S_N) : plot_1d_data (Nd2 (row_perm s X)) = plot_1d_data (Nd2 X).
Proof. exact: plot_perm. Qed.
End Runs.

Section States.
Variable R : rcfType.
Variable illcond : forall n, 'M[R]_n -> bool.

(** nodes: the curves are all components of the means, the band is the 95% band of the first component; the other
    entries of the covariances, even negative ones, do not matter; a negative variance makes a gap *)
Theorem C65_nodes n k data (ps : seq ('cV[R]_n.+1 * 'M[R]_n.+1)) : ps <> [::] -> forall2 (reports illcond k) data ps ->
  exists lo hi, [/\ size lo = size ps, size hi = size ps,
    forall t, (t < size ps)%N -> let p := nth (0, 0) ps t in
      spread (196%:R / 100%:R) (p.1 0 0) (p.2 0 0) (nth None lo t) (nth None hi t)
  & plot_gaussian_node illcond data None =
    Ok (Figure (Some (Line (iota 1 (size ps)) [seq components p.1 | p <- ps])) (Some (Band (iota 1 (size ps)) lo hi)) None)].
Proof.
move/eqP => ne h; exists (lowers ps), (uppers ps); have [h1 h2 h3] := lu_spread ps; split=> //.
by rewrite (node_ok None ne h).
Qed.
(** the ground truth adds a curve and changes nothing else; it needs one value for each node *)
Theorem C65_truth n k data (ps : seq ('cV[R]_n.+1 * 'M[R]_n.+1)) g f : ps <> [::] -> forall2 (reports illcond k) data ps ->
  plot_gaussian_node illcond data None = Ok f ->
  plot_gaussian_node illcond data (Some g) =
  if size g == size data then Ok (Figure (f_line f) (f_band f) (Some (Line (iota 1 (size data)) [seq [:: x] | x <- g]))) else Err ValueErr.
Proof.
move/eqP => ne h; rewrite !(node_ok _ ne h) => /Ok_inj <-; by rewrite (forall2_size h).
Qed.
(** states: the same band, from 0 on, without curves *)
Theorem C65_states n data (ps : seq ('cV[R]_n.+1 * 'M[R]_n.+1)) : ps <> [::] -> forall2 (reports illcond Flat) data ps ->
  exists lo hi, [/\ size lo = size ps, size hi = size ps,
    forall t, (t < size ps)%N -> let p := nth (0, 0) ps t in
      spread (196%:R / 100%:R) (p.1 0 0) (p.2 0 0) (nth None lo t) (nth None hi t)
  & plot_gaussian illcond data = Ok (Figure None (Some (Band (iota 0 (size ps)) lo hi)) None)].
Proof.
move/eqP => ne h; exists (lowers ps), (uppers ps); have [h1 h2 h3] := lu_spread ps; split=> //.
by rewrite (states_ok ne h).
Qed.
(** the empty list cannot be drawn *)
Theorem C65_empty g : plot_gaussian_node illcond [::] g = Err ValueErr /\ plot_gaussian illcond [::] = Err IndexErr.
Proof. by []. Qed.
End States.

(** the runs 1 and 3, and 5 and 5 *)
Section Case.
Variable R : rcfType.
Definition runs : 'M[R]_(2, 2) := \matrix_(i, j) (if j == 0 then (if i == 0 then 1 else 3%:R) else 5%:R).
Lemma runs_fig : exists f, [/\ plot_1d_data (Nd2 runs) = Ok f, centred f 0 2%:R 1 & centred f 1 5%:R 0].
Proof.
exists (pic runs); split; first exact: plot_1dE.
- have h := @centredI _ _ _ runs (0 : 'I_2) isT; have [] := @C64_pair R _ runs _ 0 _ _ (plot_1dE runs isT) h.
  move: h; set c := avg _; set w := Num.sqrt _ => h.
  have -> : runs 0 0 = 1 by rewrite mxE.
  have -> : runs 1 0 = 3%:R by rewrite mxE.
  have l13 : 1 <= 3%:R :> R by rewrite ler1n.
  rewrite (min_idPl l13) (max_idPr l13) => e1 e2.
  have n2 : 2%:R != 0 :> R by rewrite pnatr_eq0.
  have ec : c = 2%:R.
    have e3 : (c - w) + (c + w) = 4%:R by rewrite e1 e2 -[1]/(1%:R) -natrD.
    by apply: (mulIf n2); rewrite -natrM -e3 addrACA addNr addr0 mulr_natr mulr2n.
  have ew : w = 1 by apply: (addrI c); rewrite e2 ec -[1]/(1%:R) -natrD.
  by move: h; rewrite ec ew.
- have h := @centredI _ _ _ runs (1 : 'I_2) isT; move: (h).
  have w0 := (C64_flat (plot_1dE runs isT) h).2; rewrite w0; last by move=> i k; rewrite !mxE.
  suff -> : avg (runs^~ 1) = 5%:R by [].
  rewrite -(@avg_const R 2 5%:R) //; apply: eq_avg => i; by rewrite mxE.
Qed.
(** a state whose first component is correlated with the second one, and one with a negative variance *)
Definition m2 : 'cV[R]_2 := \col_i (if i == 0 then 5%:R else 7%:R).
Definition c2 : 'M[R]_2 := \matrix_(i, j) (if i == j then (if i == 0 then 4%:R else 1) else -1).
Definition two : seq (gauss R) := [:: gaussian (Nd1 m2) (Nd2 c2); gaussian (Nd1 m2) (Nd2 (- c2))].
Lemma two_reports ill : forall2 (reports ill Flat) two [:: (m2, c2); (m2, - c2)].
Proof. by do !constructor. Qed.
Lemma two_drawn ill : exists f, [/\ plot_gaussian_node ill two None = Ok f,
  f_line f = Some (Line [:: 1; 2]%N [:: [:: 5%:R; 7%:R]; [:: 5%:R; 7%:R]])
  & f_band f = Some (Band [:: 1; 2]%N [:: Some (5%:R - 196%:R / 100%:R * 2%:R); None] [:: Some (5%:R + 196%:R / 100%:R * 2%:R); None])].
Proof.
have ne : [:: (m2, c2); (m2, - c2)] <> [::] by [].
have [lo [hi [sl sh h ->]]] := C65_nodes ne (@two_reports ill).
eexists; split; first reflexivity.
  rewrite /= /components !enum_ordSl !enum_ord0 /= !mxE; done.
have := h 0%N isT; have := h 1%N isT; rewrite /= !mxE /=.
case: lo sl {h} => [//|l0 [//|l1 [|//]]] _; case: hi sh => [//|u0 [//|u1 [|//]]] _ /=.
move=> [[_ [-> ->]]|]; last first.
  case=> s [_ e _ _]; exfalso; have : 0 <= s ^+ 2 by exact: sqr_ge0.
  by rewrite e oppr_ge0 leNgt ltr0n.
case=> [[q _]|]; first by move: q; rewrite ltNge ler0n.
case=> s [s0 e -> ->]; suff -> : s = 2%:R by [].
by apply/eqP; rewrite -(eqr_expn2 (n := 2)) ?ler0n // e -natrX.
Qed.
End Case.
Notation RA := [rcfType of realalg].
Example C64_ex : exists f, [/\ plot_1d_data (Nd2 (runs RA)) = Ok f, centred f 0 2%:R 1 & centred f 1 5%:R 0].
Proof. exact: runs_fig. Qed.
Example C65_ex ill : two RA <> [::] /\ forall2 (reports ill Flat) (two RA) [:: (m2 RA, c2 RA); (m2 RA, - c2 RA)] /\
  exists f, [/\ plot_gaussian_node ill (two RA) None = Ok f,
  f_line f = Some (Line [:: 1; 2]%N [:: [:: 5%:R; 7%:R]; [:: 5%:R; 7%:R]])
  & f_band f = Some (Band [:: 1; 2]%N [:: Some (5%:R - 196%:R / 100%:R * 2%:R); None] [:: Some (5%:R + 196%:R / 100%:R * 2%:R); None])].
Proof. split; first discriminate. split; [exact: two_reports|exact: two_drawn]. Qed.

Print Assumptions C64_figure.
Print Assumptions C64_least.
Print Assumptions C64_reach.
Print Assumptions C64_pair.
Print Assumptions C64_flat.
Print Assumptions C64_affine.
Print Assumptions C64_order.
Print Assumptions C65_nodes.
Print Assumptions C65_truth.
Print Assumptions C65_states.
Print Assumptions C65_empty.
