(** * The EP invariant for the Gaussians of StateModel/Gaussian.py *)
Set Warnings "-notation-overridden,-ambiguous-paths".
From mathcomp Require Import all_ssreflect all_algebra.
From Verif Require Import Base ND NDFacts PosDef LinAlg LinAlgFacts Gauss GaussFacts Nodes NodesFacts EPInv.
Set Implicit Arguments.
Unset Strict Implicit.
Unset Printing Implicit Defensive.
Import GRing.Theory Num.Theory Order.Theory.
Local Open Scope ring_scope.

Section EPGauss.
Variable R : rcfType.
Variable illcond : forall n, 'M[R]_n -> bool.
Notation nd := (nd R).

(** Python arithmetic on power and damping *)
Definition r_one_over (p : R) : res R := if p == 0 then Err ZeroDivErr else Ok p^-1.
Definition r_one_minus (p : R) : res R := Ok (1 - p).
Definition r_sdiv (p q : R) : res R := if q == 0 then Err ZeroDivErr else Ok (p / q).

Lemma r_one_overE p q : r_one_over p = Ok q -> q = p^-1.
Proof. by rewrite /r_one_over; case: eqP => // _ [<-]. Qed.
Lemma r_one_minusE p q : r_one_minus p = Ok q -> q = 1 - p.
Proof. by case. Qed.
Lemma r_sdivE p q r : r_sdiv p q = Ok r -> r = p / q.
Proof. by rewrite /r_sdiv; case: eqP => // _ [<-]. Qed.

(** a vector seen as a (d,d) array by broadcasting: every row is the vector *)
Definition rowb d (v : 'cV[R]_d) : 'M[R]_d := \matrix_(i, j) v j 0.

Lemma rowbD d (v w : 'cV[R]_d) : rowb (v + w) = rowb v + rowb w.
Proof. by apply/matrixP=> i j; rewrite !mxE. Qed.
Lemma rowbB d (v w : 'cV[R]_d) : rowb (v - w) = rowb v - rowb w.
Proof. by apply/matrixP=> i j; rewrite !mxE. Qed.
Lemma rowbZ d c (v : 'cV[R]_d) : rowb (c *: v) = c *: rowb v.
Proof. by apply/matrixP=> i j; rewrite !mxE. Qed.
Lemma rowb0 d : rowb (0 : 'cV[R]_d) = 0.
Proof. by apply/matrixP=> i j; rewrite !mxE. Qed.
Lemma rowb_inj d (v w : 'cV[R]_d) : rowb v = rowb w -> v = w.
Proof.
move=> h; apply/colP=> i; have /matrixP/(_ i i) := h; by rewrite !mxE.
Qed.

(** a covariance given explicitly has shape (d,d) *)
Definition covsh d (g : gauss R) : Prop := if g is Mom _ c then exists C : 'M[R]_d, c = Nd2 C else True.
(** the natural parameters of [g] seen as a pair of (d,d) arrays *)
Definition natv d (g : gauss R) (u : 'M[R]_d * 'M[R]_d) : Prop :=
  [/\ g_precision illcond g = Ok (Nd2 u.1), u.1^T = u.1, covsh d g &
      (exists2 v : 'cV[R]_d, g_shift illcond g = Ok (Nd1 v) & u.2 = rowb v) \/
      g_shift illcond g = Ok (Nd2 u.2)].

Lemma bent_row d (v : 'cV[R]_d) (i : nat) (j : 'I_d) : bent v^T i j = v j 0.
Proof.
rewrite /bent eqxx; have -> : (if d == 1%N then 0%N else j) = j by case: eqP j {v i} => [->|//] j; rewrite (ord1 j).
by rewrite -[0%N]/(nat_of_ord (0 : 'I_1)) entE mxE.
Qed.

Lemma bop_vm op d (v : 'cV[R]_d) (B : 'M[R]_d) :
  bop op (Nd1 v) (Nd2 B) = Ok (Nd2 (\matrix_(i, j) op (v j 0) (B i j))).
Proof.
rewrite /bop /bop2 bdim1n bdimnn; congr (Ok (Nd2 _)); apply/matrixP=> i j.
by rewrite !mxE bent_row bentE.
Qed.
Lemma bop_mv op d (v : 'cV[R]_d) (B : 'M[R]_d) :
  bop op (Nd2 B) (Nd1 v) = Ok (Nd2 (\matrix_(i, j) op (B i j) (v j 0))).
Proof.
rewrite /bop /bop2 bdimn1 bdimnn; congr (Ok (Nd2 _)); apply/matrixP=> i j.
by rewrite !mxE bent_row bentE.
Qed.

(** a shift as a matrix *)
Definition shv d (s : nd) (S : 'M[R]_d) : Prop := (exists2 v : 'cV[R]_d, s = Nd1 v & S = rowb v) \/ s = Nd2 S.
Lemma natvE d g (u : 'M[R]_d * 'M[R]_d) : natv g u <->
  [/\ g_precision illcond g = Ok (Nd2 u.1), u.1^T = u.1, covsh d g & exists2 s, g_shift illcond g = Ok s & shv s u.2].
Proof.
split=> [[h1 h2 h0 h3]|[h1 h2 h0 [s h3 h4]]]; split=> //.
  by case: h3 => [[v h3 h4]|h3]; eexists; try exact: h3; [left; exists v|right].
by case: h4 => [[v e1 e2]|e1]; [left; exists v; rewrite // h3 e1|right; rewrite h3 e1].
Qed.

Lemma natleast1_shv d s (S : 'M[R]_d) : shv s S -> natleast1 s = s.
Proof. by case=> [[v -> _]|->]. Qed.

Lemma nadd_shv d s t (S T : 'M[R]_d) : shv s S -> shv t T -> exists2 r, nadd s t = Ok r & shv r (S + T).
Proof.
case=> [[v -> ->]|->] [[w -> ->]|->].
- by exists (Nd1 (v + w)); rewrite ?naddvv //; left; exists (v + w); rewrite ?rowbD.
- rewrite /nadd bop_vm; eexists; first reflexivity.
  by right; congr Nd2; apply/matrixP=> i j; rewrite !mxE.
- rewrite /nadd bop_mv; eexists; first reflexivity.
  by right; congr Nd2; apply/matrixP=> i j; rewrite !mxE.
- by exists (Nd2 (S + T)); rewrite ?naddmm //; right.
Qed.
Lemma nsub_shv d s t (S T : 'M[R]_d) : shv s S -> shv t T -> exists2 r, nsub s t = Ok r & shv r (S - T).
Proof.
case=> [[v -> ->]|->] [[w -> ->]|->].
- by exists (Nd1 (v - w)); rewrite ?nsubvv //; left; exists (v - w); rewrite ?rowbB.
- rewrite /nsub bop_vm; eexists; first reflexivity.
  by right; congr Nd2; apply/matrixP=> i j; rewrite !mxE.
- rewrite /nsub bop_mv; eexists; first reflexivity.
  by right; congr Nd2; apply/matrixP=> i j; rewrite !mxE.
- by exists (Nd2 (S - T)); rewrite ?nsubmm //; right.
Qed.
Lemma nscale_shv d c s (S : 'M[R]_d) : shv s S -> shv (nscale c s) (c *: S).
Proof. by case=> [[v -> ->]|->]; [left; exists (c *: v); rewrite ?rowbZ|right]. Qed.

Lemma gmul_natv d a b c (u v : 'M[R]_d * 'M[R]_d) : gmul illcond a b = Ok c -> natv a u -> natv b v -> natv c (u + v).
Proof.
move=> h /natvE [pa sa _ [ta ha ha']] /natvE [pb sb _ [tb hb hb']]; apply/natvE.
have [r hr hr'] := nadd_shv ha' hb'.
have sab : (u.1 + v.1)^T = u.1 + v.1 by rewrite linearD /= sa sb.
move: h; rewrite /gmul pa bindE pb bindE naddmm bindE symmetrize_sym // bindE ha bindE hb bindE hr bindE.
case=> <-; split=> //=; exists r => //; congr Ok; exact: natleast1_shv hr'.
Qed.
Lemma gdiv_natv d a b c (u v : 'M[R]_d * 'M[R]_d) : gdiv illcond a b = Ok c -> natv a u -> natv b v -> natv c (u - v).
Proof.
move=> h /natvE [pa sa _ [ta ha ha']] /natvE [pb sb _ [tb hb hb']]; apply/natvE.
have [r hr hr'] := nsub_shv ha' hb'.
have sab : (u.1 - v.1)^T = u.1 - v.1 by rewrite linearB /= sa sb.
move: h; rewrite /gdiv pa bindE pb bindE nsubmm bindE ha bindE hb bindE hr bindE.
case=> <-; split=> //=; exists r => //; congr Ok; exact: natleast1_shv hr'.
Qed.
Lemma gpow_natv d a p c (u : 'M[R]_d * 'M[R]_d) : gpow illcond a p = Ok c -> natv a u -> natv c (p *: u).
Proof.
move=> h /natvE [pa sa _ [ta ha ha']]; apply/natvE.
move: h; rewrite /gpow pa bindE ha bindE => -[<-]; split=> //=; first by rewrite linearZ /= sa.
have h := nscale_shv p ha'; exists (nscale p ta) => //; congr Ok; exact: natleast1_shv h.
Qed.

Lemma natv_factor d : natv (as_factor d) (0 : 'M[R]_d * 'M[R]_d).
Proof. by split; rewrite /= ?trmx0 //; left; exists 0; rewrite ?rowb0. Qed.

Lemma natv_marginal d : ~~ illcond (large_num R *: 1%:M : 'M[R]_d) ->
  natv (as_marginal d) ((trace_min R *: 1%:M : 'M[R]_d), 0).
Proof.
move=> ic; have [h1 h2 h3] := natp_mom (illcond := illcond) (0 : 'cV_d) (posdefZ1 d (large_gt0 R)) ic.
have e : invmx (large_num R *: 1%:M : 'M[R]_d) = trace_min R *: 1%:M by rewrite scalemx1 invmx_scalar -scalemx1.
rewrite e in h1 h2 h3; split=> //; first by exists (large_num R *: 1%:M).
left; exists 0; rewrite ?rowb0 //.
by rewrite /as_marginal /gaussian h2 mulmx0.
Qed.

(** natural parameters read by the getters are unique *)
Lemma natv_fun d g (u v : 'M[R]_d * 'M[R]_d) : natv g u -> natv g v -> u = v.
Proof.
case: u v => [u1 u2] [v1 v2] [/= e1 _ _ h] [/= e2 _ _ h']; congr (_, _).
  by move: e2; rewrite e1 => /Ok_inj/Nd2_inj.
case: h h' => [[v e ->]|e] [[w e' ->]|e']; move: e'; rewrite e => /Ok_inj //.
  by move/Nd1_inj ->.
by move/Nd2_inj.
Qed.

(** states that the projections of MomentMatching/Estimator.py return: symmetric positive-definite
    covariance, mean of shape (d,) or (d,d) *)
Lemma natv_mom d (m : 'cV[R]_d) (P : 'M[R]_d) : posdef P -> ~~ illcond P ->
  natv (gaussian (Nd1 m) (Nd2 P)) (invmx P, rowb (invmx P *m m)).
Proof.
by move=> pP ic; have [h1 h2 h3] := natp_mom (illcond := illcond) m pP ic; split=> //; [by exists P|left; eexists; first exact: h2].
Qed.
Lemma natv_mom2 d (M : 'M[R]_d) (P : 'M[R]_d) : posdef P -> ~~ illcond P ->
  natv (gaussian (Nd2 M) (Nd2 P)) (invmx P, invmx P *m M).
Proof.
move=> pP ic; have e : moment_to_natural illcond (Nd2 M) (Nd2 P) = Ok (Nd2 (invmx P), Nd2 (invmx P *m M)).
  rewrite /moment_to_natural /= bindE sp_solve_pos_pd //= bindE symmetrize_inv ?pP.1 // bindE.
  by rewrite nmatmulmm.
split; rewrite /= ?e //; first exact: sym_inv pP.1.
  by exists P.
by right.
Qed.


(** *** The chain of nodes.  [Fn], [Hn], [Y], [W]: transition and measurement functions,
    observations, the rest of the world *)
Variables (Fn Hn Y W : Type).
Variable d : nat.
Notation node := (node (gauss R) R Fn Hn Y W).
Notation heap := (heap (gauss R) R Fn Hn Y W).
Notation state := (state (gauss R) R Fn Hn Y W).
Notation estimator := (estimator (gauss R) R Fn Hn Y W).
Notation do_ev := (@do_ev (gauss R) R Fn Hn Y W (gmul illcond) (gdiv illcond) (gpow illcond)
  (gvalidate illcond) r_one_over r_one_minus r_sdiv).
Definition gschedule := @schedule (gauss R) R Fn Hn Y W (gmul illcond) (gdiv illcond) (gpow illcond)
  (gvalidate illcond) r_one_over r_one_minus r_sdiv.

(** a Gaussian over R^d whose natural parameters can be read *)
Definition dgauss (g : gauss R) : Prop := exists u : 'M[R]_d * 'M[R]_d, natv g u.
(** reading the natural parameters of [g] succeeds *)
Definition readg (g : gauss R) : Prop := exists p s, g_precision illcond g = Ok p /\ g_shift illcond g = Ok s.
(** admissible functions and observations *)
Variables (okf : option Fn -> Prop) (okh : option Hn -> Prop) (oky : Y -> Prop).
(** the projections of [e] map Gaussians over R^d to Gaussians over R^d or to unreadable ones *)
Definition good_estimator (e : estimator) : Prop :=
  [/\ forall f c w w' s, okf f -> dgauss c -> e_trans e f c w = (w', Ok s) -> readg s -> dgauss s,
      forall h c y w w' s, okh h -> oky y -> dgauss c -> e_meas e h c y w = (w', Ok s) -> readg s -> dgauss s &
      forall f c c' g w w' s, okf f -> dgauss c -> dgauss c' -> dgauss g ->
        e_back e f c c' (Some g) w = (w', Ok s) -> readg s -> dgauss s].

Lemma readable_readg s : @readable (gauss R) R (gdiv illcond) (gpow illcond) s -> readg s.
Proof.
case=> [[p [c]]|[b [c]]]; rewrite /gpow /gdiv.
  case E1: (g_precision illcond s) => [x|//]; rewrite bindE; case E2: (g_shift illcond s) => [y|//] _.
  by exists x, y.
case E1: (g_precision illcond s) => [x|//]; rewrite bindE; case: (g_precision illcond b) => [x'|//]; rewrite bindE.
case: (nsub x x') => [p|//]; rewrite bindE; case E2: (g_shift illcond s) => [y|//] _.
by exists x, y.
Qed.

(** data of a node is admissible *)
Definition data_ok (n : node) : Prop :=
  [/\ okf (n_trans n), okh (n_measf n), forall y, n_y n = Some y -> oky y & forall g, n_prior n = Some g -> dgauss g].

(** freshly built nodes that carry estimator [e] *)
Definition fresh_node (e : estimator) (n : node) : Prop :=
  [/\ n_marg n = (@as_marginal R d), n_fwd n = (@as_factor R d), n_meas n = (@as_factor R d) & n_back n = (@as_factor R d)] /\
  [/\ n_power n = Some (if e_power e is Some p then p else 1), n_damp n = Some (if e_damp e is Some p then p else 1),
       kwval (n_ufwd n) None = Some (e_trans e), kwval (n_umeas n) None = Some (e_meas e) &
       kwval (n_uback n) None = Some (e_back e)].
Definition fresh_chain (e : estimator) (h : heap) : Prop := forall j n, lookup h j = Some n -> fresh_node e n.

Notation good_node := (@good_node R [lmodType R of 'M[R]_d * 'M[R]_d] _ R Fn Hn Y W (gdiv illcond) (gpow illcond)
  (@natv d) okf okh oky).
Definition equipped (e : estimator) (n : node) : Prop :=
  [/\ kwval (n_ufwd n) None = Some (e_trans e), kwval (n_umeas n) None = Some (e_meas e) &
      kwval (n_uback n) None = Some (e_back e)].
Lemma good_equipped e n : good_estimator e -> equipped e n -> data_ok n -> good_node n.
Proof.
move=> [g1 g2 g3] [h1 h2 h3] ok; split=> // p; rewrite ?h1 ?h2 ?h3 => -[<-].
- by move=> f c w w' s o hc e1 /readable_readg; exact: g1 o hc e1.
- by move=> f c y w w' s o oy hc e1 /readable_readg; exact: g2 o oy hc e1.
- by move=> f c c' g w w' s o hc hc' hg e1 /readable_readg; exact: g3 o hc hc' hg e1.
Qed.

Section Chain.
Variables (e : estimator) (h : heap) (w : W).
Let alpha := if e_power e is Some p then p else 1.
Let damp := if e_damp e is Some p then p else 1.
Hypotheses (ic : ~~ illcond (large_num R *: 1%:M : 'M[R]_d)) (ge : good_estimator e) (al0 : alpha != 0) (fc : fresh_chain e h).
Hypothesis (ok : forall j n, lookup h j = Some n -> data_ok n).

Lemma ep_state l : let h' := (gschedule l (h, w)).1 in
  [/\ forall j n, lookup h' j = Some n -> good_node n,
      forall j n, lookup h' j = Some n -> n_power n = Some alpha /\ n_damp n = Some damp &
      @consistent R [lmodType R of 'M[R]_d * 'M[R]_d] _ R Fn Hn Y W id (@natv d) (fun=> (trace_min R *: 1%:M, 0)) h'].
Proof.
have hg : forall j n, lookup (h, w).1 j = Some n -> good_node n.
  move=> j n /= hj; have [_ [_ _ h1 h2 h3]] := fc hj.
  by apply: good_equipped ge _ (ok hj); split.
have hc : @consistent R [lmodType R of 'M[R]_d * 'M[R]_d] _ R Fn Hn Y W id (@natv d)
    (fun=> (trace_min R *: 1%:M, 0)) (h, w).1.
  move=> j n /= hj; have [[h1 h2 h3 h4] [h5 _ _ _ _]] := fc hj.
  exists alpha, (trace_min R *: 1%:M, 0), 0, 0, 0; split=> //; last by rewrite !addr0 scaler0 addr0.
  by split; rewrite ?h1 ?h2 ?h3 ?h4; try exact: natv_factor; exact: natv_marginal.
have pw : forall j n, lookup (gschedule l (h, w)).1 j = Some n -> n_power n = Some alpha /\ n_damp n = Some damp.
  rewrite /gschedule; have : forall j n, lookup (h, w).1 j = Some n -> n_power n = Some alpha /\ n_damp n = Some damp.
    by move=> j n hj; case: (fc hj) => _ [].
  elim: l {hg hc} (h, w) => //= ev l IH st hst; apply: IH => j n.
  have /= := ev_outcome (gmul illcond) (gdiv illcond) (gpow illcond) (gvalidate illcond) r_one_over r_one_minus r_sdiv ev st.
  case=> [->|[n0 [f [m [h1 _ -> _]]]]]; first exact: hst.
  rewrite lookup_update; case: eqP => _; last exact: hst.
  by rewrite h1 /= => -[<-]; have := hst _ _ h1; case: (ev).
have [] := @ep_consistent R [lmodType R of 'M[R]_d * 'M[R]_d] (gauss R) R Fn Hn Y W (gmul illcond) (gdiv illcond)
  (gpow illcond) (gvalidate illcond) r_one_over r_one_minus r_sdiv id r_one_overE r_one_minusE r_sdivE
  (@natv d) (@gmul_natv d) (@gdiv_natv d) (@gpow_natv d) okf okh oky l _ _ hg hc.
by [].
Qed.

Lemma ep_chain l j n : lookup (gschedule l (h, w)).1 j = Some n ->
  exists m f z b : 'M[R]_d * 'M[R]_d, [/\ natv (n_marg n) m, natv (n_fwd n) f, natv (n_meas n) z, natv (n_back n) b &
    m = (trace_min R *: 1%:M, 0) + alpha^-1 *: (f + z + b)].
Proof.
move=> hj; have [_ pw hc] := ep_state l; have [p [m [f [z [b [h1 h2 [h3 h4 h5 h6] h7]]]]]] := hc j n hj.
exists m, f, z, b; split=> //; rewrite h7; congr (_ + _ *: _); congr (_^-1).
by move: h1; rewrite (pw j n hj).1 => -[].
Qed.
End Chain.

Lemma ep_damped (e : ev) (st : state) n (um : 'M[R]_d * 'M[R]_d) :
  (if e is Fwd _ then False else True) ->
  (forall j x, lookup st.1 j = Some x -> good_node x) ->
  (forall j x, lookup st.1 j = Some x -> [/\ dgauss (n_marg x), dgauss (n_fwd x), dgauss (n_meas x) & dgauss (n_back x)]) ->
  lookup st.1 (ev_node e) = Some n -> natv (n_marg n) um ->
  (do_ev e st).1.1 = st.1 \/
  exists n' dm pw s (us : 'M[R]_d * 'M[R]_d), [/\ lookup (do_ev e st).1.1 (ev_node e) = Some n', n_damp n = Some dm /\ n_power n = Some pw,
    produced (gdiv illcond) (gpow illcond) r_one_over st.1 e n s, natv s us & natv (n_marg n') (um + (dm / pw) *: (us - um))].
Proof.
move=> h1 h2 h3 h4 h5.
exact: (@damped_move R [lmodType R of 'M[R]_d * 'M[R]_d] (gauss R) R Fn Hn Y W (gmul illcond) (gdiv illcond)
  (gpow illcond) (gvalidate illcond) r_one_over r_one_minus r_sdiv id r_sdivE
  (@natv d) (@gmul_natv d) (@gdiv_natv d) (@gpow_natv d) okf okh oky e st n um h1 h2 h3 h4 h5).
Qed.

(** ... in a chain reached by any schedule *)
Lemma ep_damped_chain (e : estimator) h w l ev n um : let st := gschedule l (h, w) in
  let alpha := if e_power e is Some p then p else 1 in let damp := if e_damp e is Some p then p else 1 in
  ~~ illcond (large_num R *: 1%:M : 'M[R]_d) -> good_estimator e -> alpha != 0 -> fresh_chain e h ->
  (forall j n, lookup h j = Some n -> data_ok n) ->
  (if ev is Fwd _ then False else True) -> lookup st.1 (ev_node ev) = Some n -> natv (n_marg n) um ->
  (do_ev ev st).1.1 = st.1 \/
  exists n' s (us : 'M[R]_d * 'M[R]_d), [/\ lookup (do_ev ev st).1.1 (ev_node ev) = Some n',
    produced (gdiv illcond) (gpow illcond) r_one_over st.1 ev n s, natv s us & natv (n_marg n') (um + (damp / alpha) *: (us - um))].
Proof.
move=> st alpha damp ic ge al0 fc ok hev hn hu; have [hg pw hc] := ep_state w ic ge al0 fc ok l.
have hd : forall j x, lookup st.1 j = Some x -> [/\ dgauss (n_marg x), dgauss (n_fwd x), dgauss (n_meas x) & dgauss (n_back x)].
  move=> j x hj; have [p [m [f [z [b [h1 h2 [h3 h4 h5 h6] h7]]]]]] := hc j x hj.
  by split; [exists m|exists f|exists z|exists b].
case: (ep_damped hev hg hd hn hu) => [->|[n' [dm [p [s [us [h1 [h2 h3] h4 h5 h6]]]]]]]; first by left.
right; exists n', s, us; split=> //; have [e1 e2] := pw _ _ hn.
have ed : dm = damp by move: h2; rewrite e2 => -[].
have ep : p = alpha by move: h3; rewrite e1 => -[].
by rewrite -ed -ep.
Qed.

(** building a chain and attaching a system leaves it fresh *)
Lemma setup_fresh (Kw T Y0 : Type) t_zero tadd (kw_tu0 : T -> Kw) squeeze N (e : estimator) sy (ys : seq Y0) fa w : (1 < N)%N ->
  let nodes := iota 0 N in
  fresh_chain e (@node_system (gauss R) R Fn Hn Y W Kw T Y0 t_zero tadd kw_tu0 squeeze nodes sy ys fa
    (@build_nodes (gauss R) R Fn Hn Y W (@as_factor R) (@as_marginal R) 1 Kw T N d (Some e) None ([::], w)).1).1.1.
Proof.
move=> hN nodes.
have := @build_nodes_spec (gauss R) R Fn Hn Y W (@as_factor R) (@as_marginal R) 1 Kw T N d (Some e) None [::] w hN.
case: build_nodes => -[h w'] r /= [_ hs _ _ hb].
have hfr : fresh_chain e h.
  move=> j n hj; have hlt : (j < N)%N by rewrite -[N]add0n -hs; exact: lookup_some hj.
  have := hb j hlt; rewrite add0n hj => -[->] /=; split=> //; split=> //; exact: kwval_partial.
rewrite /node_system /mbind.
set z := zip3 _ _ _.
have := @lookup_mfor_put (gauss R) R Fn Hn Y W _ z (fun a => a.1.1) (fun a => assign squeeze sy a.2 a.1.2) (h, w')
  (fun _ n => fresh_node e n) (fun _ _ _ x => x) hfr.
have := @mfor_put_ok (gauss R) R Fn Hn Y W _ z (fun a => a.1.1) (fun a => assign squeeze sy a.2 a.1.2) (h, w').
case: mfor => -[h1 w1] r1 /= -> hf.
case: [seq _ | _ <- z] => [|i l] //=.
move=> j n; rewrite lookup_update; case: eqP => [_|_]; last exact: hf.
by case E: (lookup h1 i) => [x|] //= [<-]; exact: hf E.
Qed.

Lemma setup_data (Kw T Y0 : Type) t_zero tadd (kw_tu0 : T -> Kw) squeeze N (e : estimator) sy (ys : seq Y0) fa w : (1 < N)%N ->
  let nodes := iota 0 N in
  okf None -> okh None -> (forall kw, okf (Some (sy_trans sy kw))) -> okh (Some (sy_meas sy)) -> (forall y, oky (squeeze y)) ->
  dgauss (sy_init sy) ->
  forall j n, lookup (@node_system (gauss R) R Fn Hn Y W Kw T Y0 t_zero tadd kw_tu0 squeeze nodes sy ys fa
    (@build_nodes (gauss R) R Fn Hn Y W (@as_factor R) (@as_marginal R) 1 Kw T N d (Some e) None ([::], w)).1).1.1 j = Some n ->
  data_ok n.
Proof.
move=> hN nodes f0 h0 hf hh hy hi.
have := @build_nodes_spec (gauss R) R Fn Hn Y W (@as_factor R) (@as_marginal R) 1 Kw T N d (Some e) None [::] w hN.
case: build_nodes => -[h w'] r /= [_ hs _ _ hb].
have hfr : forall j n, lookup h j = Some n -> data_ok n.
  move=> j n hj; have hlt : (j < N)%N by rewrite -[N]add0n -hs; exact: lookup_some hj.
  by have := hb j hlt; rewrite add0n hj => -[->] /=.
rewrite /node_system /mbind.
set z := zip3 _ _ _.
have := @lookup_mfor_put (gauss R) R Fn Hn Y W _ z (fun a => a.1.1) (fun a => assign squeeze sy a.2 a.1.2) (h, w')
  (fun _ n => data_ok n) _ hfr.
have := @mfor_put_ok (gauss R) R Fn Hn Y W _ z (fun a => a.1.1) (fun a => assign squeeze sy a.2 a.1.2) (h, w').
case: mfor => -[h1 w1] r1 /= -> hq.
have hf' : forall j n, lookup h1 j = Some n -> data_ok n.
  apply: hq => a _ n [a1 a2 a3 a4]; split=> //=.
  by move=> y [<-].
case: [seq _ | _ <- z] => [|i l] //=.
move=> j n; rewrite lookup_update; case: eqP => [_|_]; last exact: hf'.
by case E: (lookup h1 i) => [x|] //= [<-]; have [a1 a2 a3 a4] := hf' _ _ E; split=> // g [<-].
Qed.

Lemma posdef_mix (A B : 'M[R]_d) g : 0 <= g <= 1 -> posdef A -> posdef B -> posdef ((1 - g) *: A + g *: B).
Proof.
case/andP=> g0 g1 pA pB; case: (ltrP 0 g) => h.
  by apply: posdefDr; [apply: possemiZ; [rewrite subr_ge0|exact: posdef_semi]|exact: posdefZ].
have -> : g = 0 by apply/eqP; rewrite eq_le h g0.
by rewrite subr0 scale0r addr0 scale1r.
Qed.

End EPGauss.
