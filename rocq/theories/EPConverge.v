(** * Fair schedules of node updates converge to the smoother; the passes of [ep_update] *)
Set Warnings "-notation-overridden,-ambiguous-paths".
From mathcomp Require Import all_ssreflect all_algebra.
From Verif Require Import Base ND NDFacts PosDef LinAlg LinAlgFacts Gauss GaussFacts Nodes NodesFacts EPInv EPGauss
  Transforms TransformFacts Estimator EstimatorFacts EPEst SpecGauss SpecAssumed SpecBP SpecLimit LimitFacts EPValue EPChain EPSweep EPSetup
  EPPower EPBelief EPLimit EPCase Prop_EP Prop_EPKalman EPPowerRun.
Set Implicit Arguments.
Unset Strict Implicit.
Unset Printing Implicit Defensive.
Import GRing.Theory Num.Theory Order.Theory.
Local Open Scope ring_scope.

(** every update of every node occurs again and again *)
Definition fair (N : nat) (s : nat -> ev) : Prop :=
  forall e, (ev_node e < N)%N -> forall t, exists2 t' : nat, (t <= t')%N & s t' = e.
(** every update of every node occurs in the list *)
Definition covers (N : nat) (l : seq ev) : Prop := forall e, (ev_node e < N)%N -> exists2 j : nat, (j < size l)%N & nth (Fwd 0) l j = e.
(** the updates of ep_update *)
Definition update_events (n : nat) : seq ev := flatten [seq [:: Fwd i; Meas i; Back i] | i <- iota 0 n].

Definition occurs (e : ev) (l : seq ev) := exists2 j : nat, (j < size l)%N & nth (Fwd 0) l j = e.
Lemma occurs_catl e l l' : occurs e l -> occurs e (l ++ l').
Proof. by case=> j hj h; exists j; [rewrite size_cat ltn_addr|rewrite nth_cat hj]. Qed.
Lemma occurs_catr e l l' : occurs e l' -> occurs e (l ++ l').
Proof. by case=> j hj h; exists (size l + j)%N; [rewrite size_cat ltn_add2l|rewrite nth_cat ltnNge leq_addr /= addKn]. Qed.
Lemma occurs_flat e (h : nat -> seq ev) n j : (j < n)%N -> occurs e (h j) -> occurs e (flatten [seq h i | i <- iota 0 n]).
Proof.
elim: n => // n IH hj ho; rewrite -addn1 iotaD map_cat flatten_cat; move: hj; rewrite ltnS leq_eqVlt => /orP[/eqP<-|hj].
  by apply: occurs_catr; rewrite /= cats0.
by apply: occurs_catl; exact: IH.
Qed.
Lemma update_covers N : covers N (update_events N).
Proof. by move=> e he; apply: (occurs_flat he); case: e {he} => j; [exists 0%N|exists 1%N|exists 2%N]. Qed.
Lemma sweep_covers N : covers N (sweep_events N).
Proof.
move=> e; case: e => j /= hj; last first.
- have hq : (N - j.+1 < N)%N by rewrite ltn_subrL /= (leq_ltn_trans _ hj).
  apply: occurs_catr; exists (N - j.+1)%N; rewrite /smooth_events; first by rewrite size_map size_rev size_iota.
  rewrite (nth_map 0%N) ?size_rev ?size_iota // nth_rev ?size_iota // subnSK // subKn; last exact: ltnW.
  by rewrite nth_iota.
- by apply: occurs_catl; apply: (occurs_flat hj); exists 1%N.
- by apply: occurs_catl; apply: (occurs_flat hj); exists 0%N.
Qed.
Lemma update_ok N : all (fun e => ev_node e < N)%N (update_events N).
Proof.
have h l : all (fun i => i < N)%N l -> all (fun e => ev_node e < N)%N (flatten [seq [:: Fwd i; Meas i; Back i] | i <- l]).
  by elim: l => //= i l IH /andP[-> /IH].
by apply: h; apply/allP => i; rewrite mem_iota.
Qed.

Section Update.
Variables (R : rcfType) (k : nat) (S : lgssm R 1 k) (y : nat -> 'cV[R]_k) (N : nat) (c g : R).
Notation msgs := (msgs R).
Notation brun l x := (bp_run S y N c g l x).
Notation fT := (fT (aff_model S) y c).
Notation zT := (zT (aff_model S) y c).
Notation bT := (bT N (aff_model S) y c).
Notation mixed := (mixed g).
Lemma update_eventsS n : update_events n.+1 = update_events n ++ [:: Fwd n; Meas n; Back n].
Proof. by rewrite /update_events -addn1 iotaD map_cat flatten_cat. Qed.
Lemma update_part x i : let X := brun (map to_msg (update_events i)) x in
  [/\ forall j, (j < i)%N -> left X j = mixed (left x j) (left_msg S c X j) /\ obs X j = mixed (obs x j) (obs_msg S y j),
      forall j, (i <= j)%N -> left X j = left x j /\ obs X j = obs x j &
      forall j, right X j = if (j < i)%N && (j.+1 < N)%N then mixed (right x j) (right_msg S c x j) else right x j].
Proof.
elim: i => [|i [h1 h2 h3]]; first by [].
cbv zeta; rewrite update_eventsS map_cat brun_cat.
set X0 := brun _ x in h1 h2 h3 *; have [e1 e2] := h2 i (leqnn i); clearbody X0.
rewrite [map _ [:: _; _; _]]/= /bp_run [foldl _ _ _]/=.
set X1 := Msgs _ (toward _ (obs X0) _ _) (right X0); set X := if _ then _ else _.
have eX : left X =1 left X1 /\ obs X =1 obs X1 by rewrite /X; case: ifP.
have e0 j : (j < i)%N -> left X j = left X0 j /\ obs X j = obs X0 j.
  by move=> hj; have [-> ->] := eX; rewrite /X1 /= /toward (ltn_eqF hj).
have eXi : left X i = mixed (left x i) (left_msg S c X0 i) /\ obs X i = mixed (obs x i) (obs_msg S y i).
  by have [-> ->] := eX; rewrite /X1 /= /toward eqxx e1 e2.
have eXo j : (i < j)%N -> left X j = left X0 j /\ obs X j = obs X0 j.
  by move=> hj; have [-> ->] := eX; rewrite /X1 /= /toward (gtn_eqF hj).
have rX : right X i = if (i.+1 < N)%N then mixed (right x i) (right_msg S c x i) else right x i.
  rewrite /X; have r0 : right X1 i = right x i by rewrite /X1 /= h3 ltnn.
  case: ifP => hi; last exact: r0.
  have [_ o1] := h2 i.+1 (leqnSn i).
  have em : right_msg S c X1 i = right_msg S c x i.
    apply: right_msg_eq; first by rewrite /X1 /= /toward (gtn_eqF (ltnSn i)).
    by rewrite [LHS]h3 (ltnNge i.+1) leqnSn.
  have {}r0 : right X0 i = right x i := r0.
  by rewrite -em [LHS]/= /toward eqxx r0.
have rXo j : j != i -> right X j = right X0 j.
  move=> /negbTE hj; rewrite /X; case: ifP => _; last exact: erefl.
  by rewrite [LHS]/= /toward hj.
clearbody X; clear X1 eX; split=> [j hj|j hj|j].
- rewrite (@left_msg_eq _ _ S c X X0) => [|l hl]; last by apply: e0; apply: leq_trans hl _; rewrite -ltnS.
  move: hj; rewrite ltnS leq_eqVlt => /orP[/eqP->|hj]; first exact: eXi.
  by have [-> ->] := e0 j hj; exact: h1.
- by have [-> ->] := eXo j hj; exact/h2/ltnW.
have [->|nj] := eqVneq j i; first by rewrite ltnSn.
by rewrite (rXo _ nj) h3 ltnS [(j <= i)%N]leq_eqVlt (negbTE nj).
Qed.
(** [n] passes *)
Fixpoint updated (n : nat) (x : msgs) : msgs := if n is n'.+1 then brun (map to_msg (update_events N)) (updated n' x) else x.
Lemma updated_eqs n x i : (i < N)%N -> let X := updated n.+1 x in
  [/\ left X i = mixed (left (updated n x) i) (left_msg S c X i), obs X i = mixed (obs (updated n x) i) (obs_msg S y i) &
      right X i = if (i.+1 < N)%N then mixed (right (updated n x) i) (right_msg S c (updated n x) i) else right (updated n x) i].
Proof. by move=> hi X; have [h1 h2 h3] := update_part (updated n x) N; have [e1 e2] := h1 i hi; split=> //; rewrite h3 hi. Qed.
Lemma updated_ends n x : ends N x -> ends N (updated n x).
Proof. by move=> hx; elim: n => [|n IH] //=; elim: (map _ _) (updated n x) IH => //= m l IH' z hz; apply/IH'/ends_step. Qed.

(** undamped, [N] passes carry every measurement back to the first node *)
Lemma updated_best n x : g = 1 -> 0 < c -> noise_ok S -> (0 < N)%N -> ends N x -> (0 < n)%N -> forall i, (i < N)%N ->
  [/\ left (updated n x) i = fT i, obs (updated n x) i = zT i & (N <= i + n)%N -> right (updated n x) i = bT i].
Proof.
move=> g1 c0 ok N0 hx; have m1 u v : mixed u v = v by rewrite /EPBelief.mixed g1 scale1r addrC subrK.
have hl m i : (i < N)%N -> left (updated m.+1 x) i = fT i /\ obs (updated m.+1 x) i = zT i.
  elim/ltn_ind: i => i IH hi; have [e1 e2 _] := updated_eqs m x hi; rewrite e1 e2 !m1; split; last exact: obs_best.
  rewrite -(left_best y c0 ok hi); apply: left_msg_eq => j hj; exact: IH (ltn_trans hj hi).
case: n => // n _; elim: n => [|n IH] i hi.
  have [a1 a2] := hl 0%N i hi; split=> //; rewrite addn1 => hN; have ei : i = N.-1 by apply/eqP; rewrite -eqSS prednK // eqn_leq hi.
  by rewrite ei (right_last S y c N0); exact: (updated_ends 1 hx).
have [a1' a2'] := hl n.+1 i hi; split=> // hN; have [hi1|hi1] := boolP (i.+1 < N)%N.
  have [_ _ ->] := updated_eqs n.+1 x hi; rewrite hi1 m1 -(right_best y c0 ok hi1); have [_ b2 b3] := IH _ hi1.
  by apply: right_msg_eq => //=; apply: b3; rewrite addSnnS.
have ei : i = N.-1 by apply/eqP; rewrite -eqSS prednK // eqn_leq hi leqNgt.
by rewrite ei (right_last S y c N0); exact: (updated_ends n.+2 hx).
Qed.
Lemma updated_run n x : updated n x = brun (map to_msg (flatten (nseq n (update_events N)))) x.
Proof.
elim: n x => [|n IH] x //; have -> : nseq n.+1 (update_events N) = nseq n (update_events N) ++ [:: update_events N].
  by rewrite -[[:: _]]/(nseq 1 _) -nseqD addn1.
by rewrite flatten_cat /= cats0 map_cat brun_cat -IH.
Qed.
End Update.

(** a pass moves a measurement back by one node only *)
Section Horizon.
Variables (R : rcfType) (k : nat) (S : lgssm R 1 k) (y y' : nat -> 'cV[R]_k) (N : nat) (c g : R).
Notation X n := (updated S y N c g n (@silent R)).
Notation X' n := (updated S y' N c g n (@silent R)).
Lemma horizon n i : (i < N)%N ->
  [/\ (forall j, (j < i)%N -> y j = y' j) -> left (X n) i = left (X' n) i,
      ((0 < n)%N -> forall j, (j <= i)%N -> y j = y' j) -> obs (X n) i = obs (X' n) i &
      (forall j, (j < i + n)%N -> y j = y' j) -> right (X n) i = right (X' n) i].
Proof.
elim: n i => [|n IH] i hi; first by [].
have E j hj := @updated_eqs _ _ S y N c g n (@silent R) j hj; have E' j hj := @updated_eqs _ _ S y' N c g n (@silent R) j hj.
cbv zeta in E, E'; move: (X n.+1) (X' n.+1) (X n) (X' n) E E' IH => X1 X1' X0 X0' E E' IH.
have ho j : (j < N)%N -> (forall l, (l <= j)%N -> y l = y' l) -> obs X1 j = obs X1' j.
  move=> hj hy; have [_ -> _] := E j hj; have [_ -> _] := E' j hj.
  have [_ h _] := IH j hj; by rewrite h // /obs_msg hy.
split=> [|hy|hy]; last 1 first.
- have [_ _ ->] := E i hi; have [_ _ ->] := E' i hi.
  have hyn j : (j < i + n)%N -> y j = y' j by move=> hj; apply: hy; rewrite addnS; exact: leqW.
  have [_ _ h] := IH i hi; rewrite (h hyn); case: ifP => // hi1; have [_ h2 h3] := IH _ hi1.
  congr (mixed _ _ _); apply: right_msg_eq; last by apply: h3 => j hj; apply: hy; rewrite addnS -addSn.
  by apply: h2 => n0 j hj; apply: hy; rewrite -(prednK n0) !addnS ltnS; exact: leq_trans hj (leq_addr _ _).
- elim/ltn_ind: i hi => i IHi hi hy; have [-> _ _] := E i hi; have [-> _ _] := E' i hi.
  have [h _ _] := IH i hi; rewrite (h hy); congr (mixed _ _ _); apply: left_msg_eq => j hj; have hj' := ltn_trans hj hi; split.
    by apply: IHi => // l hl; apply: hy; exact: ltn_trans hj.
  by apply: ho => // l hl; apply: hy; exact: leq_ltn_trans hj.
- by apply: ho => //; exact: hy.
Qed.
Lemma horizon_belief n i : (i < N)%N -> (forall j, (j < i + n)%N -> y j = y' j) -> belief c (X n) i = belief c (X' n) i.
Proof.
move=> hi hy; have [h1 h2 h3] := horizon n hi; rewrite /belief (h3 hy) h1 ?h2; first exact: erefl.
  by move=> n0 j hj; apply: hy; rewrite -(prednK n0) addnS ltnS; exact: leq_trans hj (leq_addr _ _).
by move=> j hj; apply: hy; exact: leq_trans hj (leq_addr _ _).
Qed.
End Horizon.

Section Props.
Variable R : rcfType.
Variable illcond : forall n, 'M[R]_n -> bool.
Variable W : Type.
Notation nd := (nd R).
Notation gauss := (gauss R).
Notation dfun := (dfun R).
Notation transform := (transform R W).
Notation state := (state gauss R dfun dfun nd W).
Notation ep_run := (@ep_run R illcond W).
Notation ep_sweep := (@ep_sweep R illcond W).
Notation holds := (@holds R illcond W).
Notation c := (trace_min R).
(** Iterations.py:38-42 *)
Definition ep_update (nodes : seq nat) (st : state) := @Nodes.ep_update gauss R dfun dfun nd W (gmul illcond) (gdiv illcond)
  (gpow illcond) (gvalidate illcond) (@r_one_over R) (@r_one_minus R) (@r_sdiv R) nodes st.
(** [n] times, until one raises *)
Fixpoint repeated (f : state -> state * res unit) (n : nat) (st : state) : state * res unit :=
  if n is n'.+1 then let: (st', r) := repeated f n' st in if r is Ok _ then f st' else (st', r) else (st, Ok tt).

Lemma update_run n st : ep_update (iota 0 n) st = ep_run (update_events n) st.
Proof.
rewrite /ep_update /Nodes.ep_update /update_events /Prop_EPKalman.ep_run; elim: (iota 0 n) st => //= i l IH st.
rewrite mbindA; apply: mbind_ext => _ st1; rewrite mbindA; apply: mbind_ext => _ st2; exact: mbind_ext.
Qed.
Lemma repeated_run (f : state -> state * res unit) l n st : (forall st, f st = ep_run l st) ->
  repeated f n st = ep_run (flatten (nseq n l)) st.
Proof.
move=> hf; elim: n => [|n IH] //.
have -> : nseq n.+1 l = nseq n l ++ [:: l] by rewrite -[[:: _]]/(nseq 1 _) -nseqD addn1.
rewrite flatten_cat [flatten [:: l]]/= cats0 /Prop_EPKalman.ep_run run_cat /mbind [LHS]/= IH /Prop_EPKalman.ep_run.
by case: (run _ _ _ _ _ _ _ _) => st' [u|e] //; rewrite hf.
Qed.
(** lists of updates that occur again and again *)
Definition cycle (l : seq ev) (t : nat) : ev := nth (Fwd 0) l (t %% size l).
Lemma cycle_run l n : mkseq (cycle l) (n * size l) = flatten (nseq n l).
Proof.
elim: n => [|n IH] //; rewrite mulSnr /mkseq iotaD add0n map_cat -/(mkseq _ _) IH.
have -> : nseq n.+1 l = nseq n l ++ [:: l] by rewrite -[[:: _]]/(nseq 1 _) -nseqD addn1.
rewrite flatten_cat /= cats0; congr (_ ++ _); apply: (@eq_from_nth _ (Fwd 0)); rewrite size_map size_iota // => j hj.
by rewrite (nth_map 0%N) ?size_iota // nth_iota // /cycle modnMDl modn_small.
Qed.
Lemma cycle_fair N l : covers N l -> fair N (cycle l).
Proof.
move=> hl e he t; have [j hj hn] := hl e he; exists (t * size l + j)%N; last by rewrite /cycle modnMDl modn_small.
by apply: leq_trans (leq_addr _ _); rewrite leq_pmulr // (leq_ltn_trans _ hj).
Qed.
Variables (Kw T : Type) (t_zero : T) (tadd : T -> T -> T) (kw_tu0 : T -> Kw).
Notation system := (system gauss dfun dfun Kw T).
Section Model.
Variables (k : nat) (tm mm : transform) (S : lgssm R 1 k) (y : nat -> 'cV[R]_k) (sy : system) (kws : nat -> Kw) (ys : seq nd)
  (fa : option (seq Kw)) (w : W).
Notation N := (size ys).
Notation A := (affine_approx S).
Notation start p g := (power_start illcond t_zero tadd kw_tu0 tm mm S sy ys fa w p g).
Notation exact_model := (exact_model illcond t_zero tadd kw_tu0 tm mm S y sy kws ys fa).
Notation gentle := (gentle S ys).
Notation nodes_ok := (nodes_ok ys).
Notation beliefs := (beliefs S y ys).
Hypotheses (ic : regular illcond) (hm : exact_model).
Let c0 := trace_min_gt0 R.
Let okN : noise_ok S. Proof. by have [] := hm. Qed.
Let N0 : (0 < N)%N. Proof. by have [_ _ _ /ltnW] := hm. Qed.
Lemma mk11 (a : 'M[R]_1) : a = (a 0 0)%:M. Proof. exact: mx11_scalar. Qed.
Lemma conv_fair p g s : archimedean R -> gentle p -> 0 < g <= 1 -> (forall t, ev_node (s t) < N)%N -> fair N s ->
  forall i, (i < N)%N -> exists m P : nat -> R,
  [/\ forall t, exists st : state, ep_run (mkseq s t) (start p g) = (st, Ok tt) /\ holds st i ((m t)%:M, (P t)%:M),
      tends m ((a_smooth A y c N i.+1).1 0 0) & tends P ((a_smooth A y c N i.+1).2 0 0)].
Proof.
move=> ar hp g01 hs hf i hi; have g01' : 0 <= g <= 1 by have /andP[/ltW -> ->] := g01.
have often m t : (match m with Left j | Obs j | Right j => j end < N)%N -> exists2 t' : nat, (t <= t')%N & to_msg (s t') = m.
  by case: m => j hj; [case: (hf (Fwd j) hj t)|case: (hf (Meas j) hj t)|case: (hf (Back j) hj t)] => t' ht e; exists t' => //; rewrite e.
have hx : ends N (@silent R) by [].
have [h1 h2] := @moments_tends R k S y N c g c0 okN ar g01 N0 (fun t => to_msg (s t)) (@silent R) often hx i hi.
exists (fun t => (mean_cov (belief c (beliefs g (mkseq s t)) i)).1 0 0), (fun t => (mean_cov (belief c (beliefs g (mkseq s t)) i)).2 0 0).
have ea t : EPLimit.after S y N c g (fun t => to_msg (s t)) (@silent R) t = beliefs g (mkseq s t).
  by rewrite /EPLimit.after /EPPowerRun.beliefs /mkseq -map_comp.
split=> [t||].
- have hl : nodes_ok (mkseq s t) by apply/(all_nthP (Fwd 0)) => j; rewrite size_mkseq => hj; rewrite nth_mkseq.
  have [st [r1 r2]] := pow_run w ic hm hp g01' hl; exists st; split=> //.
  have [x1 _ _] := reachN hm (mkseq s t) g01'.
  rewrite -[X in holds _ _ (X, _)]mk11 -[X in holds _ _ (_, X)]mk11 -surjective_pairing.
  exact: coded_holds r2 x1 hi.
- by apply: tends_ext h1 => t; rewrite ea /mean_cov [RHS]/= mul11 inv11E.
- by apply: tends_ext h2 => t; rewrite ea /mean_cov [RHS]/= inv11E.
Qed.
Lemma conv_passes p g l0 l (f : state -> state * res unit) : archimedean R -> gentle p -> 0 < g <= 1 -> nodes_ok l0 -> nodes_ok l ->
  covers N l -> (forall st, f st = ep_run l st) ->
  exists st0 : state, ep_run l0 (start p g) = (st0, Ok tt) /\ forall i, (i < N)%N -> exists m P : nat -> R,
  [/\ forall n, exists st : state, repeated f n st0 = (st, Ok tt) /\ holds st i ((m n)%:M, (P n)%:M),
      tends m ((a_smooth A y c N i.+1).1 0 0) & tends P ((a_smooth A y c N i.+1).2 0 0)].
Proof.
move=> ar hp g01 hl0 hl hc hf; have g01' : 0 <= g <= 1 by have /andP[/ltW -> ->] := g01.
have [st0 [r0 _]] := pow_run w ic hm hp g01' hl0; exists st0; split=> // i hi.
pose s t := if (t < size l0)%N then nth (Fwd 0) l0 t else cycle l (t - size l0).
have l1 : (0 < size l)%N by have [j hj _] := hc (Fwd 0) N0; exact: leq_ltn_trans hj.
have hs t : (ev_node (s t) < N)%N.
  rewrite /s; case: ifP => ht; first exact: (all_nthP (Fwd 0) hl0).
  by apply: (all_nthP (Fwd 0) hl); rewrite ltn_mod.
have sf : fair N s.
  move=> e he t; have [t' ht e'] := cycle_fair hc he t; exists (size l0 + t')%N; first exact: leq_trans ht (leq_addl _ _).
  by rewrite /s ltnNge leq_addr /= addKn.
have ms n : mkseq s (size l0 + n * size l) = l0 ++ flatten (nseq n l).
  rewrite /mkseq iotaD map_cat add0n; congr (_ ++ _).
    apply: (@eq_from_nth _ (Fwd 0)); rewrite size_map size_iota // => j hj.
    by rewrite (nth_map 0%N) ?size_iota // nth_iota // add0n /s hj.
  rewrite -cycle_run /mkseq -[X in iota X _]addn0 iotaDl -map_comp; apply: eq_map => j /=.
  by rewrite /s ltnNge leq_addr /= addKn.
have [m [P [h1 h2 h3]]] := conv_fair ar hp g01 hs sf hi.
pose phi n := (size l0 + n * size l)%N; have hphi n : (n <= phi n)%N by apply: leq_trans (leq_addl _ _); exact: leq_pmulr.
exists (m \o phi), (P \o phi); split; [|exact: tends_sub h2|exact: tends_sub h3] => n.
have [st [k1 k2]] := h1 (phi n); exists st; split=> //; rewrite (repeated_run _ _ hf).
by move: k1; rewrite ms /Prop_EPKalman.ep_run run_cat /mbind; rewrite /Prop_EPKalman.ep_run in r0; rewrite r0.
Qed.
(** node [i] is right after [n] undamped passes of ep_update when at most [n] nodes are left from it on *)
Lemma update_best p l n : gentle p -> nodes_ok l -> (0 < n)%N -> exists st0 st : state,
  [/\ ep_run l (start p 1) = (st0, Ok tt), repeated (ep_update (iota 0 N)) n st0 = (st, Ok tt) &
      forall i, (i < N)%N -> (N <= i + n)%N -> holds st i (a_smooth A y c N i.+1)].
Proof.
move=> hp hl n0; have g1 : 0 <= (1 : R) <= 1 by rewrite ler01 lexx.
pose L := flatten (nseq n (update_events N)).
have hL : nodes_ok L.
  rewrite /L /EPPowerRun.nodes_ok; elim: n {n0 L} => //= n IH; by rewrite all_cat update_ok.
have [st0 [r0 h0]] := pow_run w ic hm hp g1 hl; have [x1 x2 x3] := reachN hm l g1.
have [st [r1 h1]] := run_coded ic hm hp g1 hL h0 x1; exists st0, st; split=> // [|i hi hn].
  by rewrite (repeated_run _ _ (update_run N)).
have [b1 b2 b3] := updated_best y (erefl (1 : R)) c0 okN N0 x3 n0 hi; move/(_ hn) in b3.
have hx : nonneg (updated S y N c 1 n (beliefs 1 l)) by rewrite updated_run; exact: nonneg_run.
rewrite -updated_run in h1; have := coded_holds h1 hx hi; rewrite /mean_cov (belief_best hi (And3 b1 b2 b3)).
have pmA : proper_model A N by have [[_ h _ _] _ _ _] := hm.
have u : (a_smooth A y c N i.+1).2 \in unitmx by apply: posdef_unit; exact: (smooth_pd y (ltW c0) pmA).
by case: (a_smooth _ _ _ _ _) u => m P /= u; rewrite invmxK mulmxA mulmxV // mul1mx.
Qed.
End Model.
(** what [n] passes of ep_update know *)
Lemma update_horizon k (tm mm : transform) (S : lgssm R 1 k) (y y' : nat -> 'cV[R]_k) (sy : system) (kws : nat -> Kw) (ys ys' : seq nd)
  (fa : option (seq Kw)) (w : W) p g n : regular illcond ->
  exact_model illcond t_zero tadd kw_tu0 tm mm S y sy kws ys fa -> exact_model illcond t_zero tadd kw_tu0 tm mm S y' sy kws ys' fa ->
  size ys' = size ys -> gentle S ys p -> 0 <= g <= 1 ->
  exists st st' : state, [/\ repeated (ep_update (iota 0 (size ys))) n (power_start illcond t_zero tadd kw_tu0 tm mm S sy ys fa w p g) = (st, Ok tt),
    repeated (ep_update (iota 0 (size ys))) n (power_start illcond t_zero tadd kw_tu0 tm mm S sy ys' fa w p g) = (st', Ok tt) &
    forall i, (i < size ys)%N -> (forall j, (j < i + n)%N -> y j = y' j) -> exists m P, holds st i (m, P) /\ holds st' i (m, P)].
Proof.
move=> ic hm hm' es hp g01; have hp' : gentle S ys' p by rewrite /gentle es.
pose L := flatten (nseq n (update_events (size ys))).
have hL : nodes_ok ys L by rewrite /L /EPPowerRun.nodes_ok; elim: n {L} => //= n IH; rewrite all_cat update_ok.
have hL' : nodes_ok ys' L by rewrite /EPPowerRun.nodes_ok es.
have [st [r h]] := pow_bp w ic hm hp g01 hL; have [st' [r' h']] := pow_bp w ic hm' hp' g01 hL'.
exists st, st'; split=> [||i hi hy]; [by rewrite (repeated_run _ _ (update_run _))|by rewrite (repeated_run _ _ (update_run _))|].
have [e1 _] := h i hi; have hi' : (i < size ys')%N by rewrite es.
have [e2 _] := h' i hi'; move: e2; rewrite /beliefs es -(updated_run S y' _ c g n) -(horizon_belief S c g hi hy).
rewrite /beliefs -(updated_run S y _ c g n) in e1 *; move: e1.
by case: (mean_cov _) => m P e1 e2; exists m, P.
Qed.
End Props.
