(** * Property C59 (Experiments/EP_FullSweep.py from the command line to the stored rows) *)
Set Warnings "-notation-overridden,-ambiguous-paths".
From mathcomp Require Import all_ssreflect all_algebra.
From mathcomp Require Import real_closed.realalg.
From Coq Require Import String.
From Verif Require Import Base ND PosDef LinAlg Gauss GaussFacts Nodes Transforms TransformFacts Estimator SpecAssumed KalmanFacts
  EPSetup EPTaylor EPVector SpecMetrics EPCase Prop_EPKalman Prop_Taylor Prop_Vector Database FullSweep SpecDb DatabaseFacts SweepFacts
  Program SpecProgram ProgramRows ProgramStop ProgramFacts.
Set Implicit Arguments.
Unset Strict Implicit.
Unset Printing Implicit Defensive.
Import GRing.Theory Num.Theory Order.Theory.
Local Open Scope ring_scope.

Section Props.
Variable R : rcfType.
Variable illcond : forall n, 'M[R]_n -> bool.
Variable G : Type.
Notation nd := (nd R).
Variables (Kw T : Type) (t_zero : T) (tadd : T -> T -> T) (kw_tu0 : T -> Kw).
Variable draw : forall size n, 'cV[R]_n -> 'M[R]_n -> G -> G * 'M[R]_(size, n).
Variable logpdf : nd -> nd -> nd -> res R.
Variable mdl : model R G Kw T.
Variables (pickle : nd -> val) (number : R -> val) (seed_rng : int -> G -> G).
Variables (num_iter : nat) (dyn_name exp_name : string).
Hypothesis names : dyn_name != exp_name.
Notation command := (command illcond t_zero tadd kw_tu0 draw logpdf mdl pickle number seed_rng num_iter dyn_name exp_name).
Notation scalar := (scalar_system illcond t_zero tadd kw_tu0 mdl).
Notation array := (array_system illcond t_zero tadd kw_tu0 mdl).
Notation step_fun := (step_fun t_zero tadd kw_tu0 mdl).
Definition columns (d : db) : Prop := forall t, lookup d exp_name = Some t -> tcols t = exp_cols.
(** row [c] of the sweep is not skipped *)
Definition to_do (o : bool) (c : cfg) (d : db) : Prop := o \/ forall t, lookup d exp_name = Some t -> ~~ has (matches t c) (trows t).

Lemma simulates_run k s w : simulates mdl k -> forall w' xy, p_simulate mdl pickle (p_reseed seed_rng s w) = (w', Ok xy) -> exists p xy', xy = p :: xy'.
Proof.
case=> h1 h2 w' xy; rewrite /p_simulate /=; case h: (m_sim _ _) => [g [d|e]] // [_ <-].
have [] := h2 _ _ _ h; move: h1; case: d {h} => [|p d] /=; first by case: (m_steps mdl).
by eexists; eexists.
Qed.
Lemma rows_trans c ms r : r \in rows_of c ms -> nth VNull r 0 = VText (c_trans c).
Proof. by rewrite /rows_of; elim: ms (0 : rat) => [|[a b] ms IH] q //=; rewrite inE => /orP [/eqP ->|/IH]. Qed.

(** what stops a transform *)
Section Stops.
Variables (id : string) (e : err) (seeds : seq int) (trans : seq string) (powers damps : seq rat).
Hypothesis e_out : e <> LinAlgErr.
Hypothesis pos : all (fun p => 0 < p) powers.
Hypothesis nneg : all (fun p => 0 <= p) damps.
Hypothesis stops : forall n c xy w, upper (c_trans c) = id -> 0 < c_power c -> 0 <= c_damp c -> during mdl seed_rng (c_seed c) w ->
  setting_logs (p_build illcond t_zero tadd kw_tu0 draw mdl) (@p_sweep R illcond G) (p_metrics (G := G) illcond logpdf number) n.+1 c xy w
    = ([::], Some e).
Lemma stops_rows o w d fuel : columns d ->
  no_new exp_name (of_transform id) d (s_durable (command seeds trans powers damps o (start w d fuel)).1).
Proof.
move=> hd; pose ok r := of_transform id r -> exists2 t0, lookup d exp_name = Some t0 & r \in trows t0.
suff h : okdb exp_name ok (s_durable (command seeds trans powers damps o (start w d fuel)).1).
  by move=> t r h1 h2 h3; have [_ /(_ r h2 h3)] := h _ h1.
apply: (@main_rows _ (p_reseed seed_rng) _ _ _ _ num_iter dyn_name exp_name names seeds trans powers damps (during mdl seed_rng)).
- by move=> s w0 w' xy; exact: during_sim.
- by move=> s c xy w0; exact: during_build.
- by move=> s w0; exact: during_sweep.
- by move=> s w0; exact: during_metrics.
- move=> c xy w0 r _ _ hp hdm hw hr [t ht hu].
  have ec : c_trans c = t by have := rows_trans hr; rewrite ht => -[].
  move: hr; case: num_iter => [|n].
    by rewrite /setting_logs; case: p_build => w1 [].
  by rewrite (stops n xy _ _ _ hw) // ?ec //; [move/allP: pos; apply|move/allP: nneg; apply].
- by move=> t ht; split; [exact: hd ht|move=> r hr _; exists t].
Qed.
Lemma stops_first k s seeds' t trans' p powers' dm damps' o w d fuel : simulates mdl k -> (0 < num_iter)%N ->
  upper t = id -> 0 < p -> 0 <= dm -> to_do o (Cfg s t p dm) d ->
  let r := command (s :: seeds') (t :: trans') (p :: powers') (dm :: damps') o (start w d fuel) in
  [/\ unwritten d (s_durable r.1), r.2 <> Done tt &
    fuel = None -> schema_ok dyn_name exp_name d -> forall g xy, m_sim mdl (seed_rng s (w_rng w)) = (g, Ok xy) -> r.2 = Raised e].
Proof.
move=> sim hn ht hp hd htd.
have st w0 w' xy : p_simulate mdl pickle (p_reseed seed_rng s w0) = (w', Ok xy) ->
    setting_logs (p_build illcond t_zero tadd kw_tu0 draw mdl) (@p_sweep R illcond G) (p_metrics (G := G) illcond logpdf number) num_iter
      (Cfg s t p dm) xy w' = ([::], Some e).
  by move=> h; case: num_iter hn => // n _; apply: stops => //; exact: during_sim h.
have [h1 h2 h3] := @main_stops _ _ _ _ _ _ num_iter _ _ names s seeds' (t :: trans') (p :: powers') (dm :: damps') o (Cfg s t p dm) _ e
  erefl e_out st w d fuel htd.
split=> // hf sc g xy hg.
case h: (p_simulate mdl pickle (p_reseed seed_rng s w)) => [w' r'].
move: (h); rewrite /p_simulate /= hg => -[_ er]; rewrite -er in h.
have [q [xy' eq]] := simulates_run sim h; rewrite eq in h; exact: h3 hf sc _ _ _ h.
Qed.
End Stops.

(** ** Taylor transform, scalar systems *)

(** no row with the Taylor transform is ever stored for a scalar system written with array operations, by any run,
    complete or killed, with any seeds, transforms and positive powers *)
Theorem C59_taylor_rows seeds trans (powers damps : seq rat) o w d fuel : scalar -> regular illcond ->
  all (fun p => 0 < p) powers -> all (fun p => 0 <= p) damps -> columns d ->
  no_new exp_name (of_transform "TT"%string) d (s_durable (command seeds trans powers damps o (start w d fuel)).1).
Proof.
move=> hs ic hp hd; apply: (@stops_rows _ ValueErr) => // n c xy w0 h1 h2 h3 h4.
exact: (taylor_stops draw logpdf number n xy hs ic h1 h2 h3 h4).
Qed.
(** if it comes first the run stops with a ValueError, nothing is stored (not even the simulated data), and no
    later transform, power or seed is tried *)
Theorem C59_taylor_stops s seeds t trans p powers dm damps o w d fuel : scalar -> regular illcond -> (0 < num_iter)%N ->
  upper t = "TT"%string -> 0 < p -> 0 <= dm -> to_do o (Cfg s t p dm) d ->
  let r := command (s :: seeds) (t :: trans) (p :: powers) (dm :: damps) o (start w d fuel) in
  [/\ unwritten d (s_durable r.1), r.2 <> Done tt &
    fuel = None -> schema_ok dyn_name exp_name d -> forall g xy, m_sim mdl (seed_rng s (w_rng w)) = (g, Ok xy) -> r.2 = Raised ValueErr].
Proof.
move=> hs ic; have [Q [P0 [Rm [m0 [phi [dphi [psi [dpsi [_ sim _ _]]]]]]]]] := hs.
apply: (@stops_first "TT"%string ValueErr _ _ 1%N) => // n c xy w0 h1 h2 h3 h4.
exact: (taylor_stops draw logpdf number n xy hs ic h1 h2 h3 h4).
Qed.
(** so the default command stores nothing in a new database *)
Theorem C59_default s seeds w fuel : scalar -> regular illcond -> (0 < num_iter)%N ->
  let r := command (s :: seeds) default_trans power_range damp_range false (start w [::] fuel) in
  [/\ forall n t, lookup (s_durable r.1) n = Some t -> trows t = [::], r.2 <> Done tt &
    fuel = None -> forall g xy, m_sim mdl (seed_rng s (w_rng w)) = (g, Ok xy) -> r.2 = Raised ValueErr].
Proof.
move=> hs ic hn.
have [|||[h1 h2] h3 h4] := @C59_taylor_stops s seeds "TT"%string [:: "UT"; "MCT"]%string (1 / 10%:R) (behead power_range) 1 (behead damp_range) false w [::] fuel hs ic hn erefl.
- by rewrite divr_gt0 ?ltr0n.
- by [].
- by right.
split=> [n t /h2 [] //||hf]; first exact: h3.
by apply: h4.
Qed.

(** ** unscented transform, systems with at least two state variables *)
Theorem C59_unscented_rows n k seeds trans (powers damps : seq rat) o w d fuel : array n k -> regular_at illcond n -> (1 < n)%N ->
  all (fun p => 0 < p) powers -> all (fun p => 0 <= p) damps -> columns d ->
  no_new exp_name (of_transform "UT"%string) d (s_durable (command seeds trans powers damps o (start w d fuel)).1).
Proof.
move=> hs ic hn hp hd; apply: (@stops_rows _ ValueErr) => // n' c xy w0 h1 h2 h3 h4.
exact: (unscented_stops draw logpdf number n' xy hs ic hn h1 h2 h3 h4).
Qed.
Theorem C59_unscented_stops n k s seeds t trans p powers dm damps o w d fuel : array n k -> regular_at illcond n -> (1 < n)%N ->
  (0 < num_iter)%N -> upper t = "UT"%string -> 0 < p -> 0 <= dm -> to_do o (Cfg s t p dm) d ->
  let r := command (s :: seeds) (t :: trans) (p :: powers) (dm :: damps) o (start w d fuel) in
  [/\ unwritten d (s_durable r.1), r.2 <> Done tt &
    fuel = None -> schema_ok dyn_name exp_name d -> forall g xy, m_sim mdl (seed_rng s (w_rng w)) = (g, Ok xy) -> r.2 = Raised ValueErr].
Proof.
move=> hs ic hn; have [Q [P0 [Rm [m0 [phi [psi [_ sim _ _]]]]]]] := hs.
apply: (@stops_first "UT"%string ValueErr _ _ k) => // n' c xy w0 h1 h2 h3 h4.
exact: (unscented_stops draw logpdf number n' xy hs ic hn h1 h2 h3 h4).
Qed.

(** ** unscented transform, scalar systems *)
Section Smoother.
Variables (k : nat) (Q P0 : 'M[R]_1) (Rm : 'M[R]_k) (m0 : 'cV[R]_1) (phi : nat -> 'cV[R]_1 -> 'cV[R]_1) (psi : 'cV[R]_1 -> 'cV[R]_k).
Variable lp : 'cV[R]_1 -> 'cV[R]_1 -> 'M[R]_1 -> R.
Definition scalar_array : Prop := [/\ noises illcond mdl Q P0 Rm m0, simulates mdl k,
  forall g g' xy, m_sim mdl g = (g', Ok xy) -> exists vs, forall2 (@SpecMetrics.holds R 1) (unzip1 xy) vs,
  (forall i, rowwise (step_fun i) (phi i)) /\ rowwise (sy_meas (m_sys mdl)) psi & density logpdf lp /\ regular illcond].
(** the sigma-point rule with the parameters that EP_FullSweep.py chooses *)
Definition sweep_rule (root : 'M[R]_1 -> 'M[R]_1) : approx R 1 k := ut_approx 1 2%:R 3%:R 1 2%:R 2%:R phi psi Q P0 Rm m0 root.
Definition first_iteration (s : int) (r : row) : Prop := [/\ of_transform "UT"%string r, nth VNull r 1 = seed_val s,
  nth VNull r 2 = VNum 1, nth VNull r 3 = VNum 1 & nth VNull r 4 = VNum 1].

(** a stored row for power 1, damping 1 and the first iteration scores the unscented smoother's estimates of the
    data simulated from the row's seed *)
Theorem C59_smoother_rows seeds trans (powers damps : seq rat) o w d fuel : scalar_array -> columns d ->
  exists root : 'M[R]_1 -> 'M[R]_1, (forall P, posdef P -> root P *m (root P)^T = P) /\
  forall t r s, lookup (s_durable (command seeds trans powers damps o (start w d fuel)).1) exp_name = Some t -> r \in trows t ->
    first_iteration s r -> (exists2 t0, lookup d exp_name = Some t0 & r \in trows t0) \/
    smoother_scores mdl number seed_rng lp (sweep_rule root) s (nth VNull r 5, nth VNull r 6).
Proof.
move=> [hno sim hx [hf hm] [hl ic]] hd; exists (@ut_root R 1); split=> [P pP|]; first by have [] := ut_rootE pP.
pose ok r := forall s, first_iteration s r -> (exists2 t0, lookup d exp_name = Some t0 & r \in trows t0) \/
    smoother_scores mdl number seed_rng lp (sweep_rule (@ut_root R 1)) s (nth VNull r 5, nth VNull r 6).
suff h : okdb exp_name ok (s_durable (command seeds trans powers damps o (start w d fuel)).1).
  by move=> t r s h1 h2 h3; have [_ /(_ r h2 s h3)] := h _ h1.
apply: (@main_rows _ (p_reseed seed_rng) _ _ _ _ num_iter dyn_name exp_name names seeds trans powers damps (during mdl seed_rng)).
- by move=> s w0 w' xy; exact: during_sim.
- by move=> s c xy w0; exact: during_build.
- by move=> s w0; exact: during_sweep.
- by move=> s w0; exact: during_metrics.
- move=> c xy w0 r _ _ hp hdm hw hr s [[t ht hu] i1 i2 i3 i4]; right.
  have ec : c_trans c = t by have := rows_trans hr; rewrite ht => -[].
  move: hr; case: num_iter => [|n].
    by rewrite /setting_logs; case: p_build => w1 [].
  rewrite /rows_of; set l := setting_logs _ _ _ _ _ _ _ => /(nthP [::]) [i]; rewrite rows_size => hi.
  rewrite rows_nth // => er; move: i1 i2 i3 i4; rewrite -er /= => -[] /intr_inj es [] ei [ep] [edm].
  have [ab [rest [e [h1 h2]]]] := first_log draw number n xy hno sim hx hf hm hl ic (etrans (congr1 upper ec) hu) ep edm hw.
  have i0 : i = 0%N by move: ei => /eqP; rewrite add0r -[1 in X in _ == X]/(1%:R) eqr_nat => /eqP [].
  by move: h2; rewrite es i0 /l h1 /=; case: (ab).
- by move=> t ht; split; [exact: hd ht|move=> r hr s _; left; exists t].
Qed.
(** such a row is there: an uninterrupted run on a new experiment table whose first setting is this one *)
Theorem C59_smoother_first s seeds t trans powers damps o w d g xy : scalar_array -> (0 < num_iter)%N -> schema_ok dyn_name exp_name d ->
  lookup d exp_name = None -> upper t = "UT"%string -> m_sim mdl (seed_rng s (w_rng w)) = (g, Ok xy) ->
  exists root : 'M[R]_1 -> 'M[R]_1, (forall P, posdef P -> root P *m (root P)^T = P) /\
  exists tab rest ab, [/\ lookup (s_durable (command (s :: seeds) (t :: trans) (1 :: powers) (1 :: damps) o (start w d None)).1) exp_name = Some tab,
    trows tab = [:: VText t; seed_val s; VNum 1; VNum 1; VNum 1; ab.1; ab.2; empty_list; empty_list] :: rest &
    smoother_scores mdl number seed_rng lp (sweep_rule root) s ab].
Proof.
move=> [hno sim hx [hf hm] [hl ic]] hn sc hd ht hg; exists (@ut_root R 1); split=> [P pP|]; first by have [] := ut_rootE pP.
case h: (p_simulate mdl pickle (p_reseed seed_rng s w)) => [w' r'].
have hw := h; move: (h); rewrite /p_simulate /= hg => -[_ er]; rewrite -er in h hw.
have [q [xy' eq]] := simulates_run sim h; rewrite eq in h hw.
have hw2 := during_sim hw; pose c := Cfg s t 1 1.
have [ab [rest [e [h1 h2]]]] : exists ab rest e, setting_logs (p_build illcond t_zero tadd kw_tu0 draw mdl) (@p_sweep R illcond G)
    (p_metrics (G := G) illcond logpdf number) num_iter c (q :: xy') w' = (ab :: rest, e) /\
    smoother_scores mdl number seed_rng lp (sweep_rule (@ut_root R 1)) s ab.
  by case: num_iter hn => // n _; exact: (@first_log _ _ _ _ _ _ _ _ _ _ _ _ _ _ n c _ _ Q P0 Rm m0 phi psi).
have := @main_logs _ (p_reseed seed_rng) (p_simulate mdl pickle) (p_build illcond t_zero tadd kw_tu0 draw mdl) (@p_sweep R illcond G)
  (p_metrics (G := G) illcond logpdf number) num_iter dyn_name exp_name names s seeds (t :: trans) (1 :: powers) (1 :: damps) o c _ erefl
  w d w' q xy' sc hd h.
rewrite h1; case: ab h1 h2 => a b h1 h2 [] // tab ht1 [rs hrs].
by exists tab; eexists; exists (a, b); split; [exact: ht1|rewrite hrs /rows_of /= add0r|].
Qed.
End Smoother.
End Props.

Lemma fresh_ok n1 n2 : schema_ok n1 n2 [::]. Proof. by []. Qed.
Lemma fresh_do n o c : to_do n o c [::]. Proof. by right. Qed.

(** ** concrete cases: generators whose state is the seed, simulations of two steps *)
Section Case.
Variable R : rcfType.
Variables (pickle : nd R -> val) (number : R -> val).
Definition case_data n (y : nat -> 'cV[R]_n) : seq (nd R * nd R) := [:: (Nd1 (y 0%N), Nd1 (y 0%N)); (Nd1 (y 1%N), Nd1 (y 1%N))].
Definition case_model n (sys : system (gauss R) (dfun R) (dfun R) unit unit) (y : nat -> 'cV[R]_n) : model R int unit unit :=
  Model sys (Nd2 (1%:M : 'M[R]_n)) (Nd2 (1%:M : 'M[R]_n)) n 2 (fun g => (g, Ok (case_data y))).
Definition case_draw size n (m : 'cV[R]_n) (c : 'M[R]_n) (g : int) : int * 'M[R]_(size, n) := (g, 0).
Definition case_pdf (x m c : nd R) : res R := Ok 0.
Definition case_command n sys (y : nat -> 'cV[R]_n) := command (@never R) Datatypes.tt (fun _ _ => Datatypes.tt) (fun=> Datatypes.tt) case_draw
  case_pdf (case_model sys y) pickle number (fun s _ => s) 50 "DYN" "EXP".
Definition case_world : world R int := World [::] [::] 0%R [::] [::].
Lemma case_reads n (y : nat -> 'cV[R]_n) : reads y (unzip2 (case_data y)) -> simulates (case_model (@ew_sys R) y) n.
Proof. by move=> h; split=> // g g' xy [_ <-]; split=> //; exists y. Qed.
Lemma case_noises n sys (y : nat -> 'cV[R]_n) : sy_init sys = gaussian (Nd1 (0 : 'cV[R]_n)) (Nd2 (1%:M : 'M[R]_n)) ->
  @noises R (@never R) int unit unit (case_model sys y) n n 1%:M 1%:M 1%:M 0.
Proof. by move=> h; have p := posdef1 R n; split=> //=; rewrite h; exact: momp_gaussian. Qed.
(** the growth-model-like system of C52 *)
Lemma case_scalar : scalar_system (@never R) Datatypes.tt (fun _ _ => Datatypes.tt) (fun=> Datatypes.tt) (case_model (@ew_sys R) (@walk_y R)).
Proof.
exists 1%:M, 1%:M, 1%:M, 0, (fun _ x => 3%:R * x + 1), (fun _ _ => 3%:R), (fun x => x ^+ 2), (fun x => 2%:R * x); split.
- exact: case_noises.
- by apply: case_reads; exact: walk_reads.
- by move=> i; exact: ew_elementwise.
- exact: ew_elementwise.
Qed.
Lemma case_default : let r := case_command (@ew_sys R) (@walk_y R) [:: 101; 201] default_trans power_range damp_range false in
  (r (start case_world [::] None)).2 = Raised ValueErr /\
  forall fuel n t, lookup (s_durable (r (start case_world [::] fuel)).1) n = Some t -> trows t = [::].
Proof.
have h fuel := @C59_default R (@never R) int unit unit Datatypes.tt (fun _ _ => Datatypes.tt) (fun=> Datatypes.tt) case_draw case_pdf
  (case_model (@ew_sys R) (@walk_y R)) pickle number (fun s _ => s) 50 "DYN" "EXP" isT 101 [:: 201] case_world fuel case_scalar (@walk_regular R) isT.
split=> [|fuel]; last by have [] := h fuel.
by have [_ _ /(_ erefl _ _ erefl)] := h None.
Qed.
(** the walk in the plane of C53 *)
Lemma case_plane : let r := case_command (@plane_sys R) (@plane_y R) [:: 101] [:: "UT"%string] [:: 1] [:: 1] false in
  (r (start case_world [::] None)).2 = Raised ValueErr /\
  forall fuel n t, lookup (s_durable (r (start case_world [::] fuel)).1) n = Some t -> trows t = [::].
Proof.
have hs : array_system (@never R) Datatypes.tt (fun _ _ => Datatypes.tt) (fun=> Datatypes.tt) (case_model (@plane_sys R) (@plane_y R)) 2 2.
  exists 1%:M, 1%:M, 1%:M, 0, (fun _ x => x), (fun x => x); split.
  - exact: case_noises.
  - by split=> // g g' xy [_ <-]; split=> //; exists (@plane_y R); exact: plane_reads.
  - by move=> i; exact: plane_id.
  - exact: plane_id.
have h fuel := @C59_unscented_stops R (@never R) int unit unit Datatypes.tt (fun _ _ => Datatypes.tt) (fun=> Datatypes.tt) case_draw case_pdf
  (case_model (@plane_sys R) (@plane_y R)) pickle number (fun s _ => s) 50 "DYN" "EXP" isT 2 2 101 [::] "UT"%string [::] 1 [::] 1 [::] false case_world
  [::] fuel hs (fun=> isT) isT isT erefl ltr01 ler01 (fresh_do _ _ _).
split=> [|fuel n t]; first by have [_ _ /(_ erefl (fresh_ok _ _) _ _ erefl)] := h None.
by have [[_ h2] _ _] := h fuel; move/h2 => [].
Qed.
(** the squaring system of C28 *)
Lemma case_array : scalar_array (@never R) Datatypes.tt (fun _ _ => Datatypes.tt) (fun=> Datatypes.tt) case_pdf
  (case_model (@sq_sys R) (@walk_y R)) 1%:M 1%:M 1%:M 0 (fun _ => @sq R) (fun x => 1%:M *m x + 0) (fun _ _ _ => 0).
Proof.
split.
- exact: case_noises.
- by split=> // g g' xy [_ <-]; split=> //; exists (@walk_y R); exact: walk_reads.
- by move=> g g' xy [_ <-]; exists [:: walk_y 0; walk_y 1]; do !constructor.
- by split=> [i|]; [exact: sqf_rowwise|exact: idf_rowwise].
- by split=> //; exact: walk_regular.
Qed.
Lemma case_first : exists root : 'M[R]_1 -> 'M[R]_1, exists t rest ab, [/\
  lookup (s_durable (case_command (@sq_sys R) (@walk_y R) [:: 101] [:: "UT"%string] [:: 1] [:: 1] false (start case_world [::] None)).1) "EXP" = Some t,
  trows t = [:: VText "UT"; seed_val 101; VNum 1; VNum 1; VNum 1; ab.1; ab.2; empty_list; empty_list] :: rest &
  smoother_scores (case_model (@sq_sys R) (@walk_y R)) number (fun s _ => s) (fun _ _ _ => 0)
    (sweep_rule 1%:M 1%:M 1%:M 0 (fun _ => @sq R) (fun x => 1%:M *m x + 0) root) 101 ab].
Proof.
have [root [_ h]] := @C59_smoother_first R (@never R) int unit unit Datatypes.tt (fun _ _ => Datatypes.tt) (fun=> Datatypes.tt) case_draw case_pdf
  (case_model (@sq_sys R) (@walk_y R)) pickle number (fun s _ => s) 50 "DYN" "EXP" isT 1 1%:M 1%:M 1%:M 0 (fun _ => @sq R) (fun x => 1%:M *m x + 0)
  (fun _ _ _ => 0) 101 [::] "UT"%string [::] [::] [::] false case_world [::] _ _ case_array isT
  (fresh_ok _ _) erefl erefl erefl.
by exists root.
Qed.
End Case.
Example C59_case_default := case_default (R := [rcfType of realalg]).
Example C59_case_plane := case_plane (R := [rcfType of realalg]).
Example C59_case_first := case_first (R := [rcfType of realalg]).
Print Assumptions C59_taylor_rows. Print Assumptions C59_taylor_stops. Print Assumptions C59_default.
Print Assumptions C59_unscented_rows. Print Assumptions C59_unscented_stops.
Print Assumptions C59_smoother_rows. Print Assumptions C59_smoother_first.
