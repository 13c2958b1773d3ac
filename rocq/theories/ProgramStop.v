(** * A sweep whose first setting raises an exception before its first log entry *)
Set Warnings "-notation-overridden,-ambiguous-paths".
From mathcomp Require Import all_ssreflect all_algebra.
From Coq Require Import String.
From Verif Require Import Base Database FullSweep SpecDb DatabaseFacts SweepFacts SpecProgram.
Set Implicit Arguments.
Unset Strict Implicit.
Unset Printing Implicit Defensive.
Import GRing.Theory.

Lemma unwritten_refl d : unwritten d d.
Proof. by split=> // n t h; left. Qed.
Lemma unwritten_addt d d' n c k : unwritten d d' -> unwritten d (addt d' n c k).
Proof.
case=> h1 h2; rewrite /addt; case e: (lookup d' n) => [t|]; first by split.
split=> m t; rewrite lookup_rcons.
- by move=> /h1 ->.
- case e': (lookup d' m) => [t'|]; first by case=> <-; apply: h2 e'.
  by case: eqP => // _ [<-]; right.
Qed.

Section Stop.
Variable W : Type.
Variable reseed : int -> W -> W.
Variable simulate : W -> W * res data.
Variable build : cfg -> data -> W -> W * res unit.
Variable sweep : W -> W * res unit.
Variable metrics : W -> W * res (val * val).
Variables (num_iter : nat) (dyn_name exp_name : string).
Hypothesis names : dyn_name != exp_name.
Variables (sd : int) (seeds : seq int) (trans : seq string) (powers damps : seq rat) (override : bool).
Variables (c : cfg) (cs : seq cfg) (e : err).
Hypothesis first : product sd trans powers damps = c :: cs.
Hypothesis e_out : e <> LinAlgErr.
Hypothesis stops : forall w w' xy, simulate (reseed sd w) = (w', Ok xy) ->
  setting_logs build sweep metrics num_iter c xy w' = ([::], Some e).
Notation st := (st W).

Lemma calm_dyn_w k xy sv (s : st) : let r := @insert_dynamics_from W dyn_name k xy sv s in
  [/\ s_durable r.1 = s_durable s, lookup (s_working r.1) exp_name = lookup (s_working s) exp_name & s_w r.1 = s_w s].
Proof.
elim: xy k s => [|[x y] xy IH] k s //=; rewrite {1 2 3}/mbind.
have : let r := insert dyn_name dyn_cols [:: sv; VNum k%:R; x; y] s in
    [/\ s_durable r.1 = s_durable s, lookup (s_working r.1) exp_name = lookup (s_working s) exp_name & s_w r.1 = s_w s].
  rewrite /insert /mbind /tick /mdb; case: (s_fuel s) => [[|f]|] //=; case: (lookup _ dyn_name) => [u|] //=; case: ifP => _ //=;
  by rewrite lookup_update_ne.
case: insert => s1 [[]|er|] //= [<- <- <-]; exact: IH.
Qed.
Lemma dyn_done k xy sv (s : st) t : lookup (s_working s) dyn_name = Some t -> tcols t = dyn_cols -> s_fuel s = None ->
  (@insert_dynamics_from W dyn_name k xy sv s).2 = Done tt.
Proof.
elim: xy k s t => [|[x y] xy IH] k s t h1 h2 h3 //=; rewrite /mbind (insertE h1 h2) // h3 /=.
by apply: (IH _ _ (insert_ignore t [:: sv; VNum k%:R; x; y])) => //=; [exact: lookup_update h1|rewrite ins_cols].
Qed.
Lemma dyn_fuel k xy sv (s : st) : s_fuel s = None -> s_fuel (@insert_dynamics_from W dyn_name k xy sv s).1 = None.
Proof.
elim: xy k s => [|[x y] xy IH] k s h //=; rewrite {1}/mbind.
have : s_fuel (insert dyn_name dyn_cols [:: sv; VNum k%:R; x; y] s).1 = None.
  by rewrite /insert /mbind /tick /mdb h /=; case: (lookup _ dyn_name) => [u|] //=; case: ifP => _ //=.
by case: insert => s1 [[]|er|] //= h1; apply: IH.
Qed.
Lemma setting_stops xy w' (s : st) : setting_logs build sweep metrics num_iter c xy w' = ([::], Some e) -> s_w s = w' ->
  exists w1, power_sweep build sweep metrics num_iter exp_name c xy s = (St w1 (s_durable s) (s_working s) (s_intx s) (s_fuel s), Raised e).
Proof.
rewrite /setting_logs /power_sweep {1}/mbind /mworld => h hw; rewrite hw.
case: (build c xy w') h => w1 [[]|e1]; last by case=> ->; exists w1.
rewrite /ep_iterations -[_ \in _]/true /=; case: num_iter => [|k] h //; rewrite loopS /=; move: h => /=.
case: (sweep w1) => w2 [[]|e2] /=; last by case=> ->; exists w2.
rewrite /mbind /mlift /mworld /=; case: (metrics w2) => w3 [[m1 m2]|e3] /=; last by case=> ->; exists w3.
by case: logs.
Qed.
Definition stopped (s : st) (r : st * out unit) : Prop := [/\ s_durable r.1 = s_durable s, r.2 <> Done tt &
  s_fuel s = None -> (exists2 u, lookup (s_working s) dyn_name = Some u & tcols u = dyn_cols) ->
  forall w' p xy, simulate (reseed sd (s_w s)) = (w', Ok (p :: xy)) -> r.2 = Raised e].
Lemma full_stops (s : st) t : lookup (s_working s) exp_name = Some t -> override \/ ~~ has (matches t c) (trows t) ->
  stopped s (full_sweep reseed simulate build sweep metrics num_iter dyn_name exp_name (sd :: seeds) trans powers damps override s).
Proof.
move=> hl hno; rewrite [full_sweep _ _ _ _ _ _ _ _ _ _ _ _ _]/= {1}/mbind {1}/mworld /= {1}/mbind {1}/mworld /=.
case hs: (simulate _) => [w' [xy|er]]; last by split=> //= _ _ w1 p xy; rewrite hs.
rewrite {1}/mbind; set s1 := St w' _ _ _ _.
have [q1 q2 q3] := calm_dyn_w 0 xy (seed_val sd) s1.
have := @dyn_done 0 xy (seed_val sd) s1; rewrite /insert_dynamics_data.
case: insert_dynamics_from q1 q2 q3 => s2 [[]|er|] /= q1 q2 q3 hd.
- case: xy hs hd => [|p xy] hs hd; first by split=> //= _ _ w1 p xy; rewrite hs.
  have [w3 h3] := setting_stops (stops hs) q3.
  rewrite first /= /mbind /one_setting /mbind /exists_query /mbind /mdb q2 hl /=.
  have -> : override || ~~ has (matches t c) (trows t) by case: hno => ->; rewrite ?orbT.
  by rewrite /catch_linalg h3 /stopped; case: (e) e_out => //= _; rewrite q1.
- by split=> //= h1 [u h2 h3]; have := hd _ h2 h3 h1.
- by split=> //= h1 [u h2 h3]; have := hd _ h2 h3 h1.
Qed.
Lemma main_stops w d fuel : override \/ (forall t, lookup d exp_name = Some t -> ~~ has (matches t c) (trows t)) ->
  let r := main reseed simulate build sweep metrics num_iter dyn_name exp_name (sd :: seeds) trans powers damps override (start w d fuel) in
  [/\ unwritten d (s_durable r.1), r.2 <> Done tt &
    fuel = None -> schema_ok dyn_name exp_name d ->
    forall w' p xy, simulate (reseed sd w) = (w', Ok (p :: xy)) -> r.2 = Raised e].
Proof.
move=> hno; rewrite /main /mbind /create_dynamics_table /create_experiment_table /start createE.
have u0 := unwritten_refl d; case: ifP => hf1; first by split=> // hf; rewrite hf in hf1.
have u1 := @unwritten_addt d d dyn_name dyn_cols [:: "Seed"; "t"]%string u0; set d1 := addt d _ _ _ in u1 *.
rewrite createE; case: ifP => hf2; first by split=> // hf; rewrite hf in hf2.
have u2 := @unwritten_addt d d1 exp_name exp_cols exp_key u1.
have [t [ht1 ht2]] := addt_lookup d1 exp_name exp_cols exp_key; set d2 := addt d1 _ _ _ in u2 ht1 *.
have hno' : override \/ ~~ has (matches t c) (trows t).
  case: hno => [->|h]; [by left|right]; case: ht2 => [|[_ -> //]]; rewrite /d1 addt_ne //; exact: h.
have [h1 h2 h3] := @full_stops (St w d2 d2 false (dec (dec fuel))) t ht1 hno'; split; [by rewrite h1|exact: h2|].
move=> hf [sc _]; rewrite hf in h3 |- *; apply: h3 => //.
have [u [hu1 hu2]] := addt_lookup d dyn_name dyn_cols [:: "Seed"; "t"]%string.
by exists u; [rewrite /d2 addt_ne // eq_sym|case: hu2 => [/sc [->]|[_ ->]]].
Qed.
End Stop.

(** the rows logged by the first setting are in the table at the end of an uninterrupted run on a fresh table *)
Section Starts.
Variable W : Type.
Variable reseed : int -> W -> W.
Variable simulate : W -> W * res data.
Variable build : cfg -> data -> W -> W * res unit.
Variable sweep : W -> W * res unit.
Variable metrics : W -> W * res (val * val).
Variables (num_iter : nat) (dyn_name exp_name : string).
Hypothesis names : dyn_name != exp_name.
Variables (sd : int) (seeds : seq int) (trans : seq string) (powers damps : seq rat) (override : bool).
Variables (c : cfg) (cs : seq cfg).
Hypothesis first : product sd trans powers damps = c :: cs.
Notation st := (st W).
Notation one := (one_setting build sweep metrics num_iter exp_name override c).

Lemma one_logs xy w' (s : st) t : s_w s = w' -> s_fuel s = None -> lookup (s_working s) exp_name = Some t -> tcols t = exp_cols ->
  ~~ has (matches t c) (trows t) ->
  let l := setting_logs build sweep metrics num_iter c xy w' in
  rows_of c l.1 <> [::] -> let r := (one xy s).1 in
  s_durable r = s_working r /\ lookup (s_durable r) exp_name = Some (insert_all t (rows_of c l.1)).
Proof.
move=> hw hf hl hc hno /= hr; rewrite /one_setting /mbind /exists_query /mbind /mdb hl /= hno orbT /catch_linalg /power_sweep /mbind {1 2 3}/mworld.
move: hr; rewrite /setting_logs hw; case: (build c xy w') => w1 [u|e1] //= hr.
have := iterations_run sweep metrics num_iter (VText (c_trans c)) (seed_val (c_seed c)) 0 (VNum (c_power c)) (VNum (c_damp c)) (VNum 0) (VNum 0)
  (VNum 0) (VNum 0) empty_list (name := exp_name) (t := t) (s := St w1 (s_durable s) (s_working s) (s_intx s) (s_fuel s)) hl hc.
rewrite /= hf -/(exp_data c) -/(rows_of c _).
case: ep_iterations => s3 o /= [h1 h2 h3].
have h4 : s_durable s3 = s_working s3 by move: h3; case: (rows_of _ _) hr.
by case: o h1 => [[]|[]|] _ /=; rewrite h4 h2; split=> //; apply: lookup_update hl.
Qed.
Lemma main_logs w d w' p xy : schema_ok dyn_name exp_name d -> lookup d exp_name = None ->
  simulate (reseed sd w) = (w', Ok (p :: xy)) ->
  let rows := rows_of c (setting_logs build sweep metrics num_iter c (p :: xy) w').1 in rows <> [::] ->
  let r := main reseed simulate build sweep metrics num_iter dyn_name exp_name (sd :: seeds) trans powers damps override (start w d None) in
  exists2 t, lookup (s_durable r.1) exp_name = Some t & exists rest, trows t = rows ++ rest.
Proof.
move=> [sc _] hn hs rows hr; rewrite /main /mbind /create_dynamics_table /create_experiment_table /start createE /=.
set d1 := addt d _ _ _; rewrite createE /=.
have [t [ht1 ht2]] := addt_lookup d1 exp_name exp_cols exp_key; set d2 := addt d1 _ _ _ in ht1 *.
have {ht2} et : t = Table exp_cols exp_key [::] by case: ht2 => [|[_ ->]] //; rewrite /d1 addt_ne // hn.
rewrite [full_sweep _ _ _ _ _ _ _ _ _ _ _ _ _]/= {1}/mbind {1}/mworld /= {1}/mbind {1}/mworld /= hs.
rewrite {1}/mbind; set s1 := St w' _ _ _ _.
have [q1 q2 q3] := calm_dyn_w names 0 (p :: xy) (seed_val sd) s1.
have [u [hu1 hu2]] := addt_lookup d dyn_name dyn_cols [:: "Seed"; "t"]%string.
have hu3 : lookup (s_working s1) dyn_name = Some u by rewrite /= /d2 addt_ne // eq_sym.
have hu4 : tcols u = dyn_cols by case: hu2 => [/sc [->]|[_ ->]].
have hd := @dyn_done W dyn_name 0 (p :: xy) (seed_val sd) s1 u hu3 hu4 erefl.
have hfu := @dyn_fuel W dyn_name 0 (p :: xy) (seed_val sd) s1 erefl.
rewrite /insert_dynamics_data.
case: insert_dynamics_from q1 q2 q3 hd hfu => s2 o /= q1 q2 q3 -> hfu.
rewrite first /= {1}/mbind {1}/mbind.
have lt : lookup (s_working s2) exp_name = Some t by rewrite q2.
have hc : tcols t = exp_cols by rewrite et.
have hm : ~~ has (matches t c) (trows t) by rewrite et.
have := @one_logs (p :: xy) w' s2 t q3 hfu lt hc hm; rewrite -/rows => /(_ hr).
have er : trows (insert_all t rows) = rows.
  by rewrite et all_fresh // => [|x _]; [rewrite /rows /rows_of; apply: log_keys|rewrite /present /= andbF].
case: one_setting => s3 o3 /= [h1 h2].
have c3 : consistent s3 by rewrite /consistent h1; exact: grown_refl.
have fin (X : st) : grown (s_durable s3) (s_durable X) -> exists2 t0, lookup (s_durable X) exp_name = Some t0 & exists rest, trows t0 = rows ++ rest.
  by case/(_ _ _ h2) => new h; eexists; [exact: h|exists new; rewrite /= er].
case: o3 => [[]|e|] /=; [|by apply: fin; exact: grown_refl|by apply: fin; exact: grown_refl].
have sf : safe (mbind (settings build sweep metrics num_iter exp_name override cs (p :: xy)) (fun _ =>
    full_sweep reseed simulate build sweep metrics num_iter dyn_name exp_name seeds trans powers damps override)).
  by apply: safe_bind => [|_]; [exact: safe_settings|exact: safe_full].
have [g1 _ _] := sf s3 c3; move: g1; rewrite {1}/mbind; case: settings => s4 [[]|e|] /= g1; exact: fin.
Qed.
End Starts.
