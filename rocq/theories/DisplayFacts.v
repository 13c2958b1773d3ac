(** * What a complete sweep leaves in a new table *)
Set Warnings "-notation-overridden,-ambiguous-paths".
From mathcomp Require Import all_ssreflect all_algebra.
From Coq Require Import String.
From Verif Require Import Base Database FullSweep SpecDb DatabaseFacts SweepFacts SpecDisplay.
Set Implicit Arguments.
Unset Strict Implicit.
Unset Printing Implicit Defensive.
Import GRing.Theory Num.Theory.

Definition cfg_code (c : cfg) := (c_seed c, c_trans c, c_power c, c_damp c).
Definition cfg_decode x := let: (s, t, p, d) := x in Cfg s t p d.
Lemma cfg_codeK : cancel cfg_code cfg_decode. Proof. by case. Qed.
Definition cfg_eqMixin := CanEqMixin cfg_codeK.
Canonical cfg_eqType := EqType cfg cfg_eqMixin.

(** ** rows of a setting *)
Definition of_setting (t : table) (c : cfg) (r : row) : bool :=
  [&& cell t r "Transform" == VText (c_trans c), cell t r "Seed" == seed_val (c_seed c),
      cell t r "Power" == VNum (c_power c) & cell t r "Damping" == VNum (c_damp c)].
Lemma matches_of t c r : matches t c r -> of_setting t c r.
Proof. by case/and5P=> h1 h2 h3 h4 _; apply/and4P. Qed.
Lemma seed_val_inj : injective seed_val.
Proof. by move=> a b [] /eqP; rewrite eqr_int => /eqP. Qed.
Lemma of_rows t c c' ms r : tcols t = exp_cols -> r \in rows_of c ms -> of_setting t c' r = (c' == c).
Proof.
move=> ht /(nthP [::]) [i]; rewrite /rows_of rows_size => hi <-; rewrite rows_nth // /of_setting /cell ht /=.
case: c c' => s tr p d [s' tr' p' d'] /=.
apply/and4P/eqP => [[/eqP[->] /eqP e /eqP[->] /eqP[->]]|[-> -> -> ->]]; last by split.
by have -> := seed_val_inj e.
Qed.
Lemma in_insert_all t rs r : r \in trows (insert_all t rs) -> r \in trows t \/ r \in rs.
Proof.
elim: rs t => [|x rs IH] t /=; first by left.
case/IH => h; last by right; rewrite inE h orbT.
move: h; rewrite /insert_ignore; case: ifP => _ /=; first by left.
by rewrite mem_rcons inE => /orP[/eqP->|]; [right; rewrite mem_head | left].
Qed.

(** no row of these settings is stored *)
Definition clear (cs : seq cfg) (S : tabs) : Prop := forall c, c \in cs -> ~~ has (of_setting (te S) c) (trows (te S)).
Lemma of_cols t t' c : tcols t = tcols t' -> of_setting t c =1 of_setting t' c.
Proof. by move=> h r; rewrite /of_setting /cell h. Qed.
Lemma clear_adde c cs ms S : wf S -> clear (c :: cs) S -> uniq (c :: cs) -> clear cs (adde (rows_of c ms) S).
Proof.
case=> _ _ hc _ h /= /andP[hn _] c' hc'; apply/hasPn => r /in_insert_all hr.
rewrite (of_cols c' (insert_all_cols _ _)).
case: hr => hr; first by have /hasPn := h c' (mem_behead (s := c :: cs) hc'); apply.
by rewrite (of_rows c' hc hr); apply: contra hn => /eqP <-.
Qed.
Lemma clear_sub cs cs' S : {subset cs' <= cs} -> clear cs S -> clear cs' S.
Proof. by move=> hs h c /hs; apply: h. Qed.

(** fresh rows are appended *)
Lemma rows_fresh t c ms : tcols t = exp_cols -> tkey t = exp_key -> ~~ has (of_setting t c) (trows t) ->
  trows (insert_all t (rows_of c ms)) = trows t ++ rows_of c ms.
Proof.
move=> hc hk hn; apply: all_fresh; first exact: log_keys.
move=> r hr; have : of_setting t c r by rewrite (of_rows c hc hr) eqxx.
move=> ho; rewrite /present negb_and; apply/orP; right; apply/negP => /mapP[r' hr' e].
move/hasPn/(_ r' hr')/negP: hn; apply.
move: e ho; rewrite /keyof hk /of_setting /= => -[-> -> _ -> ->]; by [].
Qed.

Section Same.
Variable W : Type.
Variable reseed : int -> W -> W.
Variable simulate : W -> W * res data.
Variable build : cfg -> data -> W -> W * res unit.
Variable sweep : W -> W * res unit.
Variable metrics : W -> W * res (val * val).
Variables (num_iter : nat) (dyn_name exp_name : string).
Hypothesis names : dyn_name != exp_name.
Variable base : db.
Variables (bd be : table).
Hypothesis hbd : lookup base dyn_name = Some bd.
Hypothesis hbe : lookup base exp_name = Some be.
Notation conc := (conc dyn_name exp_name base).
Notation settings := (settings build sweep metrics num_iter exp_name).
Notation full_sweep := (full_sweep reseed simulate build sweep metrics num_iter dyn_name exp_name).
Notation rsteps := (rsteps build sweep metrics num_iter).

(** ** on settings without stored rows [override] makes no difference *)
Lemma same_one c xy s S : s_working s = conc S -> ~~ has (of_setting (te S) c) (trows (te S)) ->
  one_setting build sweep metrics num_iter exp_name false c xy s = one_setting build sweep metrics num_iter exp_name true c xy s.
Proof.
move=> hs hn; rewrite /one_setting /exists_query /mbind /mdb hs (conc_exp names hbe) /mret.
have -> : has (matches (te S) c) (trows (te S)) = false; last by [].
by apply/negbTE; apply: contra hn => /hasP [r h1 h2]; apply/hasP; exists r => //; apply: matches_of.
Qed.
Lemma same_settings cs rest xy s S : wf S -> s_working s = conc S -> clear (cs ++ rest) S -> uniq (cs ++ rest) ->
  settings false cs xy s = settings true cs xy s /\
  ((settings true cs xy s).2 = Done tt -> exists2 S', wf S' /\ s_working (settings true cs xy s).1 = conc S' & clear rest S').
Proof.
elim: cs s S => [|c cs IH] s S hw hs hc hu; first by split=> // _; exists S.
have hn := hc c (mem_head _ _).
rewrite /= /mbind (same_one xy hs hn).
have [_ _ h3 _ _] := @impl_setting W build sweep metrics num_iter dyn_name exp_name true names base be hbe
  (eq (s_w s)) (fun _ => True) c xy _ (fun w e => congr1 _ (esym e)) (fun _ _ => Logic.I) (or_introl isT) s S hw hs erefl.
case: (one_setting _ _ _ _ _ _ _ _ _) h3 => s1 [[]|e|] //= h3.
have {h3} [h3 _] := h3 (fun x => notF (congr1 (fun o => if o is Died then true else false) x)).
set rows := rows_of _ _ in h3.
have hs1 : s_working s1 = conc (adde rows S) by rewrite h3; case: ifP.
have hw1 : wf (adde rows S) by apply: wf_adde.
have hc1 : clear (cs ++ rest) (adde rows S) by apply: (clear_adde _ hw hc hu).
by have [-> h5] := IH s1 (adde rows S) hw1 hs1 hc1 (andP hu).2.
Qed.

Lemma te_dsteps o sd t xy S : te (exec o (dsteps sd t xy) S).1 = te S /\ (exec o (dsteps sd t xy) S).2 = Done tt.
Proof. by elim: xy t S => [|[x y] xy IH] t S //=; case: (IH t.+1 (addd [:: [:: sd; VNum t%:R; x; y]] S)) => -> ->. Qed.

Definition everything (seeds : seq int) trans powers damps : seq cfg := flatten [seq product s trans powers damps | s <- seeds].
Lemma same_full seeds trans powers damps s S : wf S -> s_working s = conc S ->
  clear (everything seeds trans powers damps) S -> uniq (everything seeds trans powers damps) ->
  full_sweep seeds trans powers damps false s = full_sweep seeds trans powers damps true s.
Proof.
elim: seeds s S => [//|sd seeds IH] s S hw hs hc hu /=.
rewrite /mbind /mworld; case: (simulate _) => w1 [xy|//] /=.
set s1 := St _ _ _ _ _.
have hs1 : s_working s1 = conc S by [].
have [_ _ h3 _ _] := @impl_dyn W dyn_name exp_name true names base bd hbd (fun _ => True) (seed_val sd) 0 xy s1 S hw hs1 Logic.I.
rewrite /insert_dynamics_data; case: (insert_dynamics_from _ _ _ _ _) h3 => s2 [[]|e|] //= h3.
have {h3} [h3 _] := h3 (fun x => notF (congr1 (fun o => if o is Died then true else false) x)).
have [e1 _] := te_dsteps true (seed_val sd) 0 xy S.
set S2 := (exec _ _ _).1 in h3 e1.
have hw2 : wf S2 by apply: exec_wf.
have hc2 : clear (everything (sd :: seeds) trans powers damps) S2 by move=> c /hc; rewrite e1.
case: xy {e1} @S2 h3 hw2 hc2 => [//|p xy] S2 h3 hw2 hc2.
have [-> h5] := @same_settings _ _ (p :: xy) s2 S2 hw2 h3 hc2 hu.
case: (settings true _ _ _) h5 => s3 [[]|e|] //= /(_ erefl) [S3 [hw3 hs3] hc3].
by apply: IH hw3 hs3 hc3 _; move: hu; rewrite /everything /= cat_uniq => /and3P[].
Qed.

(** ** the rows *)
Lemma world_ofE c xy w : world_of build sweep metrics num_iter c xy w = setting_world build sweep metrics num_iter c xy w.
Proof. by []. Qed.
Definition logged_rows (l : seq (cfg * seq (val * val))) : seq row := flatten [seq rows_of cl.1 cl.2 | cl <- l].

Lemma exec_rsteps cs rest xy w S : wf S -> clear (cs ++ rest) S -> uniq (cs ++ rest) ->
  (exec true (rsteps cs xy w) S).2 = Done tt ->
  [/\ trows (te (exec true (rsteps cs xy w) S).1) = trows (te S) ++ logged_rows (runs build sweep metrics num_iter cs xy w)
    & clear rest (exec true (rsteps cs xy w) S).1].
Proof.
elim: cs w S => [|c cs IH] w S hw hc hu /=; first by rewrite cats0.
have hn := hc c (mem_head _ _).
set ll := setting_logs _ _ _ _ _ _ _; case: ifP => // hk; last by case: (ll.2) hk.
have hw1 : wf (adde (rows_of c ll.1) S) by apply: wf_adde.
have hc1 : clear (cs ++ rest) (adde (rows_of c ll.1) S) by apply: (clear_adde _ hw hc hu).
case/(IH _ _ hw1 hc1 (andP hu).2) => -> h; split=> //.
case: hw => _ _ h3 h4; rewrite /adde [te _]/= (rows_fresh _ h3 h4 hn) /logged_rows -catA world_ofE.
by [].
Qed.
Lemma exec_rplan seeds trans powers damps w S : wf S ->
  clear (everything seeds trans powers damps) S -> uniq (everything seeds trans powers damps) ->
  let r := exec true (rplan reseed simulate build sweep metrics num_iter seeds trans powers damps w) S in
  r.2 = Done tt ->
  trows (te r.1) = trows (te S) ++ logged_rows (all_runs reseed simulate build sweep metrics num_iter seeds trans powers damps w).
Proof.
elim: seeds S => [|sd seeds IH] S hw hc hu /=; first by rewrite cats0.
rewrite /all_runs /=; case: (simulate _) => w1 [xy|//] /=.
rewrite exec_cat.
have [e1 ->] := te_dsteps true (seed_val sd) 0 xy S.
have hw1 : wf (exec true (dsteps (seed_val sd) 0 xy) S).1 by apply: exec_wf.
set S1 := (exec _ _ _).1 in e1 hw1 *.
have hc1 : clear (everything (sd :: seeds) trans powers damps) S1 by move=> c /hc; rewrite e1.
case: xy @S1 e1 hw1 hc1 => [//|p xy] S1 e1 hw1 hc1.
rewrite exec_cat.
set ps := product _ _ _ _.
have := @exec_rsteps ps (everything seeds trans powers damps) (p :: xy) w1 S1 hw1 hc1 hu.
have := exec_wf true (rsteps ps (p :: xy) w1) hw1.
case: (exec true (rsteps _ _ _) S1) => S2 [[]|//|//] /= hw2 /(_ erefl) [h2 hc2] h.
have hu2 : uniq (everything seeds trans powers damps) by move: hu; rewrite /everything /= cat_uniq => /and3P[].
by rewrite (IH _ hw2 hc2 hu2 h) h2 e1 /logged_rows map_cat flatten_cat catA.
Qed.
End Same.

(** distinct arguments give distinct settings *)
Lemma product_uniq sd trans powers damps : uniq trans -> uniq powers -> uniq damps -> uniq (product sd trans powers damps).
Proof.
move=> h1 h2 h3; rewrite /product.
have -> : flatten [seq [seq Cfg sd t pd.1 pd.2 | pd <- [seq (p, d) | p <- powers, d <- damps]] | t <- trans] =
  [seq Cfg sd t pd.1 pd.2 | t <- trans, pd <- [seq (p, d) | p <- powers, d <- damps]] by [].
apply: allpairs_uniq => //; first by apply: allpairs_uniq => // -[a b] [a' b'] _ _ /= [-> ->].
by move=> [t [p d]] [t' [p' d']] _ _ /= [-> -> ->].
Qed.
Lemma product_seed sd trans powers damps c : c \in product sd trans powers damps -> c_seed c = sd.
Proof. by case/flattenP => l /mapP[t _ ->] /mapP[pd _ ->]. Qed.
Lemma in_product sd trans powers damps t p d : (Cfg sd t p d \in product sd trans powers damps) = [&& t \in trans, p \in powers & d \in damps].
Proof.
apply/flattenP/and3P => [[l /mapP[t' ht ->] /mapP[[p' d'] /allpairsP[[a b] [h1 h2 [-> ->]]] [-> -> ->]]] // | [h1 h2 h3]].
exists [seq Cfg sd t pd.1 pd.2 | pd <- [seq (p, d) | p <- powers, d <- damps]]; first by apply/mapP; exists t.
by apply/mapP; exists (p, d) => //; apply/allpairsP; exists (p, d).
Qed.
Lemma everything_uniq seeds trans powers damps : uniq seeds -> uniq trans -> uniq powers -> uniq damps -> uniq (everything seeds trans powers damps).
Proof.
move=> h0 h1 h2 h3; elim: seeds h0 => //= sd seeds IH /andP[hn hu].
rewrite /everything /= cat_uniq product_uniq //= IH // andbT.
apply/hasPn => c /flattenP[l /mapP[s' hs' ->] /product_seed hc]; apply/negP => /product_seed hd.
by move: hn; rewrite -hd hc hs'.
Qed.

Section Result.
Variable W : Type.
Variable reseed : int -> W -> W.
Variable simulate : W -> W * res data.
Variable build : cfg -> data -> W -> W * res unit.
Variable sweep : W -> W * res unit.
Variable metrics : W -> W * res (val * val).
Variables (num_iter : nat) (dyn_name exp_name : string).
Variables (seeds : seq int) (trans : seq string) (powers damps : seq rat).
Notation run o := (main reseed simulate build sweep metrics num_iter dyn_name exp_name seeds trans powers damps o).
Notation all_runs := (all_runs reseed simulate build sweep metrics num_iter seeds trans powers damps).
Notation everything := (everything seeds trans powers damps).

Lemma main_same d0 w : dyn_name != exp_name -> schema_ok dyn_name exp_name d0 -> lookup d0 exp_name = None -> uniq everything ->
  run false (start w d0 None) = run true (start w d0 None).
Proof.
move=> names sch hl hu.
have [S0 [hw hd he h0]] := init names sch.
rewrite /main /mbind /create_dynamics_table /create_experiment_table /start createE /= createE /=.
apply: (@same_full _ _ _ _ _ _ _ _ _ names _ _ _ hd he _ _ _ _ _ S0) => //.
move=> c _; move: he.
have [t [h1 h2]] := addt_lookup (addt d0 dyn_name dyn_cols [:: "Seed"; "t"]%string) exp_name exp_cols exp_key.
rewrite h1 => -[<-]; case: h2 => [|[_ ->]] //.
by rewrite addt_ne // hl.
Qed.

Lemma table_result override d0 w : dyn_name != exp_name -> (forall seed w w', reseed seed w = reseed seed w') ->
  schema_ok dyn_name exp_name d0 -> lookup d0 exp_name = None ->
  uniq seeds -> uniq trans -> uniq powers -> uniq damps ->
  (run override (start w d0 None)).2 = Done tt ->
  lookup (s_durable (run override (start w d0 None)).1) exp_name = Some (Table exp_cols exp_key (logged_rows (all_runs w))).
Proof.
move=> names seeding sch hl u1 u2 u3 u4.
have hu := everything_uniq u1 u2 u3 u4.
have -> : run override (start w d0 None) = run true (start w d0 None) by case: override; [|apply: main_same].
set d2 := addt (addt d0 dyn_name dyn_cols [:: "Seed"; "t"]%string) exp_name exp_cols exp_key.
set pl := rplan reseed simulate build sweep metrics num_iter seeds trans powers damps w.
have gp : goods true pl by apply: goods_rplan.
have fol bd be : lookup d2 dyn_name = Some bd -> lookup d2 exp_name = Some be ->
  impl dyn_name exp_name true d2 (fun _ : W => True)
    (full_sweep reseed simulate build sweep metrics num_iter dyn_name exp_name seeds trans powers damps true) pl (fun _ => True).
  by move=> h1 h2; have := impl_rfull simulate build sweep metrics num_iter names h1 h2 isT seeding seeds trans powers damps w; apply.
have [S0 [hw hd he h0]] := init names sch.
have [_ /(_ erefl) [i1 i2 i3]] := run_reach names gp fol w None hw hd he h0 (Or31 _ _ erefl).
rewrite i2 => hdone; rewrite i3 i1 (conc_exp names he).
have hS : te S0 = Table exp_cols exp_key [::].
  have [t [h1 h2]] := addt_lookup (addt d0 dyn_name dyn_cols [:: "Seed"; "t"]%string) exp_name exp_cols exp_key.
  move: he; rewrite h1 => -[<-]; case: h2 => [|[_ ->]] //.
  by rewrite addt_ne // hl.
have hc : clear everything S0 by move=> c _; rewrite hS.
have := exec_rplan hw hc hu hdone; rewrite hS /= => <-.
have : wf (exec true pl S0).1 by apply: exec_wf.
by case=> _ _; case: (te _) => a b c /= -> ->.
Qed.

(** every setting was run for every seed *)
Lemma runs_cfgs cs xy w : map fst (runs build sweep metrics num_iter cs xy w) = cs.
Proof. by elim: cs w => //= c cs IH w; rewrite IH. Qed.
Lemma simulated override d0 w : dyn_name != exp_name -> (forall seed w w', reseed seed w = reseed seed w') ->
  schema_ok dyn_name exp_name d0 ->
  (run override (start w d0 None)).2 = Done tt ->
  forall s, s \in seeds -> exists w1 p xy, simulate (reseed s w) = (w1, Ok (p :: xy)).
Proof.
move=> names seeding sch; rewrite /main /mbind /create_dynamics_table /create_experiment_table /start createE /= createE /=.
move: (St _ _ _ _ _); elim: seeds => [//|sd sds IH] s0 /=.
rewrite {1}/mbind /mworld /= /mbind (seeding sd _ w); case hs: (simulate _) => [w1 [xy|//]] /=.
rewrite /mbind; case: (insert_dynamics_data _ _ _ _) => s1 [[]|//|//].
case: xy hs => [|p xy] hs //.
case: (settings _ _ _ _ _ _ _ _ _) => s2 [[]|//|//] /IH h s; rewrite inE => /orP[/eqP->|/h //].
by exists w1, p, xy.
Qed.
Lemma all_cfgs w : (forall s, s \in seeds -> exists w1 p xy, simulate (reseed s w) = (w1, Ok (p :: xy))) ->
  map fst (all_runs w) = everything.
Proof.
rewrite /everything /SpecDisplay.all_runs; elim: seeds => //= sd sds IH h.
rewrite map_cat IH => [|s hs]; last by apply: h; rewrite inE hs orbT.
by have [w1 [p [xy ->]]] := h sd (mem_head _ _); rewrite runs_cfgs.
Qed.
Lemma of_all t p d : uniq trans -> uniq powers -> uniq damps -> t \in trans -> p \in powers -> d \in damps ->
  [seq c <- everything | is_setting t p d c] = [seq Cfg s t p d | s <- seeds].
Proof.
move=> u2 u3 u4 ht hp hd; rewrite /everything; elim: seeds => //= sd sds IH.
rewrite filter_cat IH -[RHS]cat1s; congr (_ ++ _).
have e : {in product sd trans powers damps, is_setting t p d =1 pred1 (Cfg sd t p d)}.
  move=> [s' t' p' d'] /product_seed /= ->; rewrite /is_setting /=.
  by apply/and3P/eqP => [[/eqP-> /eqP-> /eqP->]|[-> -> ->]].
by rewrite (eq_in_filter e) filter_pred1_uniq ?product_uniq // in_product ht hp hd.
Qed.
Lemma setting_seeds w t p d : (forall s, s \in seeds -> exists w1 p xy, simulate (reseed s w) = (w1, Ok (p :: xy))) ->
  uniq trans -> uniq powers -> uniq damps -> t \in trans -> p \in powers -> d \in damps ->
  [seq c_seed cl.1 | cl <- all_runs w & is_setting t p d cl.1] = seeds.
Proof.
move=> h u2 u3 u4 ht hp hd.
have -> : [seq c_seed cl.1 | cl <- all_runs w & is_setting t p d cl.1] = map c_seed [seq c <- map fst (all_runs w) | is_setting t p d c].
  by rewrite filter_map -map_comp.
by rewrite (all_cfgs h) of_all // -map_comp map_id.
Qed.
End Result.
