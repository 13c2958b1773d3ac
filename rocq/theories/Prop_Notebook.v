(** * C68: heat maps (Notebooks/PlotHeatmap.ipynb);
      C69: curves (Notebooks/PlotPerformanceAllSeeds.ipynb, PlotPerformanceSingleSeed.ipynb, ManyIterations.ipynb) *)
Set Warnings "-notation-overridden,-ambiguous-paths".
From mathcomp Require Import all_ssreflect all_algebra real_closed.realalg.
From Coq Require Import String.
From Verif Require Import Base ND Database FullSweep SpecDb DatabaseFacts SweepFacts SweepDone Display SpecDisplay DisplayFacts DisplayReport.
From Verif Require Import Plot SpecPlot PlotFacts Notebook SpecNotebook NotebookFacts NotebookSweep NotebookDraw NotebookCurves.
Set Implicit Arguments.
Unset Strict Implicit.
Unset Printing Implicit Defensive.
Import GRing.Theory Num.Theory Order.Theory.
Local Open Scope string_scope.
Local Open Scope ring_scope.

Section Stored.
Variable R : rcfType.
Variable scan : cond -> table -> seq row.
Hypothesis scans : any_order scan.
Variables (d : db) (name : string) (t : table).
Hypothesis here : lookup d name = Some t.
Hypothesis cols : tcols t = exp_cols.

(** whatever the order of the rows: there are images if and only if the query finds 361 rows, each row is one pixel, and the
    four images agree on which *)
Theorem C68_aligned tr sd it :
  let rs := [seq r <- trows t | [&& cell t r "Transform" == VText tr, cell t r "Seed" == sd & cell t r "Iter" == VNum it%:R]] in
  if size rs == 361%N then
    exists im rs', [/\ make_image_data scan d name tr sd it = Ok im, perm_eq rs' rs & forall i j : 'I_19, let r := nth [::] rs' (i * 19 + j) in
      [/\ i_rmse im i j = cell t r "RMSE", i_nll im i j = cell t r "NLL", i_power im i j = cell t r "Power" & i_damp im i j = cell t r "Damping"]]
  else make_image_data scan d name tr sd it = Err ValueErr.
Proof. exact: aligned. Qed.
(** whatever the history of the table: if the rows are read through the index of its key and the results of a 19 x 19 grid are
    stored, and no others, then the row of a pixel is its power and the column its damping *)
Theorem C68_index tr (s : int) it (ps ds : seq rat) : tkey t = exp_key -> unique_keys t -> index_order scan ->
  size ps = 19%N -> size ds = 19%N -> sorted <%R ps -> sorted <%R ds ->
  (forall p q, p \in ps -> q \in ds -> exists m, recorded t (result_key tr s it p q) m) ->
  (forall r, r \in trows t -> [&& cell t r "Transform" == VText tr, cell t r "Seed" == VNum s%:~R & cell t r "Iter" == VNum it%:R] ->
     exists p q, [/\ p \in ps, q \in ds & keyof t r = result_key tr s it p q]) ->
  exists2 im, make_image_data scan d name tr (VNum s%:~R) it = Ok im & shows t im tr s it ps ds.
Proof.
move=> h1 h2 h3 h4 h5 h6 h7 h8 h9; apply: (image_index scans here cols h1 h3 h2) => // r hr.
by rewrite holds_image; apply: h9.
Qed.
(** averages over the seeds; every seed must have its 361 rows *)
Theorem C68_seeds tr it (ss : seq val) (im : val -> images) : ss <> [::] ->
  (forall s, s \in ss -> make_image_data scan d name tr s it = Ok (im s)) ->
  (forall s, s \in ss -> forall i j, is_num (i_rmse (im s) i j) && is_num (i_nll (im s) i j)) ->
  all_seeds_image R scan d name tr it (Some ss) = Ok
    (\matrix_(i, j) ((\sum_(s <- ss) real_of R (i_rmse (im s) i j)) / (size ss)%:R),
     \matrix_(i, j) ((\sum_(s <- ss) real_of R (i_nll (im s) i j)) / (size ss)%:R),
     i_power (im (last VNull ss)), i_damp (im (last VNull ss))).
Proof. by move=> h1 h2 h3; apply: (seeds_image R here) => //; rewrite cols. Qed.
Theorem C68_all_seeds tr it ss x : all_seeds_image R scan d name tr it (Some ss) = Ok x ->
  forall s, s \in ss -> exists im, make_image_data scan d name tr s it = Ok im.
Proof. exact: seeds_complete. Qed.
(** without a list of seeds: every seed that occurs in the table, whatever it was used for *)
Theorem C68_found_seeds tr it :
  exists ss, [/\ uniq ss, ss =i [seq cell t r "Seed" | r <- trows t] & all_seeds_image R scan d name tr it None = all_seeds_image R scan d name tr it (Some ss)].
Proof. by apply: (seeds_none R scans tr it here); rewrite cols. Qed.
(** the picture: powers from the left to the right and dampings from the bottom to the top; 19 equidistant values from 0.1 to 1
    lie in the pixels of their results *)
Theorem C68_drawn tr it ss pr pn p q metric : all_seeds_image R scan d name tr it ss = Ok (pr, pn, p, q) ->
  exists2 h, plot_sweep R scan d name tr it metric ss = Ok h &
    (forall i j, h_pixels h i j = (if metric == "rmse" then pr else pn) j i) /\
    forall k, (k < 19)%N -> (pixel h k).1 <= nth 0 (linspace 10%:R^-1 1 19) k <= (pixel h k).2.
Proof.
move=> h; exists (Heatmap (\matrix_(i, j) (if metric == "rmse" then pr else pn) j i) 10%:R^-1 1); first exact: sweep_drawn h.
split=> [i j|k hk]; first by rewrite mxE.
apply: (pixel_holds (h := Heatmap _ 10%:R^-1 1) hk) => /=.
by rewrite invf_le1 ?ltr0n // ler1n.
Qed.

(** the curves for any history of the table, read through the index: two variables are controlled, the results at the values [vs]
    of the third are drawn in increasing order, at most 50 of them; averages and bands over the seeds are those of C64 *)
Theorem C69_index k1 v1 r1 k2 v2 r2 metric (ss : seq int) (trs : seq string) (vs : string -> seq rat) (m : string -> int -> rat -> val * val) :
  tkey t = exp_key -> unique_keys t -> index_order scan ->
  [&& k1 \in all_vars, k2 \in all_vars & k1 != k2] -> v1 != VNull -> v2 != VNull -> (metric == "rmse") || (metric == "nll") -> ss <> [::] ->
  (forall tr, tr \in trs -> sorted <%R (vs tr) /\ (1 < size (vs tr))%N) ->
  (forall tr s, tr \in trs -> s \in ss -> series t tr s k1 v1 k2 v2 (vs tr) (m tr s) /\ numeric (map (m tr s) (vs tr))) ->
  plot_experiment R scan d name [:: (k1, v1 :: r1); (k2, v2 :: r2)] metric (Some ss) trs =
  mapM (fun tr => plot_1d_data (Nd2 (\matrix_(i < size ss, j < minn 50 (size (vs tr)))
    real_of R (metric_of metric (m tr (nth 0 ss i) (nth 0 (vs tr) j)))))) trs.
Proof. exact: index_curves. Qed.
(** the control variables: exactly two, each with values *)
Theorem C69_control control metric ss trs figs : plot_experiment R scan d name control metric ss trs = Ok figs ->
  exists k1 v1 r1 k2 v2 r2, control = [:: (k1, v1 :: r1); (k2, v2 :: r2)] /\ k1 \in all_vars /\ k2 \in all_vars /\ (metric == "rmse") || (metric == "nll").
Proof. exact: control_guard. Qed.
(** a run with one result cannot be drawn *)
Theorem C69_single_row k1 v1 r1 k2 v2 r2 metric ss trs figs : plot_experiment R scan d name [:: (k1, v1 :: r1); (k2, v2 :: r2)] metric (Some ss) trs = Ok figs ->
  forall tr s, tr \in trs -> s \in ss ->
  count (fun r => [&& cell t r "Transform" == VText tr, cell t r "Seed" == VNum s%:~R, cell t r k1 == v1 & cell t r k2 == v2]) (trows t) != 1%N.
Proof. exact: (rows_not_one scans here). Qed.
(** nor can anything without a list of seeds *)
Theorem C69_no_seeds k1 v1 r1 k2 v2 r2 metric tr trs : (metric == "rmse") || (metric == "nll") -> k1 \in all_vars -> k2 \in all_vars ->
  plot_experiment R scan d name [:: (k1, v1 :: r1); (k2, v2 :: r2)] metric None (tr :: trs) = Err IndexErr.
Proof. by move=> h; apply: no_seeds; rewrite /metric_col; case: (metric == "rmse") h => //= ->. Qed.
(** the reference values: averages over the seeds of the first iteration of plain EP, in any order; all or nothing *)
Theorem C69_first_mean (ss : seq int) tr (m : int -> val * val) : tkey t = exp_key -> unique_keys t ->
  (forall s, s \in ss -> recorded t (result_key tr s 1 1 1) (m s)) -> numeric (map m ss) -> ss <> [::] ->
  first_iteration_mean R scan d name ss tr = Ok (Some ((\sum_(s <- ss) real_of R (m s).1) / (size ss)%:R), Some ((\sum_(s <- ss) real_of R (m s).2) / (size ss)%:R)).
Proof. by move=> h1 h2; apply: first_mean here cols h1 h2. Qed.
Theorem C69_first_missing (ss : seq int) tr s : tkey t = exp_key -> unique_keys t ->
  s \in ss -> (forall m, ~ recorded t (result_key tr s 1 1 1) m) -> first_iteration_mean R scan d name ss tr = Err IndexErr.
Proof. by move=> h1 h2; apply: first_mean_missing here cols h1 h2. Qed.
End Stored.

(** the third variable is the one that varies *)
Theorem C69_free k1 l1 k2 l2 : [&& k1 \in all_vars, k2 \in all_vars & k1 != k2] ->
  exists k3, [/\ split_variables [:: (k1, l1); (k2, l2)] = Ok ([:: k1; k2], [:: k3], [:: l1; l2]), k3 \in all_vars, k3 != k1 & k3 != k2].
Proof. exact: free_variable. Qed.
(** permuting [k] times brings value number k (mod N) of each control variable to the front; the lists stay in step *)
Theorem C69_permute (control : seq (string * seq val)) k : map fst (iter k permute control) = map fst control /\
  forall n, (n < size control)%N -> let l := (nth ("", [::]) control n).2 in let l' := (nth ("", [::]) (iter k permute control) n).2 in
  size l' = size l /\ forall i, (i < size l)%N -> nth VNull l' i = nth VNull l ((i + k) %% size l).
Proof. exact: permuted. Qed.

Section Sweep.
Variable R : rcfType.
Variable scan : cond -> table -> seq row.
Hypothesis scans : any_order scan.
Variable W : Type.
Variable reseed : int -> W -> W.
Variable simulate : W -> W * res data.
Variable build : cfg -> data -> W -> W * res unit.
Variable sweep : W -> W * res unit.
Variable metrics : W -> W * res (val * val).
Variables (num_iter : nat) (dyn_name exp_name : string).
Variables (seeds : seq int) (trans : seq string) (powers damps : seq rat).
Notation run o := (main reseed simulate build sweep metrics num_iter dyn_name exp_name seeds trans powers damps o).
Notation all_runs := (all_runs reseed simulate build sweep metrics num_iter seeds trans powers damps).

Section Complete.
Variables (override : bool) (d0 : db) (w : W).
Hypothesis names : dyn_name != exp_name.
Hypothesis seeding : forall seed w w', reseed seed w = reseed seed w'.
Hypothesis schemas : schema_ok dyn_name exp_name d0.
Hypothesis new : lookup d0 exp_name = None.
Hypothesis u1 : uniq seeds.
Hypothesis u2 : uniq trans.
Hypothesis u3 : uniq powers.
Hypothesis u4 : uniq damps.
Hypothesis done : (run override (start w d0 None)).2 = Done tt.
Let d := s_durable (run override (start w d0 None)).1.
Let measured s tr p q := run_of (all_runs w) (Cfg s tr p q).
(** a sweep of 19 x 19 settings whose runs all reached the iteration: the metrics of each setting are at its power and damping,
    if the rows come as they were stored, in any order of the settings, or through the index, with increasing settings *)
Theorem C68_sweep tr s it : s \in seeds -> tr \in trans -> (0 < it)%N -> size powers = 19%N -> size damps = 19%N ->
  (forall p q, p \in powers -> q \in damps -> (it <= size (measured s tr p q))%N) ->
  storage_order scan \/ [/\ index_order scan, sorted <%R powers & sorted <%R damps] ->
  exists2 im, make_image_data scan d exp_name tr (VNum s%:~R) it = Ok im & forall i j : 'I_19, let p := nth 0 powers i in let q := nth 0 damps j in
    [/\ i_power im i j = VNum p, i_damp im i j = VNum q & (i_rmse im i j, i_nll im i j) = nth (VNull, VNull) (measured s tr p q) it.-1].
Proof.
move=> h1 h2 h3; have hl := table_result names seeding schemas new u1 u2 u3 u4 done.
exact: (sweep_image scans hl (all_cfgs build sweep metrics num_iter trans powers damps (simulated names seeding schemas done)) u1 u2 u3 u4 h1 h2 h3).
Qed.
(** a single run that stopped before and there is no picture *)
Theorem C68_short tr s it p q : s \in seeds -> tr \in trans -> size powers = 19%N -> size damps = 19%N -> p \in powers -> q \in damps ->
  (size (measured s tr p q) < it)%N -> make_image_data scan d exp_name tr (VNum s%:~R) it = Err ValueErr.
Proof.
move=> h1 h2 hp hd h3 h4; rewrite ltnNge; have hl := table_result names seeding schemas new u1 u2 u3 u4 done.
exact: (sweep_short scans hl (all_cfgs build sweep metrics num_iter trans powers damps (simulated names seeding schemas done)) u1 u2 u3 u4 hp hd h3 h4).
Qed.
(** the curves after a sweep, from its beginning or through the index: the metrics of the first 50 iterations *)
Theorem C69_sweep p q k1 v1 r1 k2 v2 r2 metric (ss : seq int) (trs : seq string) (n : string -> nat) : storage_order scan \/ index_order scan ->
  (k1, v1, (k2, v2)) \in [:: ("Power", VNum p, ("Damping", VNum q)); ("Damping", VNum q, ("Power", VNum p))] ->
  (metric == "rmse") || (metric == "nll") -> ss <> [::] ->
  (forall tr s, tr \in trs -> s \in ss -> let run := measured s tr p q in [/\ size run = n tr, (1 < n tr)%N & numeric run]) ->
  plot_experiment R scan d exp_name [:: (k1, v1 :: r1); (k2, v2 :: r2)] metric (Some ss) trs =
  mapM (fun tr => plot_1d_data (Nd2 (\matrix_(i < size ss, j < minn 50 (n tr))
    real_of R (metric_of metric (nth (VNull, VNull) (measured (nth 0 ss i) tr p q) j))))) trs.
Proof.
move=> ho; have hl := table_result names seeding schemas new u1 u2 u3 u4 done.
have ul : uniq (map fst (all_runs w)) by rewrite (all_cfgs build sweep metrics num_iter trans powers damps (simulated names seeding schemas done)) everything_uniq.
exact: (sweep_curves R scans hl ul ho).
Qed.
Theorem C69_single tr s p q metric col : storage_order scan \/ index_order scan ->
  (metric, col) \in [:: ("rmse", "RMSE"); ("nll", "NLL")] -> let run := measured s tr p q in numeric run ->
  single_curve R scan d exp_name col tr s p q =
  if run is [::] then Err IndexErr
  else plot_1d_data (Nd2 (\matrix_(i < 1, j < size run) real_of R (metric_of metric (nth (VNull, VNull) run j)))).
Proof.
move=> ho hm; have hl := table_result names seeding schemas new u1 u2 u3 u4 done.
have ul : uniq (map fst (all_runs w)) by rewrite (all_cfgs build sweep metrics num_iter trans powers damps (simulated names seeding schemas done)) everything_uniq.
apply: (sweep_single R scans hl ul ho); by move: hm; rewrite !inE => /orP[] /eqP [-> ->].
Qed.
Theorem C69_many tr p q metric col (ss : seq int) n : storage_order scan \/ index_order scan ->
  (metric, col) \in [:: ("rmse", "RMSE"); ("nll", "NLL")] -> ss <> [::] ->
  (forall s, s \in ss -> let run := measured s tr p q in size run = n /\ numeric run) ->
  many_iterations R scan d exp_name col tr ss p q =
  if n == 1%N then Err IndexErr
  else plot_1d_data (Nd2 (\matrix_(i < size ss, j < n) real_of R (metric_of metric (nth (VNull, VNull) (measured (nth 0 ss i) tr p q) j)))).
Proof.
move=> ho hm; have hl := table_result names seeding schemas new u1 u2 u3 u4 done.
have ul : uniq (map fst (all_runs w)) by rewrite (all_cfgs build sweep metrics num_iter trans powers damps (simulated names seeding schemas done)) everything_uniq.
apply: (sweep_many R scans hl ul ho); by move: hm; rewrite !inE => /orP[] /eqP [-> ->].
Qed.
End Complete.

(** whatever is interrupted and repeated: a sweep of fewer than 361 settings of power and damping, such as the one of
    EP_FullSweep.py, never gives a heat map *)
Theorem C68_small o l d0 tr (s : int) it : dyn_name != exp_name -> lookup d0 exp_name = None ->
  (forall n t, lookup d0 n = Some t -> unique_keys t) -> (size powers * size damps < 361)%N ->
  let r := make_image_data scan (attempts reseed simulate build sweep metrics num_iter dyn_name exp_name seeds trans powers damps o l d0)
    exp_name tr (VNum s%:~R) it in r = Err ValueErr \/ r = Err DbErr.
Proof. by move=> names h1 h2 h3; apply: no_image. Qed.
End Sweep.

(** ** concrete cases *)
Module Case.
(** the rows as they were stored, and through the index *)
Definition stored (cs : cond) (t : table) : seq row := trows t.
Lemma stored_any : any_order stored. Proof. by move=> cs t; apply: perm_refl. Qed.
Lemma stored_order : storage_order stored. Proof. by []. Qed.
Definition indexed (cs : cond) (t : table) : seq row :=
  (sort (relpre (keyof t) key_le) [seq r <- trows t | holds t r cs] ++ [seq r <- trows t | ~~ holds t r cs])%SEQ.
Lemma indexed_any : any_order indexed.
Proof.
move=> cs t; rewrite /indexed; have h := permEl (perm_filterC (fun r => holds t r cs) (trows t)).
apply: perm_trans h; rewrite perm_cat2r; by rewrite perm_sort.
Qed.
Lemma indexed_order : index_order indexed.
Proof.
move=> cs t; rewrite /indexed filter_cat.
have -> : [seq r <- [seq r <- trows t | ~~ holds t r cs] | holds t r cs] = [::].
  by rewrite -filter_predI (eq_filter (a2 := pred0)) ?filter_pred0 // => r /=; case: (holds t r cs).
rewrite cats0; have /all_filterP -> : all (fun r => holds t r cs) (sort (relpre (keyof t) key_le) [seq r <- trows t | holds t r cs]).
  by rewrite all_sort filter_all.
rewrite sorted_map; apply: sort_sorted => a b; exact: key_total.
Qed.
(** settings measure their power and their damping *)
Definition W := (rat * rat)%type.
Definition reseed (s : int) (w : W) : W := (0, 0).
Definition simulate (w : W) : W * res data := (w, Ok [:: (VNum 1, VNum 2%:R)]).
Definition build (c : cfg) (xy : data) (w : W) : W * res unit := ((c_power c, c_damp c), Ok tt).
Definition sweep (w : W) : W * res unit := (w, Ok tt).
Definition metrics (w : W) : W * res (val * val) := (w, Ok (VNum w.1, VNum w.2)).
Definition w0 : W := (0, 0).
Definition lin : seq rat := Eval vm_compute in linspace 10%:R^-1 1 19.
Lemma lin_b : lin == linspace 10%:R^-1 1 19. Proof. by vm_compute. Qed.
Example lin_ok : lin = linspace 10%:R^-1 1 19. Proof. exact: (eqP lin_b). Qed.
Lemma lin_uniq : uniq lin. Proof. by vm_compute. Qed.
Lemma lin_sorted : sorted <%R lin. Proof. by vm_compute. Qed.
Notation swept ps ds d := (main reseed simulate build sweep metrics 1%N "SIM" "EXP" [:: Posz 7] [:: "UT"] ps ds false (start w0 d None)).
Notation runs ps ds := (all_runs reseed simulate build sweep metrics 1%N [:: Posz 7] [:: "UT"] ps ds w0).
Lemma seeding seed (w w' : W) : reseed seed w = reseed seed w'. Proof. by []. Qed.
Lemma schemas : schema_ok "SIM" "EXP" [::]. Proof. by []. Qed.
Lemma finished o n sds trs ps ds (d : db) : schema_ok "SIM" "EXP" d ->
  (main reseed simulate build sweep metrics n "SIM" "EXP" sds trs ps ds o (start w0 d None)).2 = Done tt.
Proof. by apply: main_done => // w; exists w, (VNum 1, VNum 2%:R), [::]. Qed.
Lemma reached_b : (fun l => all (fun p => all (fun q => run_of l (Cfg (Posz 7) "UT" p q) == [:: (VNum p, VNum q)]) lin) lin) (runs lin lin).
Proof. by vm_compute. Qed.
Lemma reached p q : p \in lin -> q \in lin -> run_of (runs lin lin) (Cfg (Posz 7) "UT" p q) = [:: (VNum p, VNum q)].
Proof. by move=> hp hq; move/allP: reached_b => /(_ p hp) /allP /(_ q hq) /eqP. Qed.
Definition d1 : db := s_durable (swept lin lin [::]).1.
(** 19 powers and 19 dampings: each pixel shows its power and its damping, in both orders of the rows *)
Example pictures scan : (scan = stored \/ scan = indexed) -> exists2 im, make_image_data scan d1 "EXP" "UT" (VNum 7%:~R) 1 = Ok im &
  forall i j : 'I_19, i_rmse im i j = VNum (nth 0 lin i) /\ i_nll im i j = VNum (nth 0 lin j).
Proof.
move=> h; have h1 : any_order scan by case: h => ->; [exact: stored_any | exact: indexed_any].
have h2 : storage_order scan \/ [/\ index_order scan, sorted <%R lin & sorted <%R lin].
  by case: h => ->; [left; exact: stored_order | right; split; [exact: indexed_order | exact: lin_sorted | exact: lin_sorted]].
have hr p q : p \in lin -> q \in lin -> (1 <= size (run_of (runs lin lin) (Cfg (Posz 7) "UT" p q)))%N by move=> i j; rewrite reached.
have [im e hi] := @C68_sweep scan h1 W reseed simulate build sweep metrics 1%N "SIM" "EXP" [:: Posz 7] [:: "UT"] lin lin false [::] w0
  isT seeding schemas erefl isT isT lin_uniq lin_uniq (finished _ _ _ _ _ _ schemas) "UT" (Posz 7) 1%N isT isT isT erefl erefl hr h2.
exists im; first exact e.
have hm (k : 'I_19) : nth 0 lin k \in lin by apply: mem_nth.
move=> i j; have h3 : nth (VNull, VNull) (run_of (runs lin lin) (Cfg (Posz 7) "UT" (nth 0 lin i) (nth 0 lin j))) 0 = (VNum (nth 0 lin i), VNum (nth 0 lin j)).
  by rewrite (reached (hm i) (hm j)).
have [_ _ h4] := hi i j; have h5 := etrans h4 h3.
by split; [exact (congr1 fst h5) | exact (congr1 snd h5)].
Qed.
(** settings with power 1/10 cannot be built: no picture *)
Definition build_high (c : cfg) (xy : data) (w : W) : W * res unit :=
  ((c_power c, c_damp c), if c_power c == 10%:R^-1 then Err LinAlgErr else Ok tt).
Lemma high o n sds trs ps ds (d : db) : schema_ok "SIM" "EXP" d ->
  (main reseed simulate build_high sweep metrics n "SIM" "EXP" sds trs ps ds o (start w0 d None)).2 = Done tt.
Proof.
apply: main_done => // [w|c xy w e]; first by exists w, (VNum 1, VNum 2%:R), [::].
by rewrite /build_high; case: (c_power c == _) => //= -[].
Qed.
Lemma high_b : run_of (all_runs reseed simulate build_high sweep metrics 1%N [:: Posz 7] [:: "UT"] lin lin w0) (Cfg (Posz 7) "UT" 10%:R^-1 1) == [::].
Proof. by vm_compute. Qed.
Lemma tenth_in : 10%:R^-1 \in lin. Proof. by vm_compute. Qed.
Lemma one_in : 1 \in lin. Proof. by vm_compute. Qed.
Example stopped : make_image_data stored (s_durable (main reseed simulate build_high sweep metrics 1%N "SIM" "EXP" [:: Posz 7] [:: "UT"] lin lin false (start w0 [::] None)).1)
  "EXP" "UT" (VNum 7%:~R) 1 = Err ValueErr.
Proof.
have h : (size (run_of (all_runs reseed simulate build_high sweep metrics 1%N [:: Posz 7] [:: "UT"] lin lin w0) (Cfg (Posz 7) "UT" 10%:R^-1 1)) < 1)%N.
  by rewrite (eqP high_b).
exact (@C68_short stored stored_any W reseed simulate build_high sweep metrics 1%N "SIM" "EXP" [:: Posz 7] [:: "UT"] lin lin false [::] w0
  isT seeding schemas erefl isT isT lin_uniq lin_uniq (high _ _ _ _ _ _ schemas) "UT" (Posz 7) 1%N 10%:R^-1 1 isT isT erefl erefl tenth_in one_in h).
Qed.
(** a sweep of one setting has no picture *)
Definition d2 : db := Eval vm_compute in s_durable (swept [:: 1] [:: 1] [::]).1.
Lemma d2E : d2 = s_durable (swept [:: 1] [:: 1] [::]).1. Proof. vm_compute; reflexivity. Qed.
Lemma d2_schema : schema_ok "SIM" "EXP" d2. Proof. by split=> t [<-]. Qed.
Lemma none_unique n (t : table) : lookup [::] n = Some t -> unique_keys t. Proof. by []. Qed.
Example too_small : let r := make_image_data indexed d2 "EXP" "UT" (VNum 7%:~R) 1 in r = Err ValueErr \/ r = Err DbErr.
Proof.
rewrite d2E; exact (@C68_small indexed indexed_any W reseed simulate build sweep metrics 1%N "SIM" "EXP" [:: Posz 7] [:: "UT"] [:: 1] [:: 1] false
  [:: (w0, None)] [::] "UT" (Posz 7) 1%N isT erefl none_unique isT).
Qed.
End Case.

(** the condition that the table is new cannot be dropped from C68_sweep, with rows as they were stored: after a sweep of power 1 and
    damping 1, the full sweep adds the other settings behind it *)
Theorem C68_history_refuted : exists2 d0 : db, schema_ok "SIM" "EXP" d0 &
  let d := s_durable (Case.swept Case.lin Case.lin d0).1 in (Case.swept Case.lin Case.lin d0).2 = Done tt /\
  ~ exists2 im, make_image_data Case.stored d "EXP" "UT" (VNum 7%:~R) 1 = Ok im & i_power im ord0 ord0 = VNum (nth 0 Case.lin 0).
Proof.
exists Case.d2; first exact: Case.d2_schema.
split; first exact: (Case.finished _ _ _ _ _ _ Case.d2_schema).
move=> [im].
have [new] := main_grown Case.reseed Case.simulate Case.build Case.sweep Case.metrics 1%N "SIM" "EXP" [:: Posz 7] [:: "UT"] Case.lin Case.lin false Case.w0 None (d := Case.d2) (name := "EXP") erefl.
move: (s_durable _) => d /= hl e.
have -> := first_pixel (tr := "UT") (sd := VNum 7%:~R) (it := 1%N) Case.stored_order hl erefl erefl isT e.
by move=> h; have := congr1 (fun v => if v is VNum q then q == 1 else true) h; vm_compute.
Qed.

Module Grid.
Import Case.
Definition FR := [rcfType of realalg].
(** a table with all results, stored from the last to the first *)
Definition result (pq : rat * rat) : row :=
  [:: VText "UT"; VNum 7%:R; VNum 2%:R; VNum pq.1; VNum pq.2; VNum (pq.1 + pq.2); VNum (pq.1 - pq.2); empty_list; empty_list].
Definition pairs : seq (rat * rat) := [seq (p, q) | p <- lin, q <- lin].
Definition grid := Table exp_cols exp_key (rev (map result pairs)).
Lemma grid_unique : unique_keys grid. Proof. by vm_compute. Qed.
Lemma grid_only r : r \in trows grid -> exists p q, [/\ p \in lin, q \in lin & r = result (p, q)].
Proof. by rewrite mem_rev => /mapP[_ /allpairsP[[p q] /= [hp hq ->]] ->]; exists p, q. Qed.
Lemma grid_all p q : p \in lin -> q \in lin -> result (p, q) \in trows grid.
Proof. by move=> hp hq; rewrite mem_rev; apply: map_f; apply: allpairs_f. Qed.
Lemma in_index : exists2 im, make_image_data indexed [:: ("EXP", grid)] "EXP" "UT" (VNum 7%:~R) 2 = Ok im & shows grid im "UT" 7 2 lin lin.
Proof.
apply: (@C68_index indexed indexed_any [:: ("EXP", grid)] "EXP" grid erefl erefl "UT" 7 2%N lin lin erefl grid_unique indexed_order erefl erefl lin_sorted lin_sorted).
  by move=> p q hp hq; exists (VNum (p + q), VNum (p - q)); exists (result (p, q)); first exact: grid_all.
by move=> r /grid_only [p [q [hp hq ->]]] _; exists p, q.
Qed.
(** so each pixel shows its power and damping and the metrics of this setting *)
Example in_place : exists2 im, make_image_data indexed [:: ("EXP", grid)] "EXP" "UT" (VNum 7%:~R) 2 = Ok im &
  forall i j : 'I_19, i_rmse im i j = VNum (nth 0 lin i + nth 0 lin j) /\ i_nll im i j = VNum (nth 0 lin i - nth 0 lin j).
Proof.
have [im e h] := in_index; exists im; first exact e.
move=> i j; have [_ _ [r /grid_only [p [q [_ _ ->]]]] /= [hk <- <-]] := h i j.
have hp : p = nth 0 lin i := congr1 (fun k => if nth VNull k 3 is VNum x then x else 0) hk.
have hq : q = nth 0 lin j := congr1 (fun k => if nth VNull k 4 is VNum x then x else 0) hk.
rewrite -hp -hq; split; reflexivity.
Qed.
Lemma all_same (T : eqType) (x : T) ss : uniq ss -> (forall s, s \in ss -> s = x) -> x \in ss -> ss = [:: x].
Proof.
case: ss => [|a [|b l]] // us h7 _; first by rewrite (h7 a (mem_head _ _)).
have ha := h7 a (mem_head _ _); have hb : b = x by apply: h7; rewrite !inE eqxx orbT.
by move: us; rewrite /= inE ha hb eqxx.
Qed.
(** the picture for the seeds: the seed is found in the table *)
Example drawn : exists2 h, plot_sweep FR indexed [:: ("EXP", grid)] "EXP" "UT" 2 "nll" None = Ok h &
  forall i j, h_pixels h i j = real_of FR (VNum (nth 0 lin j - nth 0 lin i)).
Proof.
have [im e hi] := in_place.
have [ss [us hs es]] := @C68_found_seeds FR indexed indexed_any [:: ("EXP", grid)] "EXP" grid erefl erefl "UT" 2%N.
have hs7 s : s \in ss -> s = VNum 7%:~R.
  by rewrite hs => /mapP[r /grid_only [p [q [_ _ ->]]] ->].
have hs1 : VNum 7%:~R \in ss by rewrite hs; apply/mapP; exists (result (1, 1)) => //; apply: grid_all; exact: one_in.
have e1 : ss = [:: VNum 7%:~R] := all_same us hs7 hs1.
have h1 s : s \in [:: VNum 7%:~R] -> make_image_data indexed [:: ("EXP", grid)] "EXP" "UT" s 2 = Ok im by rewrite inE => /eqP ->.
have h2 s : s \in [:: VNum 7%:~R] -> forall i j, is_num (i_rmse im i j) && is_num (i_nll im i j) by move=> _ i j; have [-> ->] := hi i j.
have h3 := @C68_seeds FR indexed [:: ("EXP", grid)] "EXP" grid erefl erefl "UT" 2%N [:: VNum 7%:~R] (fun _ => im) (fun h => match h with end) h1 h2.
rewrite e1 in es; rewrite -es in h3.
have [h e4 [h5 _]] := @C68_drawn FR indexed [:: ("EXP", grid)] "EXP" "UT" 2%N None _ _ _ _ "nll" h3.
exists h; first exact e4.
move=> i j; rewrite h5 [LHS]mxE; have [_ ->] := hi j i.
by rewrite big_seq1 divr1.
Qed.
(** a second seed without results: no picture *)
Example absent x : all_seeds_image FR indexed [:: ("EXP", grid)] "EXP" "UT" 2 (Some [:: VNum 7%:~R; VNum 8%:~R]) <> Ok x.
Proof.
move=> /C68_all_seeds h; have [|im] := h (VNum 8%:~R); first by [].
have hf : [seq r <- trows grid | [&& cell grid r "Transform" == VText "UT", cell grid r "Seed" == VNum 8%:~R & cell grid r "Iter" == VNum 2%:R]] = [::].
  apply/eqP; rewrite -size_eq0 size_filter -leqn0 leqNgt -has_count; apply/hasPn => r /grid_only [p [q [_ _ ->]]]; by vm_compute.
have := @C68_aligned indexed indexed_any [:: ("EXP", grid)] "EXP" grid erefl erefl "UT" (VNum 8%:~R) 2; cbv zeta; rewrite hf.
by move: (make_image_data _ _ _ _ _ _) => y ->.
Qed.
End Grid.

Module Curves.
Import Case.
Definition FR := [rcfType of realalg].
(** two seeds and three iterations *)
Notation swept := (main reseed simulate build sweep metrics 3%N "SIM" "EXP" [:: Posz 7; Posz 9] [:: "UT"] [:: 1; 2%:R^-1] [:: 1] false (start w0 [::] None)).
Notation runs := (all_runs reseed simulate build sweep metrics 3%N [:: Posz 7; Posz 9] [:: "UT"] [:: 1; 2%:R^-1] [:: 1] w0).
Lemma half_uniq : uniq [:: 1; 2%:R^-1 : rat]. Proof. by vm_compute. Qed.
Lemma runs_b : (fun l => all (fun s => run_of l (Cfg s "UT" 2%:R^-1 1) == nseq 3 (VNum 2%:R^-1, VNum 1)) [:: Posz 7; Posz 9]) runs.
Proof. by vm_compute. Qed.
Lemma runsE s : s \in [:: Posz 7; Posz 9] -> run_of runs (Cfg s "UT" 2%:R^-1 1) = nseq 3 (VNum 2%:R^-1, VNum 1).
Proof. by move=> h; move/allP: runs_b => /(_ s h) /eqP. Qed.
Lemma both (scan : cond -> table -> seq row) : scan = stored \/ scan = indexed -> any_order scan /\ (storage_order scan \/ index_order scan).
Proof.
move=> [->|->]; first by split; [exact: stored_any | left; exact: stored_order].
by split; [exact: indexed_any | right; exact: indexed_order].
Qed.
(** the curve of each seed with power 1/2: the metric "nll" is the damping, 1 *)
Example curve scan : scan = stored \/ scan = indexed ->
  plot_experiment FR scan (s_durable swept.1) "EXP" [:: ("Power", [:: VNum 2%:R^-1; VNum 1]); ("Damping", [:: VNum 1])] "nll" (Some [:: Posz 9; Posz 7]) [:: "UT"] =
  mapM (fun tr => plot_1d_data (Nd2 (\matrix_(i < 2, j < 3) real_of FR (metric_of "nll" (nth (VNull, VNull) (run_of runs (Cfg (nth 0 [:: Posz 9; Posz 7] i) tr 2%:R^-1 1)) j))))) [:: "UT"].
Proof.
move=> /both [h1 h2].
have hn tr s : tr \in [:: "UT"] -> s \in [:: Posz 9; Posz 7] -> let run := run_of runs (Cfg s tr 2%:R^-1 1) in [/\ size run = 3%N, (1 < 3)%N & numeric run].
  rewrite inE => /eqP -> hs; have hs' : s \in [:: Posz 7; Posz 9] by move: hs; rewrite !inE orbC.
  by rewrite /= (runsE hs').
exact (@C69_sweep FR scan h1 W reseed simulate build sweep metrics 3%N "SIM" "EXP" [:: Posz 7; Posz 9] [:: "UT"] [:: 1; 2%:R^-1] [:: 1] false [::] w0
  isT seeding schemas erefl isT isT half_uniq isT (finished _ _ _ _ _ _ schemas) 2%:R^-1 1 "Power" (VNum 2%:R^-1) [:: VNum 1] "Damping" (VNum 1) [::] "nll"
  [:: Posz 9; Posz 7] [:: "UT"] (fun _ => 3%N) h2 isT isT (fun h => match h with end) hn).
Qed.
(** a sweep of one iteration cannot be drawn *)
Example one_row scan figs : any_order scan -> plot_experiment FR scan d2 "EXP" [:: ("Power", [:: VNum 1]); ("Damping", [:: VNum 1])] "nll" (Some [:: Posz 7]) [:: "UT"] <> Ok figs.
Proof. by move=> h /(C69_single_row h (d := d2) (name := "EXP") erefl) /(_ "UT" (Posz 7) isT isT); vm_compute. Qed.
(** the reference value *)
Example reference scan : any_order scan -> first_iteration_mean FR scan d2 "EXP" [:: Posz 7] "UT" =
  Ok (Some ((\sum_(s <- [:: Posz 7]) real_of FR (VNum 1)) / (size [:: Posz 7])%:R), Some ((\sum_(s <- [:: Posz 7]) real_of FR (VNum 1)) / (size [:: Posz 7])%:R)).
Proof.
move=> h; have hr s : s \in [:: Posz 7] -> recorded (Table exp_cols exp_key [:: [:: VText "UT"; VNum 7%:R; VNum 1; VNum 1; VNum 1; VNum 1; VNum 1; empty_list; empty_list]]) (result_key "UT" s 1 1 1) (VNum 1, VNum 1).
  rewrite inE => /eqP ->; eexists; first exact: mem_head.
  by split.
exact (@C69_first_mean FR scan h d2 "EXP" _ erefl erefl [:: Posz 7] "UT" (fun _ => (VNum 1, VNum 1)) erefl isT hr isT (fun h => match h with end)).
Qed.
Example no_reference scan : any_order scan -> first_iteration_mean FR scan d2 "EXP" [:: Posz 7; Posz 8] "UT" = Err IndexErr.
Proof.
move=> h; apply: (@C69_first_missing FR scan h d2 "EXP" _ erefl erefl [:: Posz 7; Posz 8] "UT" (Posz 8) erefl isT isT) => m [r].
by rewrite inE => /eqP -> [].
Qed.
Example single scan : scan = stored \/ scan = indexed -> single_curve FR scan (s_durable swept.1) "EXP" "RMSE" "UT" (Posz 9) 2%:R^-1 1 =
  plot_1d_data (Nd2 (\matrix_(i < 1, j < 3) real_of FR (metric_of "rmse" (nth (VNull, VNull) (nseq 3 (VNum 2%:R^-1, VNum 1)) j)))).
Proof.
move=> /both [h1 h2]; have hs : Posz 9 \in [:: Posz 7; Posz 9] by [].
have hn : numeric (run_of runs (Cfg (Posz 9) "UT" 2%:R^-1 1)) by rewrite (runsE hs).
have := @C69_single FR scan h1 W reseed simulate build sweep metrics 3%N "SIM" "EXP" [:: Posz 7; Posz 9] [:: "UT"] [:: 1; 2%:R^-1] [:: 1] false [::] w0
  isT seeding schemas erefl isT isT half_uniq isT (finished _ _ _ _ _ _ schemas) "UT" (Posz 9) 2%:R^-1 1 "rmse" "RMSE" h2 isT hn.
rewrite (runsE hs) => h; exact h.
Qed.
Example many scan : scan = stored \/ scan = indexed -> many_iterations FR scan (s_durable swept.1) "EXP" "RMSE" "UT" [:: Posz 9; Posz 7] 2%:R^-1 1 =
  plot_1d_data (Nd2 (\matrix_(i < 2, j < 3) real_of FR (metric_of "rmse" (nth (VNull, VNull) (run_of runs (Cfg (nth 0 [:: Posz 9; Posz 7] i) "UT" 2%:R^-1 1)) j)))).
Proof.
move=> /both [h1 h2].
have hn s : s \in [:: Posz 9; Posz 7] -> let run := run_of runs (Cfg s "UT" 2%:R^-1 1) in size run = 3%N /\ numeric run.
  by move=> hs; have hs' : s \in [:: Posz 7; Posz 9] by [move: hs; rewrite !inE orbC]; rewrite /= (runsE hs').
exact (@C69_many FR scan h1 W reseed simulate build sweep metrics 3%N "SIM" "EXP" [:: Posz 7; Posz 9] [:: "UT"] [:: 1; 2%:R^-1] [:: 1] false [::] w0
  isT seeding schemas erefl isT isT half_uniq isT (finished _ _ _ _ _ _ schemas) "UT" 2%:R^-1 1 "rmse" "RMSE" [:: Posz 9; Posz 7] 3%N h2 isT (fun h => match h with end) hn).
Qed.
(** results for the powers 1, 2, 3 stored out of order *)
Definition result (p : rat) : row := [:: VText "UT"; VNum 7%:R; VNum 1; VNum p; VNum 1; VNum (p + 3%:R); VNum (p + 5%:R); empty_list; empty_list].
Definition t3 := Table exp_cols exp_key [:: result 3%:R; result 1; result 2%:R].
Definition powers3 : seq rat := [:: 1; 2%:R; 3%:R].
Lemma powers3_sorted : sorted <%R powers3. Proof. by vm_compute. Qed.
Lemma t3_unique : unique_keys t3. Proof. by vm_compute. Qed.
Lemma powers3_in p : p \in powers3 -> result p \in trows t3.
Proof. by rewrite !inE => /or3P[] /eqP ->; rewrite eqxx ?orbT. Qed.
Example ordered : plot_experiment FR indexed [:: ("EXP", t3)] "EXP" [:: ("Iter", [:: VNum 1]); ("Damping", [:: VNum 1])] "nll" (Some [:: Posz 7]) [:: "UT"] =
  mapM (fun tr => plot_1d_data (Nd2 (\matrix_(i < 1, j < 3) real_of FR (VNum (nth 0 powers3 j + 5%:R))))) [:: "UT"].
Proof.
have ho tr : tr \in [:: "UT"] -> sorted <%R powers3 /\ (1 < size powers3)%N by split; [exact: powers3_sorted |].
have hs tr s : tr \in [:: "UT"] -> s \in [:: Posz 7] ->
    series t3 tr s "Iter" (VNum 1) "Damping" (VNum 1) powers3 (fun p => (VNum (p + 3%:R), VNum (p + 5%:R))) /\ numeric [seq (VNum (p + 3%:R), VNum (p + 5%:R)) | p <- powers3].
  rewrite !inE => /eqP -> /eqP ->; split; last by [].
  split=> [p hp|r hr _]; first by exists (result p); [exact: powers3_in | split].
  by move: hr; rewrite !inE => /or3P[] /eqP ->; [exists 3%:R | exists 1 | exists 2%:R].
exact (@C69_index FR indexed indexed_any [:: ("EXP", t3)] "EXP" t3 erefl erefl "Iter" (VNum 1) [::] "Damping" (VNum 1) [::] "nll" [:: Posz 7] [:: "UT"]
  (fun _ => powers3) (fun _ _ p => (VNum (p + 3%:R), VNum (p + 5%:R))) erefl t3_unique indexed_order isT isT isT isT (fun h => match h with end) ho hs).
Qed.
Example one_control figs : plot_experiment FR indexed [:: ("EXP", t3)] "EXP" [:: ("Iter", [:: VNum 1])] "nll" (Some [:: Posz 7]) [:: "UT"] <> Ok figs.
Proof. by move=> /C69_control [k1 [v1 [r1 [k2 [v2 [r2 []]]]]]]. Qed.
Example no_list : plot_experiment FR indexed [:: ("EXP", t3)] "EXP" [:: ("Iter", [:: VNum 1]); ("Damping", [:: VNum 1])] "nll" None [:: "UT"] = Err IndexErr.
Proof. exact: C69_no_seeds. Qed.
Example rotated : iter 4 permute [:: ("Power", [:: VNum 1; VNum 2%:R; VNum 3%:R]); ("Damping", [:: VNum 4%:R; VNum 5%:R])] =
  [:: ("Power", [:: VNum 2%:R; VNum 3%:R; VNum 1]); ("Damping", [:: VNum 4%:R; VNum 5%:R])].
Proof. by []. Qed.
Example free : split_variables [:: ("Power", [:: VNum 1]); ("Iter", [:: VNum 1])] = Ok ([:: "Power"; "Iter"], [:: "Damping"], [:: [:: VNum 1]; [:: VNum 1]]).
Proof. by []. Qed.
End Curves.
Print Assumptions C68_aligned.
Print Assumptions C68_index.
Print Assumptions C68_seeds.
Print Assumptions C68_all_seeds.
Print Assumptions C68_found_seeds.
Print Assumptions C68_drawn.
Print Assumptions C69_index.
Print Assumptions C69_control.
Print Assumptions C69_single_row.
Print Assumptions C69_no_seeds.
Print Assumptions C69_first_mean.
Print Assumptions C69_first_missing.
Print Assumptions C69_free.
Print Assumptions C69_permute.
Print Assumptions C68_sweep.
Print Assumptions C68_short.
Print Assumptions C69_sweep.
Print Assumptions C69_single.
Print Assumptions C69_many.
Print Assumptions C68_small.
Print Assumptions C68_history_refuted.
