(** * The curves of the notebooks *)
Set Warnings "-notation-overridden,-ambiguous-paths".
From mathcomp Require Import all_ssreflect all_algebra.
From Coq Require Import String.
From Verif Require Import Base ND Database FullSweep SpecDb DatabaseFacts SweepFacts Display SpecDisplay DisplayFacts DisplayReport.
From Verif Require Import Plot SpecPlot Notebook SpecNotebook NotebookFacts NotebookSweep NotebookDraw.
Set Implicit Arguments.
Unset Strict Implicit.
Unset Printing Implicit Defensive.
Import GRing.Theory Num.Theory Order.Theory.
Local Open Scope string_scope.
Local Open Scope ring_scope.

(** ** the values found *)
Lemma cells_listed (T : eqType) (K : T -> seq val) (m : T -> val * val) (vs : seq T) t rs : unique_keys t ->
  {subset rs <= trows t} -> map (keyof t) rs = map K vs -> (forall v, v \in vs -> VNull \notin K v /\ recorded t (K v) (m v)) ->
  [seq cell t r "RMSE" | r <- rs] = [seq (m v).1 | v <- vs] /\ [seq cell t r "NLL" | r <- rs] = [seq (m v).2 | v <- vs].
Proof.
move=> hu; elim: rs vs => [|r rs IH] [|v vs] //= hs [e1 e2] h.
have [i1 i2] : [seq cell t r "RMSE" | r <- rs] = [seq (m v).1 | v <- vs] /\ [seq cell t r "NLL" | r <- rs] = [seq (m v).2 | v <- vs].
  by apply: IH => // [x hx|x hx]; [apply: hs | apply: h]; rewrite inE hx orbT.
have [hn [r' hr' [f1 f2 f3]]] := h v (mem_head _ _).
have er : r = r' by apply: (key_row hu) => //; rewrite ?hs ?mem_head ?e1 ?f1.
by rewrite er f2 f3 i1 i2.
Qed.
Definition vars_ok (k1 k2 : string) : bool := [&& k1 \in all_vars, k2 \in all_vars & k1 != k2].
Lemma vars_cases k1 k2 : vars_ok k1 k2 -> [\/ (k1, k2) = ("Power", "Damping"), (k1, k2) = ("Damping", "Power") | [\/ (k1, k2) = ("Power", "Iter"), (k1, k2) = ("Iter", "Power")
  | (k1, k2) = ("Damping", "Iter") \/ (k1, k2) = ("Iter", "Damping")]].
Proof.
rewrite /vars_ok !inE => /and3P[/or3P[] /eqP-> /or3P[] /eqP-> //= _]; try by [constructor 1|constructor 2|constructor 3; constructor 1|constructor 3; constructor 2].
- by constructor 3; constructor 3; left.
- by constructor 3; constructor 3; right.
Qed.
Ltac vars h := case: (vars_cases h) => [[-> ->]|[-> ->]|[[-> ->]|[-> ->]|[[-> ->]|[-> ->]]]].
Section Values.
Variable scan : cond -> table -> seq row.
Hypothesis scans : any_order scan.
Variables (d : db) (name : string) (t : table).
Hypothesis here : lookup d name = Some t.
Hypothesis cols : tcols t = exp_cols.
Hypothesis key : tkey t = exp_key.
Lemma curve_index tr s k1 v1 k2 v2 vs m : index_order scan -> unique_keys t -> vars_ok k1 k2 -> v1 != VNull -> v2 != VNull ->
  sorted <%R vs -> series t tr s k1 v1 k2 v2 vs m ->
  map (keyof t) (found scan t (curve_cond tr (VNum s%:~R) k1 v1 k2 v2)) = [seq at_key tr s k1 v1 k2 v2 (VNum v) | v <- vs].
Proof.
move=> ho hu hv n1 n2 hs [h1 h2].
apply: (@listed_index scan scans _ (fun v => at_key tr s k1 v1 k2 v2 (VNum v)) <=%R) => //.
- exact: le_trans.
- exact: le_anti.
- by vars hv => a b [].
- move=> a b _ _.
  have e : (if VNum a == VNum b then true else a <= b) = (a <= b) by rewrite -[VNum a == _]/(a == b); case: eqP => // ->; rewrite lexx.
  by vars hv; rewrite /at_key /key_le /= !eqxx.
- have z1 : (VNull == v1) = false by rewrite eq_sym (negbTE n1).
  have z2 : (VNull == v2) = false by rewrite eq_sym (negbTE n2).
  by move=> v _; vars hv; rewrite /at_key /= !inE ?z1 ?z2.
- by move=> r hr; rewrite /holds /= andbT => hh; apply: h2.
- move=> v hv'; have [r hr [e1 _ _]] := h1 v hv'; exists r => //; split=> //.
  by move: e1; rewrite keyofE // /holds /=; vars hv; rewrite /at_key /= => -[-> -> i3 i4 i5]; rewrite ?i3 ?i4 ?i5 !eqxx.
- by apply: (sorted_uniq lt_trans ltxx).
- by apply: sub_sorted hs => a b; apply: ltW.
Qed.
Lemma metric_cells (T : eqType) (K : T -> seq val) (m : T -> val * val) (vs : seq T) cs metric col : unique_keys t ->
  metric_col metric = Some col -> all (mem exp_cols) (map fst cs) ->
  map (keyof t) (found scan t cs) = map K vs -> (forall v, v \in vs -> VNull \notin K v /\ recorded t (K v) (m v)) ->
  exists2 rows, select_cols scan d name [:: col] cs = Ok rows & column 0 rows = [seq metric_of metric (m v) | v <- vs].
Proof.
move=> hu hm hc hk hr.
have [i1 i2] := cells_listed hu (fun r => fun h : r \in found scan t cs => (andP (etrans (esym (mem_found scans t cs r)) h)).1) hk hr.
have hcol : (col == "RMSE") || (col == "NLL").
  by move: hm; rewrite /metric_col; case: ifP => _; [case=> <-|case: ifP => // _ [<-]].
exists [seq [:: cell t r col] | r <- found scan t cs].
  rewrite (select_found _ here) //= cols; apply/andP; split=> //.
  by case/orP: hcol => /eqP ->.
rewrite /column -map_comp /metric_of; move: hm; rewrite /metric_col; case: ifP => _.
  by case=> <-; exact: i1.
by case: ifP => // _ [<-]; exact: i2.
Qed.
End Values.

(** ** the figure *)
Lemma eq_mapM (A : eqType) B (f g : A -> res B) l : (forall a, a \in l -> f a = g a) -> mapM f l = mapM g l.
Proof.
elim: l => //= a l IH h; rewrite (h a (mem_head _ _)) IH // => x hx; apply: h; by rewrite inE hx orbT.
Qed.
Section Figures.
Variable R : rcfType.
Notation real_of := (@real_of R).
Lemma eq_fig m n (A B : 'M[R]_(m, n)) : (forall i j, A i j = B i j) -> plot_1d_data (Nd2 A) = plot_1d_data (Nd2 B).
Proof. by move=> h; have -> : A = B by apply/matrixP. Qed.
Lemma draw_ok N n (l : seq (seq val)) : size l = N -> l <> [::] -> (forall r, r \in l -> size r = n /\ all is_num r) ->
  draw R l = plot_1d_data (Nd2 (\matrix_(i < N, j < n) real_of (nth VNull (nth [::] l i) j))).
Proof.
move=> <- hn h; case e: l hn => [//|r0 l'] _; rewrite -e.
have hr0 : r0 \in l by rewrite e mem_head.
have [hz _] := h _ hr0; rewrite /draw {1}e; cbv iota.
have -> : constant (map size l).
  by rewrite e /= hz; apply/allP => x /mapP[r hr ->] /=; have [-> _] : size r = n /\ all is_num r by apply: h; rewrite e inE hr orbT.
have -> : head [::] l = r0 by rewrite e.
rewrite hz floats_ok => [|i j]; last first.
  by rewrite mxE; have hi := mem_nth [::] (ltn_ord i); have [hs /all_nthP] := h _ hi; apply; rewrite hs.
rewrite bindE; congr (plot_1d_data (Nd2 _)); apply/matrixP => i j; by rewrite !mxE.
Qed.
(** the runs of each seed, given as lists of values, cut after 50 *)
Variable scan : cond -> table -> seq row.
Lemma plot_curves d name k1 v1 r1 k2 v2 r2 metric col (ss : seq int) (trs : seq string) (n : string -> nat) (vals : string -> int -> seq val) :
  metric_col metric = Some col -> k1 \in all_vars -> k2 \in all_vars -> ss <> [::] ->
  (forall tr s, tr \in trs -> s \in ss -> [/\ size (vals tr s) = n tr, (1 < n tr)%N, all is_num (vals tr s) &
     exists2 rows, select_cols scan d name [:: col] (curve_cond tr (VNum s%:~R) k1 v1 k2 v2) = Ok rows & column 0 rows = vals tr s]) ->
  plot_experiment R scan d name [:: (k1, v1 :: r1); (k2, v2 :: r2)] metric (Some ss) trs =
  mapM (fun tr => plot_1d_data (Nd2 (\matrix_(i < size ss, j < minn 50 (n tr)) real_of (nth VNull (vals tr (nth 0 ss i)) j)))) trs.
Proof.
move=> hm h1 h2 hn h; rewrite /plot_experiment hm /split_variables /= h1 h2 /= bindE.
have hs tr s : tr \in trs -> s \in ss -> seed_curve scan d name col tr k1 v1 k2 v2 s = Ok (take 50 (vals tr s)).
  move=> ht hs; have [e1 e2 _ [rows er ec]] := h tr s ht hs.
  by rewrite /seed_curve er bindE ec /first50 e1; case: eqP => // e; rewrite e in e2.
apply: eq_mapM => tr ht.
rewrite (mapM_in (g := fun s => take 50 (vals tr s))) => [|s hin]; last exact: hs.
rewrite bindE; etransitivity; first apply: (@draw_ok (size ss) (minn 50 (n tr))).
- by rewrite size_map.
- by case: (ss) hn.
- move=> r /mapP[s hin ->]; have [e1 e2 e3 _] := h tr s ht hin; split; first by rewrite size_take_min e1.
  by apply/allP => x /mem_take; apply: (allP e3).
apply: eq_fig => i j; rewrite [LHS]mxE [RHS]mxE (nth_map 0) // nth_take //.
by have := ltn_ord j; rewrite leq_min => /andP[].
Qed.
Lemma one_row_fails d name k1 v1 r1 k2 v2 r2 metric ss trs figs : plot_experiment R scan d name [:: (k1, v1 :: r1); (k2, v2 :: r2)] metric (Some ss) trs = Ok figs ->
  forall tr s, tr \in trs -> s \in ss -> exists col rows, [/\ metric_col metric = Some col,
    select_cols scan d name [:: col] (curve_cond tr (VNum s%:~R) k1 v1 k2 v2) = Ok rows & size rows != 1%N].
Proof.
rewrite /plot_experiment; case: (metric_col metric) => // col; rewrite /split_variables /=; case: ifP => _ //; rewrite bindE.
move=> e tr s ht hs; have [f ef] := mapM_inv e ht; have [l e2 _] := bind_ok ef.
have [c ec] := mapM_inv e2 hs; have [rows e1 e3] := bind_ok ec.
exists col, rows; split=> //; move: e3; rewrite /first50 /column size_map; by case: eqP.
Qed.
Lemma no_seeds d name k1 v1 r1 k2 v2 r2 metric tr trs : isSome (metric_col metric) -> k1 \in all_vars -> k2 \in all_vars ->
  plot_experiment R scan d name [:: (k1, v1 :: r1); (k2, v2 :: r2)] metric None (tr :: trs) = Err IndexErr.
Proof. by rewrite /plot_experiment; case: (metric_col metric) => // col _ h1 h2; rewrite /split_variables /= h1 h2. Qed.
Lemma control_guard d name control metric ss trs figs : plot_experiment R scan d name control metric ss trs = Ok figs ->
  exists k1 v1 r1 k2 v2 r2, control = [:: (k1, v1 :: r1); (k2, v2 :: r2)] /\ k1 \in all_vars /\ k2 \in all_vars /\ (metric == "rmse") || (metric == "nll").
Proof.
rewrite /plot_experiment /metric_col.
have E (b : bool) c : (if b then Some c else if metric == "nll" then Some "NLL" else None) <> None -> b || (metric == "nll") by case: b => //=; case: ifP.
case hm0: (if _ then _ else _) => [col|] //; have {E} hm : (metric == "rmse") || (metric == "nll") by apply: (E _ "RMSE"); rewrite hm0.
rewrite /split_variables; case: ifP => // hc; rewrite bindE.
case: control hc => [//|[k1 l1] [//|[k2 l2] [|//]]] /= /and3P[h1 h2 _].
by case: l1 => [//|v1 r1]; case: l2 => [//|v2 r2] _; exists k1, v1, r1, k2, v2, r2.
Qed.
Lemma free_variable k1 l1 k2 l2 : vars_ok k1 k2 -> exists k3, [/\ split_variables [:: (k1, l1); (k2, l2)] = Ok ([:: k1; k2], [:: k3], [:: l1; l2]), k3 \in all_vars, k3 != k1 & k3 != k2].
Proof.
move=> h; case: (vars_cases h) => [[-> ->]|[-> ->]|[[-> ->]|[-> ->]|[[-> ->]|[-> ->]]]].
- by exists "Iter". - by exists "Iter". - by exists "Damping". - by exists "Damping". - by exists "Power". - by exists "Power".
Qed.
(** ** averages of the first iteration *)
Lemma mapM_first (A : eqType) B (f : A -> res B) l e : (exists2 a, a \in l & f a = Err e) -> (forall a, a \in l -> f a = Err e \/ exists b, f a = Ok b) -> mapM f l = Err e.
Proof. exact: mapM_err. Qed.
Hypothesis scans : any_order scan.
Lemma first_listed d name t tr s m : lookup d name = Some t -> tcols t = exp_cols -> tkey t = exp_key -> unique_keys t ->
  recorded t (result_key tr s 1 1 1) m ->
  first_cell scan d name "RMSE" tr s = Ok m.1 /\ first_cell scan d name "NLL" tr s = Ok m.2.
Proof.
move=> hl hc hk hu hr; pose cs := [:: ("Transform", VText tr); ("Seed", VNum s%:~R); ("Damping", VNum 1); ("Power", VNum 1); ("Iter", VNum 1)].
have e : map (keyof t) (found scan t cs) = [:: result_key tr s 1 1 1].
  apply: perm_small_eq => //; apply: uniq_perm => //.
    apply: found_uniq => // r; rewrite mem_found // => /andP[_]; rewrite /holds /= andbT keyofE // => /and5P[/eqP-> /eqP-> /eqP-> /eqP-> /eqP->]; by [].
  move=> k; rewrite inE; apply/mapP/eqP => [[r]|->].
    by rewrite mem_found // => /andP[_]; rewrite /holds /= andbT keyofE // => /and5P[/eqP-> /eqP-> /eqP-> /eqP-> /eqP->] ->.
  case: hr => r hr [e1 _ _]; exists r => //; rewrite mem_found // hr /holds /= andbT.
  by move: e1; rewrite keyofE // => -[-> -> -> -> ->]; rewrite !eqxx.
have [i1 i2] := @cells_listed unit_eqType (fun=> result_key tr s 1 1 1) (fun=> m) [:: tt] t (found scan t cs) hu
  (fun r => fun h : r \in found scan t cs => (andP (etrans (esym (mem_found scans t cs r)) h)).1) e (fun _ _ => conj isT hr).
rewrite /first_cell -/cs !(select_found _ hl) ?hc // !bindE.
by move: i1 i2; case: (found scan t cs) => [|r rs] //= [<- _] [<- _].
Qed.
Lemma first_missing d name t col tr s : lookup d name = Some t -> tcols t = exp_cols -> tkey t = exp_key -> col \in exp_cols ->
  (forall m, ~ recorded t (result_key tr s 1 1 1) m) -> first_cell scan d name col tr s = Err IndexErr.
Proof.
move=> hl hc hk hcol hr; rewrite /first_cell (select_found _ hl) ?hc ?bindE; last by rewrite /= hcol.
case e: (found scan t _) => [|r rs] //; exfalso.
have := mem_head r rs; rewrite -e mem_found // => /andP[h1]; rewrite /holds /= andbT => /and5P[/eqP e1 /eqP e2 /eqP e3 /eqP e4 /eqP e5].
apply: (hr (cell t r "RMSE", cell t r "NLL")); exists r => //; split=> //; by rewrite keyofE // e1 e2 e3 e4 e5.
Qed.
Lemma averageE vs : all is_num vs -> average R vs = Ok (if vs is [::] then None else Some ((\sum_(v <- vs) real_of v) / (size vs)%:R)).
Proof.
move=> h; rewrite /average numbers_ok // bindE; case: vs h => // v vs _; congr (Ok (Some _)).
by rewrite /np_mean size_map big_map mulrC.
Qed.
Lemma first_mean d name t (ss : seq int) tr (m : int -> val * val) : lookup d name = Some t -> tcols t = exp_cols -> tkey t = exp_key -> unique_keys t ->
  (forall s, s \in ss -> recorded t (result_key tr s 1 1 1) (m s)) -> numeric (map m ss) -> ss <> [::] ->
  first_iteration_mean R scan d name ss tr = Ok (Some ((\sum_(s <- ss) real_of (m s).1) / (size ss)%:R), Some ((\sum_(s <- ss) real_of (m s).2) / (size ss)%:R)).
Proof.
move=> hl hc hk hu hr hn hs; rewrite /first_iteration_mean (mapM_in (g := m)) => [|s hin]; last first.
  by have [-> ->] := first_listed hl hc hk hu (hr s hin); rewrite !bindE; case: (m s).
rewrite bindE -!map_comp.
have h1 : all is_num (map (fst \o m) ss) by rewrite all_map; apply/allP => s hin; have /allP := hn => /(_ _ (map_f m hin)) /andP[].
have h2 : all is_num (map (snd \o m) ss) by rewrite all_map; apply/allP => s hin; have /allP := hn => /(_ _ (map_f m hin)) /andP[].
rewrite (averageE h1) (averageE h2) !bindE; case: (ss) hs => // s ss' _; rewrite /= !size_map.
by rewrite -[(m s).1 :: _]/(map (fst \o m) (s :: ss')) -[(m s).2 :: _]/(map (snd \o m) (s :: ss')) !big_map.
Qed.
Lemma first_mean_missing d name t (ss : seq int) tr s : lookup d name = Some t -> tcols t = exp_cols -> tkey t = exp_key -> unique_keys t ->
  s \in ss -> (forall m, ~ recorded t (result_key tr s 1 1 1) m) -> first_iteration_mean R scan d name ss tr = Err IndexErr.
Proof.
move=> hl hc hk hu hin hr; rewrite /first_iteration_mean (@mapM_first _ _ _ _ IndexErr) //.
  by exists s => //; rewrite (first_missing hl).
move=> s' _; rewrite /first_cell !(select_found _ hl) ?hc // !bindE.
case: (found scan t _) => [|r rs] /=; first by left.
by right; eexists; rewrite !bindE; reflexivity.
Qed.
End Figures.

(** ** rotating the control variables *)
Lemma permute_rot A (x0 : A) v : permute_list x0 v = rot 1 v.
Proof.
apply: (@eq_from_nth _ x0) => [|i]; first by rewrite size_rot size_map size_iota.
rewrite size_map size_iota => hi; rewrite (nth_map 0%N) ?size_iota // nth_iota // add1n.
case: v hi => // a v hi; rewrite rot1_cons nth_rcons /=; case: (ltngtP i (size v)) => h.
- by rewrite modn_small.
- by move: hi; rewrite /= ltnS leqNgt h.
- by rewrite h modnn.
Qed.
Lemma iter_permute A (x0 : A) v k i : (i < size v)%N -> nth x0 (iter k (permute_list x0) v) i = nth x0 v ((i + k) %% size v).
Proof.
move=> hi; elim: k i hi => [|k IH] i hi; first by rewrite addn0 modn_small.
have hsz : size (iter k (permute_list x0) v) = size v by elim: (k) => //= k' IHk; rewrite permute_rot size_rot.
rewrite iterS /permute_list hsz (nth_map 0%N) ?size_iota // nth_iota // add1n IH; last by rewrite ltn_mod (leq_ltn_trans _ hi).
by rewrite modnDml addSnnS.
Qed.
Lemma iter_permute_map k control : iter k permute control = [seq (p.1, iter k (permute_list VNull) p.2) | p <- control].
Proof.
elim: k => [|k IH]; first by rewrite /=; elim: control => //= -[a b] l <-.
by rewrite iterS IH /permute -map_comp; apply: eq_map => p.
Qed.

(** ** curves after a sweep *)
Section Sweep.
Variable R : rcfType.
Notation real_of := (@real_of R).
Variable scan : cond -> table -> seq row.
Hypothesis scans : any_order scan.
Variables (d : db) (name : string) (l : seq (cfg * seq (val * val))).
Hypothesis here : lookup d name = Some (results l).
Hypothesis ul : uniq (map fst l).
Hypothesis order : storage_order scan \/ index_order scan.
Definition of_setting (c : cfg) (cs : cond) : Prop :=
  forall r, holds (results l) r cs = [&& cell (results l) r "Transform" == VText (c_trans c), cell (results l) r "Seed" == VNum (c_seed c)%:~R,
    cell (results l) r "Power" == VNum (c_power c) & cell (results l) r "Damping" == VNum (c_damp c)].
Lemma setting_holds c0 cs r c k : of_setting c0 cs -> keyof (results l) r = key_at c k -> holds (results l) r cs = (c == c0).
Proof.
move=> h; rewrite keyofE // h => -[-> -> _ -> ->].
rewrite -[VText _ == _]/(c_trans c == c_trans c0) -[VNum _ == VNum _%:~R]/((c_seed c)%:~R == (c_seed c0)%:~R :> rat) eqr_int.
rewrite -[VNum (c_power c) == _]/(c_power c == c_power c0) -[VNum (c_damp c) == _]/(c_damp c == c_damp c0) -sameE.
by case: (c_trans c == _); case: (c_seed c == _).
Qed.
Lemma setting_keys c0 cs : of_setting c0 cs -> map (keyof (results l)) (found scan (results l) cs) = [seq key_at c0 k | k <- iota 1 (size (run_of l c0))].
Proof.
move=> hc; case: order => ho.
  rewrite /found ho; apply: (@logged_setting (results l) erefl erefl) => // r c k; exact: setting_holds.
apply: (@listed_index scan scans _ (fun k => key_at c0 k) leq) => //.
- exact: (results_unique ul).
- exact: leq_trans.
- exact: anti_leq.
- by move=> a b /key_at_inj [].
- move=> a b _ _; rewrite /key_at /result_key /key_le !eqxx -[VNum a%:R == _]/(a%:R == b%:R :> rat) eqr_nat.
  by case: eqP => [->|_] /=; [rewrite leqnn | rewrite ler_nat].
- move=> r hr hh; have [c [k [e1 e2 _]]] := results_row ul hr; move: hh; rewrite (setting_holds hc e1) => /eqP ec.
  by exists k.+1; [rewrite mem_iota /= add1n ltnS -ec | rewrite e1 ec].
- move=> k; rewrite mem_iota add1n ltnS => /andP[h0 hk].
  have [|r hr [e _ _]] := @results_recorded l c0 k.-1 ul; first by rewrite prednK.
  rewrite prednK // in e; exists r => //; split=> //.
  by rewrite (setting_holds hc e).
- exact: iota_uniq.
- exact: iota_sorted.
Qed.
Lemma setting_values c0 cs metric col : of_setting c0 cs -> all (mem exp_cols) (map fst cs) -> metric_col metric = Some col ->
  exists2 rows, select_cols scan d name [:: col] cs = Ok rows & column 0 rows = [seq metric_of metric m | m <- run_of l c0].
Proof.
move=> hc ha hm.
have hr k : k \in iota 1 (size (run_of l c0)) -> VNull \notin key_at c0 k /\ recorded (results l) (key_at c0 k) (nth (VNull, VNull) (run_of l c0) k.-1).
  rewrite mem_iota add1n ltnS => /andP[h0 hk]; split=> //.
  by have := @results_recorded l c0 k.-1 ul; rewrite prednK //; apply.
have [rows e1 e2] := metric_cells scans here erefl (results_unique ul) hm ha (setting_keys hc) hr.
exists rows => //; rewrite e2.
have -> : iota 1 (size (run_of l c0)) = map (addn 1) (iota 0 (size (run_of l c0))) by rewrite -iotaDl.
apply: (@eq_from_nth _ VNull) => [|k]; first by rewrite !size_map size_iota.
rewrite !size_map size_iota => hk; rewrite (nth_map 0%N) ?size_map ?size_iota // (nth_map (VNull, VNull)) //.
by rewrite (nth_map 0%N) ?size_iota // nth_iota.
Qed.
Lemma curve_setting tr s p q k1 v1 k2 v2 : (k1, v1, (k2, v2)) \in [:: ("Power", VNum p, ("Damping", VNum q)); ("Damping", VNum q, ("Power", VNum p))] ->
  of_setting (Cfg s tr p q) (curve_cond tr (VNum s%:~R) k1 v1 k2 v2) /\ all (mem exp_cols) (map fst (curve_cond tr (VNum s%:~R) k1 v1 k2 v2)).
Proof.
rewrite !inE => /orP[] /eqP [-> -> -> ->]; split=> // r; rewrite /holds /= andbT //.
by congr (_ && (_ && _)); rewrite andbC.
Qed.
Lemma sweep_curves p q k1 v1 r1 k2 v2 r2 metric (ss : seq int) (trs : seq string) (n : string -> nat) :
  (k1, v1, (k2, v2)) \in [:: ("Power", VNum p, ("Damping", VNum q)); ("Damping", VNum q, ("Power", VNum p))] ->
  (metric == "rmse") || (metric == "nll") -> ss <> [::] ->
  (forall tr s, tr \in trs -> s \in ss -> let run := run_of l (Cfg s tr p q) in [/\ size run = n tr, (1 < n tr)%N & numeric run]) ->
  plot_experiment R scan d name [:: (k1, v1 :: r1); (k2, v2 :: r2)] metric (Some ss) trs =
  mapM (fun tr => plot_1d_data (Nd2 (\matrix_(i < size ss, j < minn 50 (n tr))
    real_of (metric_of metric (nth (VNull, VNull) (run_of l (Cfg (nth 0 ss i) tr p q)) j))))) trs.
Proof.
move=> hk hm hs h.
have [col hcol] : exists col, metric_col metric = Some col.
  by rewrite /metric_col; case/orP: hm => ->; [exists "RMSE" | case: ifP => _; [exists "RMSE" | exists "NLL"]].
have [k1v k2v] : k1 \in all_vars /\ k2 \in all_vars by move: hk; rewrite !inE => /orP[] /eqP [-> _ -> _].
pose vals (tr : string) (s : int) : seq val := [seq metric_of metric m | m <- run_of l (Cfg s tr p q)].
etransitivity; first apply: (@plot_curves R scan d name k1 v1 r1 k2 v2 r2 metric col ss trs n vals hcol k1v k2v hs).
  move=> tr s ht hin; have [e1 e2 e3] := h tr s ht hin; split; first by rewrite /vals size_map.
  - exact e2.
  - rewrite /vals all_map; apply: sub_all e3 => m /= /andP[m1 m2]; by rewrite /metric_of; case: ifP.
  - have [hc ha] := curve_setting tr s hk; exact: (setting_values hc ha hcol).
apply: eq_mapM => tr ht; apply: eq_fig => i j; rewrite [LHS]mxE [RHS]mxE.
have [e _ _] := h tr (nth 0 ss i) ht (mem_nth _ (ltn_ord i)).
rewrite /vals (nth_map (VNull, VNull)) //.
have hj := ltn_ord j; rewrite leq_min in hj; case/andP: hj => _ hj; exact: (leq_trans hj (eq_leq (esym e))).
Qed.
Lemma setting_of tr s p q : of_setting (Cfg s tr p q) (setting_cond tr s p q).
Proof. by move=> r; rewrite /holds /= andbT. Qed.
Lemma sweep_single tr s p q metric col : metric_col metric = Some col -> let run := run_of l (Cfg s tr p q) in
  numeric run ->
  single_curve R scan d name col tr s p q =
  if run is [::] then Err IndexErr
  else plot_1d_data (Nd2 (\matrix_(i < 1, j < size run) real_of (metric_of metric (nth (VNull, VNull) run j)))).
Proof.
move=> hm run hn; rewrite /single_curve.
have [rows -> e] := @setting_values (Cfg s tr p q) (setting_cond tr s p q) metric col (@setting_of tr s p q) isT hm.
rewrite bindE -/run in e *; case e2: run => [|m ms].
  by move: e; rewrite e2; case: (rows).
case e3: rows => [|r rows']; first by move: e; rewrite e2 e3.
rewrite -e2 -e3 e; etransitivity; first apply: (@draw_ok R 1 (size run)); first by [].
- by [].
- move=> x; rewrite inE => /eqP ->; rewrite size_map; split=> //.
  rewrite all_map; apply: sub_all hn => k /= /andP[m1 m2]; by rewrite /metric_of; case: ifP.
apply: eq_fig => i j; rewrite [LHS]mxE [RHS]mxE ord1 /= (nth_map (VNull, VNull)) //.
Qed.
Lemma sweep_many tr p q metric col (ss : seq int) n : metric_col metric = Some col -> ss <> [::] ->
  (forall s, s \in ss -> let run := run_of l (Cfg s tr p q) in size run = n /\ numeric run) ->
  many_iterations R scan d name col tr ss p q =
  if n == 1%N then Err IndexErr
  else plot_1d_data (Nd2 (\matrix_(i < size ss, j < n) real_of (metric_of metric (nth (VNull, VNull) (run_of l (Cfg (nth 0 ss i) tr p q)) j)))).
Proof.
move=> hm hs h; rewrite /many_iterations.
have hv s := @setting_values (Cfg s tr p q) (setting_cond tr s p q) metric col (@setting_of tr s p q) isT hm.
have [rows e1 e2] : exists2 rows, mapM (fun s => select_cols scan d name [:: col] (setting_cond tr s p q)) ss = Ok rows
  & map (column 0) rows = [seq [seq metric_of metric m | m <- run_of l (Cfg s tr p q)] | s <- ss].
  elim: (ss) => [|s ss' [rows e1 e2]] /=; first by exists [::].
  have [r er ec] := hv s; exists (r :: rows); first by rewrite er bindE e1 bindE.
  by rewrite /= ec e2.
rewrite e1 bindE e2 all_map.
have -> : all (preim (fun s => [seq metric_of metric m | m <- run_of l (Cfg s tr p q)]) (fun r => size r == 1%N)) ss = (n == 1%N).
  case: (ss) hs h => [//|s ss'] _ h /=; rewrite size_map; have [-> _] := h s (mem_head _ _).
  case: eqP => // e; apply/allP => x hx /=; rewrite size_map; have [-> _] : size (run_of l (Cfg x tr p q)) = n /\ numeric (run_of l (Cfg x tr p q)).
    by apply: h; rewrite inE hx orbT.
  by rewrite e.
case: ifP => // _; etransitivity; first apply: (@draw_ok R (size ss) n).
- by rewrite size_map.
- by case: (ss) hs.
- move=> x /mapP[s hin ->]; have [e3 e4] := h s hin; rewrite size_map; split=> //.
  rewrite all_map; apply: sub_all e4 => k /= /andP[m1 m2]; by rewrite /metric_of; case: ifP.
apply: eq_fig => i j; rewrite [LHS]mxE [RHS]mxE (nth_map 0) // (nth_map (VNull, VNull)) //.
by have [-> _] := h (nth 0 ss i) (mem_nth _ (ltn_ord i)).
Qed.
End Sweep.

Section Index.
Variable R : rcfType.
Variable scan : cond -> table -> seq row.
Hypothesis scans : any_order scan.
Variables (d : db) (name : string) (t : table).
Hypothesis here : lookup d name = Some t.
Hypothesis cols : tcols t = exp_cols.
Lemma index_curves k1 v1 r1 k2 v2 r2 metric (ss : seq int) (trs : seq string) (vs : string -> seq rat) (m : string -> int -> rat -> val * val) :
  tkey t = exp_key -> unique_keys t -> index_order scan ->
  vars_ok k1 k2 -> v1 != VNull -> v2 != VNull -> (metric == "rmse") || (metric == "nll") -> ss <> [::] ->
  (forall tr, tr \in trs -> sorted <%R (vs tr) /\ (1 < size (vs tr))%N) ->
  (forall tr s, tr \in trs -> s \in ss -> series t tr s k1 v1 k2 v2 (vs tr) (m tr s) /\ numeric (map (m tr s) (vs tr))) ->
  plot_experiment R scan d name [:: (k1, v1 :: r1); (k2, v2 :: r2)] metric (Some ss) trs =
  mapM (fun tr => plot_1d_data (Nd2 (\matrix_(i < size ss, j < minn 50 (size (vs tr)))
    real_of R (metric_of metric (m tr (nth 0 ss i) (nth 0 (vs tr) j)))))) trs.
Proof.
move=> key hu ho hv n1 n2 hm hs hvs h.
have [col hcol] : exists col, metric_col metric = Some col.
  by rewrite /metric_col; case/orP: hm => ->; [exists "RMSE" | case: ifP => _; [exists "RMSE" | exists "NLL"]].
have /and3P[k1v k2v _] := hv.
pose vals (tr : string) (s : int) : seq val := [seq metric_of metric (m tr s v) | v <- vs tr].
etransitivity; first apply: (@plot_curves R scan d name k1 v1 r1 k2 v2 r2 metric col ss trs (fun tr => size (vs tr)) vals hcol k1v k2v hs).
  move=> tr s ht hin; have [i1 i2] := hvs tr ht; have [hS hn] := h tr s ht hin; split; first by rewrite /vals size_map.
  - exact i2.
  - rewrite /vals all_map; move: hn; rewrite /numeric all_map; apply: sub_all => v /= /andP[m1 m2]; by rewrite /metric_of; case: ifP.
  - have ha : all (mem exp_cols) (map fst (curve_cond tr (VNum s%:~R) k1 v1 k2 v2)) by vars hv.
    have hr (v : rat) : v \in vs tr -> VNull \notin at_key tr s k1 v1 k2 v2 (VNum v) /\ recorded t (at_key tr s k1 v1 k2 v2 (VNum v)) (m tr s v).
      move=> hvin; split; last exact: hS.1.
      have z1 : (VNull == v1) = false by rewrite eq_sym (negbTE n1).
      have z2 : (VNull == v2) = false by rewrite eq_sym (negbTE n2).
      by vars hv; rewrite /at_key /= !inE ?z1 ?z2.
    have hk := curve_index scans key ho hu hv n1 n2 i1 hS.
    exact: (metric_cells scans here cols hu hcol ha hk hr).
apply: eq_mapM => tr ht; apply: eq_fig => i j; rewrite [LHS]mxE [RHS]mxE.
rewrite /vals (nth_map 0) //.
by have hj := ltn_ord j; rewrite leq_min in hj; case/andP: hj.
Qed.
Lemma rows_not_one k1 v1 r1 k2 v2 r2 metric ss trs figs : plot_experiment R scan d name [:: (k1, v1 :: r1); (k2, v2 :: r2)] metric (Some ss) trs = Ok figs ->
  forall tr s, tr \in trs -> s \in ss ->
  count (fun r => [&& cell t r "Transform" == VText tr, cell t r "Seed" == VNum s%:~R, cell t r k1 == v1 & cell t r k2 == v2]) (trows t) != 1%N.
Proof.
move=> e tr s ht hs; have [col [rows [_ e1 e2]]] := one_row_fails e ht hs.
move: e1; rewrite /select_cols here; case: ifP => // _ [er]; move: e2; rewrite -er size_map size_filter.
rewrite (permP (scans (curve_cond tr (VNum s%:~R) k1 v1 k2 v2) t)).
by rewrite (eq_count (a2 := (fun r => [&& cell t r "Transform" == VText tr, cell t r "Seed" == VNum s%:~R, cell t r k1 == v1 & cell t r k2 == v2]))) // => r; rewrite /holds /= andbT.
Qed.
End Index.
Lemma permuted (control : seq (string * seq val)) k : map fst (iter k permute control) = map fst control /\
  forall n, (n < size control)%N -> let l := (nth ("", [::]) control n).2 in let l' := (nth ("", [::]) (iter k permute control) n).2 in
  size l' = size l /\ forall i, (i < size l)%N -> nth VNull l' i = nth VNull l ((i + k) %% size l).
Proof.
rewrite iter_permute_map; split; first by rewrite -map_comp.
move=> n hn; rewrite (nth_map ("", [::])) //=; split; last by move=> i; apply: iter_permute.
by elim: k => //= k IH; rewrite permute_rot size_rot.
Qed.
