(** * What the notebooks find after sweeps *)
Set Warnings "-notation-overridden,-ambiguous-paths".
From mathcomp Require Import all_ssreflect all_algebra.
From Coq Require Import String.
From Verif Require Import Base ND Database FullSweep SpecDb DatabaseFacts SweepFacts Display SpecDisplay DisplayFacts DisplayReport.
From Verif Require Import Plot Notebook SpecNotebook NotebookFacts.
Set Implicit Arguments.
Unset Strict Implicit.
Unset Printing Implicit Defensive.
Import GRing.Theory Num.Theory Order.Theory.
Local Open Scope string_scope.
Local Open Scope ring_scope.

(** ** a key belongs to one row *)
Lemma key_row t r r' : unique_keys t -> r \in trows t -> r' \in trows t -> VNull \notin keyof t r -> keyof t r = keyof t r' -> r = r'.
Proof.
rewrite /unique_keys; elim: (trows t) => //= x l IH hu; rewrite !inE.
have hin (y : row) : y \in l -> VNull \notin keyof t y -> keyof t y \in [seq k <- map (keyof t) l | VNull \notin k].
  by move=> hy hn; rewrite mem_filter hn map_f.
move=> /orP[/eqP->|h1] /orP[/eqP->|h2] hn e //.
- by move: hu; rewrite hn /= e hin // -e.
- by move: hu; rewrite -e hn /= hin.
- by apply: IH => //; move: hu; case: ifP => //= _ /andP[].
Qed.
Lemma recorded_one t k m m' : unique_keys t -> VNull \notin k -> recorded t k m -> recorded t k m' -> m = m'.
Proof.
move=> hu hn [r hr [e1 e2 e3]] [r' hr' [f1 f2 f3]].
have er : r = r' by apply: (key_row hu) => //; rewrite ?e1 ?f1.
by case: m m' e2 e3 f2 f3 => [a b] [a' b'] /= <- <- <- <-; rewrite er.
Qed.

(** ** the table of complete runs *)
Definition results (l : seq (cfg * seq (val * val))) : table := Table exp_cols exp_key (logged_rows l).
Lemma sameE (c c0 : cfg) : [&& c_seed c == c_seed c0, c_trans c == c_trans c0, c_power c == c_power c0 & c_damp c == c_damp c0] = (c == c0).
Proof. by case: c => a b c e; case: c0 => a' b' c' e' /=; apply/and4P/eqP => [[/eqP-> /eqP-> /eqP-> /eqP->]|[-> -> -> ->]]. Qed.
Lemma run_in (l : seq (cfg * seq (val * val))) cl : uniq (map fst l) -> cl \in l -> run_of l cl.1 = cl.2.
Proof.
rewrite /run_of; elim: l => //= x l IH /andP[hn hu]; rewrite inE sameE => /orP[/eqP->|h]; first by rewrite eqxx.
case: eqP => [e|_]; last exact: IH.
by move: hn; rewrite e map_f.
Qed.
Lemma run_ex (l : seq (cfg * seq (val * val))) c : (0 < size (run_of l c))%N -> (c, run_of l c) \in l.
Proof.
rewrite /run_of; elim: l => //= -[c' ms] l IH; rewrite sameE inE /=; case: eqP => [->|_] /=; first by rewrite eqxx.
by move/IH => ->; rewrite orbT.
Qed.
Lemma key_at_inj c k c' k' : key_at c k = key_at c' k' -> c = c' /\ k = k'.
Proof. by case: c c' => [a b p q] [a' b' p' q'] /result_inj [/= -> -> -> -> ->]. Qed.
Lemma results_row l r : uniq (map fst l) -> r \in logged_rows l -> exists c k, [/\ keyof (results l) r = key_at c k.+1, (k < size (run_of l c))%N &
  cell (results l) r "RMSE" = (nth (VNull, VNull) (run_of l c) k).1 /\ cell (results l) r "NLL" = (nth (VNull, VNull) (run_of l c) k).2].
Proof.
move=> hu /flattenP[rs /mapP[[c ms] hc ->]] /(nthP [::]) [k]; rewrite /rows_of rows_size /= => hk <-.
have e := run_in hu hc; rewrite /= in e.
exists c, k; rewrite e; split=> //; first exact: (@row_key (results l)).
by have := @cell_rmse (results l) c ms k.+1 erefl isT hk; have := @cell_nll (results l) c ms k.+1 erefl isT hk.
Qed.
Lemma results_recorded l c k : uniq (map fst l) -> (k < size (run_of l c))%N ->
  recorded (results l) (key_at c k.+1) (nth (VNull, VNull) (run_of l c) k).
Proof.
move=> hu hk; have hc := run_ex (leq_ltn_trans (leq0n _) hk); set ms := run_of l c in hk hc *.
exists (nth [::] (rows_of c ms) k).
  by apply/flattenP; exists (rows_of c ms); [apply/mapP; exists (c, ms) | apply/mem_nth; rewrite /rows_of rows_size].
by rewrite row_key // (@cell_rmse _ c ms k.+1) // (@cell_nll _ c ms k.+1).
Qed.
Lemma results_unique l : uniq (map fst l) -> unique_keys (results l).
Proof.
move=> hu; rewrite /unique_keys /results [trows _]/= filter_uniq // -/(results l).
have := @logged_keys (results l) erefl erefl (fun _ _ => true) [::] l (fun _ _ _ _ => erefl).
have -> : [seq r <- logged_rows l | holds (results l) r [::]] = logged_rows l by apply/all_filterP/allP.
move=> ->; move: hu; elim: (l) => [//|[c ms] l' IH] /= /andP[hn hu].
rewrite cat_uniq IH // andbT map_inj_uniq ?filter_uniq ?iota_uniq //=; last by move=> a b /key_at_inj [].
apply/hasPn => k /flattenP[ks /mapP[cl hcl ->]] /mapP[j _ ->]; apply/negP => /mapP[i _ /key_at_inj [e _]].
by move: hn; rewrite -e map_f.
Qed.
Lemma recorded_run l c k m : uniq (map fst l) -> recorded (results l) (key_at c k) m -> [/\ (0 < k)%N, (k <= size (run_of l c))%N & m = nth (VNull, VNull) (run_of l c) k.-1].
Proof.
move=> hu [r hr [e1 e2 e3]]; have [c' [k' [h1 h2 [h3 h4]]]] := results_row hu hr.
have [-> ->] : c = c' /\ k = k'.+1 by apply: key_at_inj; rewrite -e1 h1.
by split=> //=; case: m e2 e3 => a b /= <- <-; rewrite h3 h4; case: (nth _ _ _).
Qed.

(** ** heat maps after a sweep *)
Section Sweep.
Variable scan : cond -> table -> seq row.
Hypothesis scans : any_order scan.
Variables (d : db) (name : string) (l : seq (cfg * seq (val * val))).
Variables (seeds : seq int) (trans : seq string) (powers damps : seq rat).
Hypothesis here : lookup d name = Some (results l).
Hypothesis cfgs : map fst l = everything seeds trans powers damps.
Hypothesis u1 : uniq seeds.
Hypothesis u2 : uniq trans.
Hypothesis u3 : uniq powers.
Hypothesis u4 : uniq damps.
Lemma ul : uniq (map fst l). Proof. by rewrite cfgs everything_uniq. Qed.
Lemma in_everything s tr p q : (Cfg s tr p q \in everything seeds trans powers damps) = [&& s \in seeds, tr \in trans, p \in powers & q \in damps].
Proof.
apply/flattenP/and4P => [[l' /mapP[s' hs ->] h]|[h1 h2 h3 h4]].
  by have /= e := product_seed h; move: h; rewrite e in_product => /and3P[-> -> ->]; split.
by exists (product s trans powers damps); [apply/mapP; exists s | rewrite in_product h2 h3].
Qed.
Lemma of_seed s tr : s \in seeds -> tr \in trans ->
  [seq c <- everything seeds trans powers damps | (c_trans c == tr) && (c_seed c == s)] = [seq Cfg s tr g.1 g.2 | g <- [seq (p, q) | p <- powers, q <- damps]].
Proof.
move=> hs ht; rewrite /everything; elim: seeds u1 hs => //= sd sds IH /andP[hn hu]; rewrite inE filter_cat.
have ep s' : [seq c <- product s' trans powers damps | (c_trans c == tr) && (c_seed c == s)] =
  if s' == s then [seq Cfg s tr g.1 g.2 | g <- [seq (p, q) | p <- powers, q <- damps]] else [::].
  have e : {in product s' trans powers damps, (fun c => (c_trans c == tr) && (c_seed c == s)) =1 (fun c => (s' == s) && (c_trans c == tr))}.
    by move=> c /product_seed ->; rewrite andbC.
  rewrite (eq_in_filter e); case: eqP => [->|_]; last by rewrite filter_pred0.
  rewrite /product; move: [seq (p, q) | p <- powers, q <- damps] => G.
  elim: (trans) u2 ht => //= t' ts IHt /andP[hn' hu']; rewrite inE filter_cat filter_map => /orP[/eqP et|h].
    rewrite -et in hn' *; have -> : [seq x <- G | preim (fun pd : rat * rat => Cfg s tr pd.1 pd.2) (fun x => true && (c_trans x == tr)) x] = G by apply/all_filterP/allP => x _ /=; rewrite eqxx.
    rewrite -[RHS]cats0; congr cat; apply/eqP; rewrite -[_ == _]negbK -size_eq0 size_filter -lt0n -has_count.
    by apply/hasPn => c /flattenP[k /mapP[t2 h2 ->]] /mapP[x _ -> /=]; apply/eqP => e'; rewrite -e' h2 in hn'.
  rewrite IHt //; have -> : [seq x <- G | preim (fun pd : rat * rat => Cfg s t' pd.1 pd.2) (fun x => true && (c_trans x == tr)) x] = [::]; last by [].
  apply/eqP; rewrite -size_eq0 size_filter -[_ == _]negbK -lt0n -has_count; apply/hasPn => x _ /=; by apply/eqP => e'; rewrite e' h in hn'.
rewrite ep => /orP[/eqP es|h].
  rewrite -es in hn *; rewrite eqxx -[RHS]cats0; congr cat; apply/eqP; rewrite -size_eq0 size_filter -[_ == _]negbK -lt0n -has_count.
  apply/hasPn => c /flattenP[k /mapP[s2 h2 ->]] /product_seed -> /=; apply/negP => /andP[_ /eqP e']; by rewrite -e' h2 in hn.
by rewrite IH //; case: eqP => // e'; rewrite e' h in hn.
Qed.
Variables (tr : string) (s : int) (it : nat).
Hypothesis hs : s \in seeds.
Hypothesis ht : tr \in trans.
Hypothesis hi : (0 < it)%N.
Notation reached p q := (it <= size (run_of l (Cfg s tr p q)))%N.
Lemma image_ok r c k : keyof (results l) r = key_at c k -> holds (results l) r (image_cond tr (VNum s%:~R) it) = ((c_trans c == tr) && (c_seed c == s)) && (k == it).
Proof.
rewrite keyofE // => -[e1 e2 e3 _ _]; rewrite holds_image e1 e2 e3.
rewrite -[VText _ == _]/(c_trans c == tr) -[VNum _ == VNum s%:~R]/((c_seed c)%:~R == s%:~R :> rat) -[VNum _ == VNum it%:R]/(k%:R == it%:R :> rat).
by rewrite eqr_int eqr_nat andbA.
Qed.
Lemma stored_keys : (forall p q, p \in powers -> q \in damps -> reached p q) ->
  map (keyof (results l)) [seq r <- logged_rows l | holds (results l) r (image_cond tr (VNum s%:~R) it)] =
  [seq result_key tr s it g.1 g.2 | g <- [seq (p, q) | p <- powers, q <- damps]].
Proof.
move=> h; rewrite (@logged_at (results l) erefl erefl (fun c => (c_trans c == tr) && (c_seed c == s)) it) //; last first.
- move=> [[s' t' p q] ms] hc /= /andP[/eqP et /eqP es]; rewrite et es in hc.
  have := h p q; rewrite (run_in ul hc) /=; apply.
    by have : (Cfg s tr p q) \in map fst l by [rewrite (map_f fst hc)]; rewrite cfgs in_everything => /and4P[].
  by have : (Cfg s tr p q) \in map fst l by [rewrite (map_f fst hc)]; rewrite cfgs in_everything => /and4P[].
- exact: image_ok.
by rewrite cfgs of_seed // -map_comp.
Qed.
Lemma sweep_image : size powers = 19%N -> size damps = 19%N -> (forall p q, p \in powers -> q \in damps -> reached p q) ->
  storage_order scan \/ [/\ index_order scan, sorted <%R powers & sorted <%R damps] ->
  exists2 im, make_image_data scan d name tr (VNum s%:~R) it = Ok im & forall i j : 'I_19, let p := nth 0 powers i in let q := nth 0 damps j in
    [/\ i_power im i j = VNum p, i_damp im i j = VNum q & (i_rmse im i j, i_nll im i j) = nth (VNull, VNull) (run_of l (Cfg s tr p q)) it.-1].
Proof.
move=> hp hd h ho.
have [im e hS] : exists2 im, make_image_data scan d name tr (VNum s%:~R) it = Ok im & shows (results l) im tr s it powers damps.
  case: ho => [ho|[ho sp sd]].
    by apply: (image_listed scans here) => //; rewrite /found ho stored_keys.
  apply: (image_index scans here) => //; first exact: (results_unique ul).
    move=> p q h1 h2; exists (nth (VNull, VNull) (run_of l (Cfg s tr p q)) it.-1).
    by have := @results_recorded l (Cfg s tr p q) it.-1 ul; rewrite prednK //; apply; apply: h.
  move=> r hr hh; have : keyof (results l) r \in map (keyof (results l)) [seq r <- logged_rows l | holds (results l) r (image_cond tr (VNum s%:~R) it)].
    by apply: map_f; rewrite mem_filter hh.
  by rewrite stored_keys // => /mapP[g /allpairsP[[p q] [h1 h2 ->]] ->]; exists p, q.
exists im => // i j p q; have [-> -> hr] := hS i j; split=> //.
by have [_ _] := @recorded_run l (Cfg s tr p q) it _ ul hr.
Qed.
(** a run that stopped early *)
Lemma sweep_short p q : size powers = 19%N -> size damps = 19%N -> p \in powers -> q \in damps -> ~~ reached p q ->
  make_image_data scan d name tr (VNum s%:~R) it = Err ValueErr.
Proof.
move=> hp hd h1 h2 hr; rewrite (image_found scan here) //=; case: eqP => // hsz; exfalso.
pose G := [seq (p, q) | p <- powers, q <- damps].
have hG : uniq G by apply: allpairs_uniq => // -[a b] [a' b'] _ _ /= [-> ->].
set rs := found _ _ _ in hsz.
have hu : uniq (map (keyof (results l)) rs).
  apply: found_uniq => //; first exact: (results_unique ul).
  by move=> r; rewrite mem_found // => /andP[/(results_row ul) [c [k [-> _ _]]] _]; apply: result_full.
have hsub : {subset map (keyof (results l)) rs <= [seq result_key tr s it g.1 g.2 | g <- rem (p, q) G]}.
  move=> k /mapP[r]; rewrite mem_found // => /andP[hr1 hr2] ->.
  have [c [k' [e1 e2 _]]] := results_row ul hr1; move: hr2; rewrite (image_ok e1) => /andP[/andP[/eqP ec /eqP es] /eqP ek].
  case: c ec es e1 e2 => s' t' p' q' /= -> -> e1 e2; rewrite e1 /key_at /= ek.
  apply: (map_f (fun g : rat * rat => result_key tr s it g.1 g.2) (x := (p', q'))).
  have := run_ex (leq_ltn_trans (leq0n _) e2) => /(map_f fst); rewrite cfgs in_everything => /and4P[_ _ i3 i4].
  rewrite (rem_filter _ hG) mem_filter /=; apply/andP; split; last by apply/allpairsP; exists (p', q').
  by apply/eqP => -[ep eq]; move: hr; rewrite -ek -ep -eq e2.
have := uniq_leq_size hu hsub; rewrite !size_map hsz size_rem; last by apply/allpairsP; exists (p, q).
by rewrite size_allpairs hp hd.
Qed.
End Sweep.
