(** * What the notebooks draw *)
Set Warnings "-notation-overridden,-ambiguous-paths".
From mathcomp Require Import all_ssreflect all_algebra.
From Coq Require Import String.
From Verif Require Import Base ND Database FullSweep SpecDb DatabaseFacts SweepFacts Display SpecDisplay DisplayFacts DisplayReport DisplayScripts.
From Verif Require Import Plot SpecPlot Notebook SpecNotebook NotebookFacts NotebookSweep.
Set Implicit Arguments.
Unset Strict Implicit.
Unset Printing Implicit Defensive.
Import GRing.Theory Num.Theory Order.Theory.
Local Open Scope string_scope.
Local Open Scope ring_scope.

Lemma mapM_in (A : eqType) B (f : A -> res B) (g : A -> B) l : (forall a, a \in l -> f a = Ok (g a)) -> mapM f l = Ok (map g l).
Proof.
elim: l => //= a l IH h; rewrite (h a (mem_head _ _)) bindE IH ?bindE // => x hx; apply: h; by rewrite inE hx orbT.
Qed.
Lemma mapM_inv (A : eqType) B (f : A -> res B) l bs : mapM f l = Ok bs -> forall a, a \in l -> exists b, f a = Ok b.
Proof.
elim: l bs => //= a l IH bs; case e: (f a) => [b|] //; rewrite bindE; case e2: (mapM f l) => [bs'|] // _ x; rewrite inE => /orP[/eqP->|h]; first by exists b.
exact: IH e2 x h.
Qed.
Lemma mapM_err (A : eqType) B (f : A -> res B) l e : (exists2 a, a \in l & f a = Err e) -> (forall a, a \in l -> f a = Err e \/ exists b, f a = Ok b) ->
  mapM f l = Err e.
Proof.
elim: l => [[]|a l IH] // [x]; rewrite inE => hx ex h /=.
case: (h a (mem_head _ _)) => [->|[b eb]] //; rewrite eb bindE.
rewrite IH // => [|y hy]; last by apply: h; rewrite inE hy orbT.
by case/orP: hx => [/eqP e0|hx]; [rewrite e0 eb in ex | exists x].
Qed.

Section Maps.
Variable R : rcfType.
Variable scan : cond -> table -> seq row.
Hypothesis scans : any_order scan.
Notation real_of := (@real_of R).
Lemma floats_ok m n (A : 'M[val]_(m, n)) : (forall i j, is_num (A i j)) -> floats R A = Ok (\matrix_(i, j) real_of (A i j)).
Proof. by move=> h; rewrite /floats numbers_ok // all_map; apply/allP => -[i j] _ /=. Qed.
(** ** averages over seeds *)
Lemma aligned d name t tr sd it : lookup d name = Some t -> tcols t = exp_cols ->
  let rs := [seq r <- trows t | [&& cell t r "Transform" == VText tr, cell t r "Seed" == sd & cell t r "Iter" == VNum it%:R]] in
  if size rs == 361%N then
    exists im rs', [/\ make_image_data scan d name tr sd it = Ok im, perm_eq rs' rs & forall i j : 'I_19, let r := nth [::] rs' (i * 19 + j) in
      [/\ i_rmse im i j = cell t r "RMSE", i_nll im i j = cell t r "NLL", i_power im i j = cell t r "Power" & i_damp im i j = cell t r "Damping"]]
  else make_image_data scan d name tr sd it = Err ValueErr.
Proof.
move=> hl hc rs.
have hp : perm_eq (found scan t (image_cond tr sd it)) rs.
  rewrite /found; have -> : rs = [seq r <- trows t | holds t r (image_cond tr sd it)] by apply: eq_filter => r; rewrite /holds /= andbT.
  exact: perm_filter.
rewrite (image_found scan hl hc) /= (perm_size hp); case: eqP => // hs.
eexists; exists (found scan t (image_cond tr sd it)); split=> // i j.
have hk : (i * 19 + j < size (found scan t (image_cond tr sd it)))%N.
  by rewrite (perm_size hp) hs; apply: (@leq_trans (i * 19 + 19)); [rewrite ltn_add2l | rewrite -mulSnr (leq_mul2r 19 i.+1 19) ltn_ord].
by rewrite /= !mxE !(nth_map [::]).
Qed.
(** in storage order the first pixel is the first row that fits *)
Lemma first_pixel d name t r rest tr sd it im : storage_order scan -> lookup d name = Some t -> tcols t = exp_cols -> trows t = r :: rest ->
  holds t r (image_cond tr sd it) -> make_image_data scan d name tr sd it = Ok im -> i_power im ord0 ord0 = cell t r "Power".
Proof.
move=> ho hl hc ht hr; rewrite (image_found scan hl hc) /=; case: eqP => // _ [<-] /=.
rewrite mxE /found ho ht; by move: (image_cond tr sd it) hr => cs /= ->.
Qed.
Definition seeds_avg (f : images -> 'M[val]_(19, 19)) (im : val -> images) (ss : seq val) : 'M[R]_(19, 19) :=
  \matrix_(i, j) ((\sum_(s <- ss) real_of (f (im s) i j)) / (size ss)%:R).
Lemma mean_imageE (l : seq 'M[val]_(19, 19)) : (forall A, A \in l -> forall i j, is_num (A i j)) ->
  mean_image R l = Ok (\matrix_(i, j) ((\sum_(A <- l) real_of (A i j)) / (size l)%:R)).
Proof.
move=> h; rewrite /mean_image (@mapM_in _ _ _ (fun A : 'M[val]_(19, 19) => \matrix_(i, j) real_of (A i j))) => [|A hA]; last by apply: floats_ok; apply: h.
rewrite bindE; congr Ok; apply/matrixP => i j; rewrite !mxE size_map big_map; congr (_ / _).
by apply: eq_bigr => A _; rewrite mxE.
Qed.
Lemma seeds_image d name t tr it (ss : seq val) (im : val -> images) : lookup d name = Some t -> "Seed" \in tcols t -> ss <> [::] ->
  (forall s, s \in ss -> make_image_data scan d name tr s it = Ok (im s)) ->
  (forall s, s \in ss -> forall i j, is_num (i_rmse (im s) i j) && is_num (i_nll (im s) i j)) ->
  all_seeds_image R scan d name tr it (Some ss) = Ok (seeds_avg i_rmse im ss, seeds_avg i_nll im ss, i_power (im (last VNull ss)), i_damp (im (last VNull ss))).
Proof.
move=> hl hc hn hi hv; rewrite /all_seeds_image /distinct (select_found _ hl) /= ?hc // !bindE (mapM_in hi) bindE.
case: ss hn hi hv => // s ss _ hi hv; rewrite /= -[i_rmse (im s) :: _]/(map i_rmse (map im (s :: ss))) -[i_nll (im s) :: _]/(map i_nll (map im (s :: ss))).
rewrite -!map_comp !mean_imageE ?bindE.
- rewrite last_map; congr (Ok (_, _, _, _)); apply/matrixP => i j; rewrite !mxE !size_map !big_map; done.
- by move=> A /mapP[y hy ->] i j; have /andP[] := hv y hy i j.
- by move=> A /mapP[y hy ->] i j; have /andP[] := hv y hy i j.
Qed.
Lemma seeds_complete d name tr it ss x : all_seeds_image R scan d name tr it (Some ss) = Ok x ->
  forall s, s \in ss -> exists im, make_image_data scan d name tr s it = Ok im.
Proof.
rewrite /all_seeds_image; case: (distinct _ _ _ _) => // l; rewrite bindE.
by case e: (mapM _ ss) => // _; apply: mapM_inv e.
Qed.
Lemma seeds_none d name t tr it : lookup d name = Some t -> "Seed" \in tcols t ->
  exists ss, [/\ uniq ss, ss =i [seq cell t r "Seed" | r <- trows t] & all_seeds_image R scan d name tr it None = all_seeds_image R scan d name tr it (Some ss)].
Proof.
move=> hl hc; exists (undup [seq cell t r "Seed" | r <- scan [::] t]); split; first exact: undup_uniq.
  by move=> v; rewrite mem_undup; apply: perm_mem; apply: perm_map.
rewrite /all_seeds_image /distinct (select_found _ hl) /= ?hc // !bindE /column -map_comp.
by have -> : found scan t [::] = scan [::] t by apply/all_filterP/allP.
Qed.
Lemma sweep_drawn d name tr it ss pr pn p q metric : all_seeds_image R scan d name tr it ss = Ok (pr, pn, p, q) ->
  plot_sweep R scan d name tr it metric ss = Ok (Heatmap (\matrix_(i, j) (if metric == "rmse" then pr else pn) j i) 10%:R^-1 1).
Proof.
by move=> h; rewrite /plot_sweep h bindE; congr (Ok (Heatmap _ _ _)); apply/matrixP => i j; case: eqP => _; rewrite !mxE.
Qed.
(** ** where the pixels are *)
Lemma pixel_holds (h : heatmap R) k : (k < 19)%N -> h_from h <= h_to h ->
  (pixel h k).1 <= nth 0 (linspace (h_from h) (h_to h) 19) k <= (pixel h k).2.
Proof.
move=> hk hle; rewrite /linspace (nth_map 0%N) ?size_iota // nth_iota // add0n /pixel /=.
have c0 : 0 <= h_to h - h_from h by rewrite subr_ge0.
rewrite !ler_add2l ![(h_to h - h_from h) / _]mulrC !mulrA; apply/andP; split; apply: ler_wpmul2r => //.
  apply: ler_wpmul2l; first exact: ler0n.
  by rewrite lef_pinv ?posrE ?ltr0n // ler_nat.
rewrite ler_pdivl_mulr ?ltr0n // mulrAC ler_pdivr_mulr ?ltr0n // -!natrM ler_nat.
have -> : (k * 19 = k * 18 + k)%N by rewrite (mulnS k 18) addnC.
have -> : (k.+1 * 18 = k * 18 + 18)%N by rewrite mulSnr.
by rewrite leq_add2l -ltnS.
Qed.
End Maps.

(** ** short sweeps, whatever is interrupted and repeated *)
Section Small.
Variable W : Type.
Variable reseed : int -> W -> W.
Variable simulate : W -> W * res data.
Variable build : cfg -> data -> W -> W * res unit.
Variable sweep : W -> W * res unit.
Variable metrics : W -> W * res (val * val).
Variables (num_iter : nat) (dyn_name exp_name : string).
Hypothesis names : dyn_name != exp_name.
Variables (seeds : seq int) (trans : seq string) (powers damps : seq rat).
Variable scan : cond -> table -> seq row.
Hypothesis scans : any_order scan.
Notation attempts o l d := (attempts reseed simulate build sweep metrics num_iter dyn_name exp_name seeds trans powers damps o l d).
Lemma attempts_uniq o l d : uniqdb d -> uniqdb (attempts o l d).
Proof. by elim: l d => //= -[w k] l IH d h; apply: IH; apply: uniq_main. Qed.
Definition stray (r : row) : bool := let t := Table exp_cols exp_key [::] in
  ~~ ((cell t r "Power" \in map VNum powers) && (cell t r "Damping" \in map VNum damps)).
Lemma no_stray seed c ms r : c \in product seed trans powers damps -> r \in rows_of c ms -> ~~ stray r.
Proof.
case: c => s t p q h; have /= e := product_seed h; move: h; rewrite e in_product => /and3P[_ hp hq].
move=> /(nthP [::]) [k]; rewrite /rows_of rows_size => hk <-; rewrite rows_nth // /stray negbK /cell /=.
by rewrite !map_f.
Qed.
Definition keyed (d : db) : Prop := forall t, lookup d exp_name = Some t -> tkey t = exp_key.
Lemma keyed_up d n t r : keyed d -> lookup d n = Some t -> keyed (update d n (insert_ignore t r)).
Proof.
move=> h hl u; case: (eqVneq n exp_name) => [e|ne]; last by rewrite lookup_update_ne //; apply: h.
have ht : tkey t = exp_key by apply: h; rewrite -e.
by rewrite -e (lookup_update _ hl) => -[<-]; rewrite /insert_ignore; case: ifP.
Qed.
Lemma keyed_create n c k : (n = exp_name -> k = exp_key) -> inv keyed (@create_table W n c k).
Proof.
move=> hn; apply: inv_bind => [|_]; first exact: inv_tick.
move=> s h1 h2; case hl: (lookup _ _) => [t|] //=.
have h : keyed (rcons (s_working s) (n, Table c k [::])).
  move=> t; rewrite lookup_rcons; case hl2: (lookup _ exp_name) => [t'|]; first by move=> [<-]; apply: h2.
  by case: eqP => // e [<-] /=; apply: hn.
by split=> //; case: ifP.
Qed.
Lemma keyed_main o : inv keyed (main reseed simulate build sweep metrics num_iter dyn_name exp_name seeds trans powers damps o).
Proof.
apply: inv_bind => [|_]; first by apply: keyed_create => e; move: names; rewrite e eqxx.
apply: inv_bind => [|_]; first exact: keyed_create.
elim: seeds => [|sd sds IH] /=; first exact: inv_ret.
apply: inv_bind => [|_]; first exact: inv_world.
apply: inv_bind => [|xy]; first exact: inv_world.
apply: inv_bind => [|_]; first by apply: inv_dyn; apply: keyed_up.
case: xy => [|p xy]; first exact: inv_raise.
apply: inv_bind => [|_]; last exact: IH.
elim: (product _ _ _ _) => [|c cs IHc] /=; first exact: inv_ret.
by apply: inv_bind => [|_]; [apply: inv_setting; apply: keyed_up | apply: IHc].
Qed.
Lemma attempts_keyed o l d : keyed d -> keyed (attempts o l d).
Proof. by elim: l d => //= -[w k] l IH d h; apply: IH; have [] := @keyed_main o (start w d k) h h. Qed.
Lemma small_image o l d0 tr sd it : lookup d0 exp_name = None -> uniqdb d0 -> sd != VNull -> (size powers * size damps < 361)%N ->
  make_image_data scan (attempts o l d0) exp_name tr sd it = Err ValueErr \/ lookup (attempts o l d0) exp_name = None.
Proof.
move=> hn hu ne hs.
have h1 : keyed (attempts o l d0) by apply: attempts_keyed => t; rewrite hn.
have h2 : okdb exp_name stray (attempts o l d0).
  by apply: (keep_attempts names (trans := trans) (powers := powers) (damps := damps)) => [seed c ms r|t]; [apply: no_stray | rewrite hn].
have h3 := @attempts_uniq o l d0 hu.
case hl: (lookup (attempts o l d0) exp_name) => [t|]; [left|by right].
have [hc hr] := h2 _ hl; have hk := h1 _ hl; have {h3} hq := h3 _ _ hl.
rewrite (image_found scan hl hc) /=; case: eqP => // hz; exfalso.
set rs := found _ _ _ in hz.
have hnull : forall r, r \in rs -> keyof t r \in [seq [:: VText tr; sd; VNum it%:R; VNum g.1; VNum g.2] | g <- [seq (p, q) | p <- powers, q <- damps]].
  move=> r; rewrite mem_found // => /andP[/hr]; rewrite /stray negbK => /andP[/mapP[p hp e1] /mapP[q hq' e2]].
  rewrite /holds /= andbT => /and3P[/eqP f1 /eqP f2 /eqP f3]; rewrite keyofE // f1 f2 f3.
  have -> : cell t r "Power" = VNum p by rewrite -e1 /cell hc.
  have -> : cell t r "Damping" = VNum q by rewrite -e2 /cell hc.
  by apply/mapP; exists (p, q) => //; apply/allpairsP; exists (p, q).
have huk : uniq (map (keyof t) rs).
  apply: found_uniq => // r /hnull /mapP[g _ ->]; by rewrite !inE /= !orbF eq_sym.
have hsub : {subset map (keyof t) rs <= [seq [:: VText tr; sd; VNum it%:R; VNum g.1; VNum g.2] | g <- [seq (p, q) | p <- powers, q <- damps]]}.
  by move=> k /mapP[r /hnull h ->].
have := uniq_leq_size huk hsub; rewrite !size_map hz size_allpairs leqNgt hs; done.
Qed.
Lemma no_image o l d0 tr (s : int) it : lookup d0 exp_name = None -> uniqdb d0 -> (size powers * size damps < 361)%N ->
  let r := make_image_data scan (attempts o l d0) exp_name tr (VNum s%:~R) it in r = Err ValueErr \/ r = Err DbErr.
Proof.
move=> h1 h2 h3; have [|h] := @small_image o l d0 tr (VNum s%:~R) it h1 h2 isT h3; first by left.
by right; rewrite /make_image_data /select_cols h.
Qed.
End Small.
