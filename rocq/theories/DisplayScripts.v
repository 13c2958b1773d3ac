(** * The reports on the Lorenz experiment and on the iterated smoothers *)
Set Warnings "-notation-overridden,-ambiguous-paths".
From mathcomp Require Import all_ssreflect all_algebra.
From Coq Require Import String.
From Verif Require Import Base Database FullSweep SpecDb DatabaseFacts SweepFacts Scripts SpecScripts ScriptsL96 ScriptsIeks Display SpecDisplay DisplayFacts DisplayReport.
Set Implicit Arguments.
Unset Strict Implicit.
Unset Printing Implicit Defensive.
Import GRing.Theory Num.Theory.
Local Open Scope string_scope.
Local Open Scope ring_scope.

Section Scripts.
Variable R : rcfType.
Variable scan : table -> seq row.
Hypothesis scans : forall t, perm_eq (scan t) (trows t).

(** ** the sweep: nothing is selected for settings that were not swept *)
Lemma absent_holds trans powers damps seed c ms r tr p dp i : c \in product seed trans powers damps -> r \in rows_of c ms ->
  [|| tr \notin trans, p \notin powers | dp \notin damps] ->
  ~~ holds (Table exp_cols exp_key [::]) r (ep_cond [::] p dp tr i).
Proof.
move=> hc /(nthP [::]) [j]; rewrite {1}/rows_of rows_size => hj <- h; rewrite /rows_of rows_nth // /holds /= /cell /=.
case: c hc => s t' p' d' hc; have /= e := product_seed hc; rewrite e in_product in hc; case/and3P: hc => h1 h2 h3 /=.
apply/negP => /and5P[/eqP[e1] /eqP[e2] /eqP[e3] _ _].
by move: h; rewrite -e1 -e2 -e3 h1 h2 h3.
Qed.
Lemma holds_cols t t' r cs : tcols t = tcols t' -> holds t r cs = holds t' r cs.
Proof. by move=> h; rewrite /holds /cell h. Qed.
Lemma select_none d name col cs t vs : lookup d name = Some t -> (forall r, r \in trows t -> ~~ holds t r cs) ->
  select scan d name col cs = Ok vs -> vs = [::].
Proof.
move=> hl h; rewrite /select hl; case: ifP => // _ [<-].
have -> : [seq r <- scan t | holds t r cs] = [::]; last by [].
by apply/eqP; rewrite -[_ == _]negbK -has_filter; apply/hasPn => r; rewrite (perm_mem (scans t)) => /h.
Qed.

(** ** the Lorenz experiment *)
Lemma l96_size trans dims seeds settings k : k \in l96_keys trans dims seeds settings -> size k = 6%N /\ nth VNull k 0 = VText trans.
Proof. by case/flattenP => l1 /mapP[d _ ->] /flattenP[l2 /mapP[s _ ->]] /flattenP[l3 /mapP[x _ ->]] /mapP[i _ ->]. Qed.
Lemma l96_holds t k m trans dim i p dp : tcols t = l96_cols -> size k = 6%N ->
  holds t (k ++ [:: m.1; m.2])%SEQ (ep_cond [:: ("dim", VNum dim%:R)] p dp trans i) = l96_match trans dim i p dp k.
Proof.
move=> ht; case: k => [|k0 [|k1 [|k2 [|k3 [|k4 [|k5 [|]]]]]]] // _; rewrite /holds /cell ht /l96_match /=.
by case: (k0 == _); case: (k2 == _); case: (k3 == _); case: (k4 == _); case: (k5 == _).
Qed.
Lemma l96_select d name t col f trans dims seeds settings ms tr dim i p dp :
  lookup d name = Some t -> tcols t = l96_cols -> trows t = l96_rows (l96_keys trans dims seeds settings) ms ->
  (forall k m, size k = 6%N -> cell t (k ++ [:: m.1; m.2])%SEQ col = f m) -> col \in l96_cols ->
  exists2 vs, select scan d name col (ep_cond [:: ("dim", VNum dim%:R)] p dp tr i) = Ok vs
    & perm_eq vs (map f [seq km.2 | km <- zip (l96_keys trans dims seeds settings) ms & l96_match tr dim i p dp km.1]).
Proof.
move=> hl ht hr hf hc; apply: (select_perm scans hl); first by rewrite ht /= hc.
rewrite hr /l96_rows.
pose h r := holds t r (ep_cond [:: ("dim", VNum dim%:R)] p dp tr i).
pose c r := cell t r col.
have hh k m : size k = 6%N -> h (k ++ [:: m.1; m.2])%SEQ = l96_match tr dim i p dp k by apply: l96_holds.
have hf' k m : size k = 6%N -> c (k ++ [:: m.1; m.2])%SEQ = f m by apply: hf.
rewrite -[LHS]/(map c (filter h _)); clearbody h c.
have : forall k, k \in l96_keys trans dims seeds settings -> size k = 6%N by move=> k /l96_size[].
elim: (l96_keys _ _ _ _) ms {hr} => [|k ks IH] [|m ms] //= hk.
have hk6 : size k = 6%N by apply: (hk k); rewrite mem_head.
rewrite hh // (fun_if (map _)) (fun_if (map _)) (fun_if (map _)) /= hf' // IH //.
by move=> x hx; apply: hk; rewrite inE hx orbT.
Qed.
Lemma l96_line d name t trans dims seeds settings ms tr dim i p dp :
  lookup d name = Some t -> tcols t = l96_cols -> trows t = l96_rows (l96_keys trans dims seeds settings) ms ->
  let l := [seq km.2 | km <- zip (l96_keys trans dims seeds settings) ms & l96_match tr dim i p dp km.1] in
  numeric l -> exists2 o, line R scan d name (ep_cond [:: ("dim", VNum dim%:R)] p dp tr i) = Ok o & describes l o.
Proof.
move=> hl ht hr l hn; apply: line_ok hn; apply: (l96_select _ _ _ _ _ hl ht hr) => // k m hk; rewrite /cell ht nth_cat hk //.
Qed.
Lemma l96_report_ok d name t trans dims seeds settings ms tr dim p :
  lookup d name = Some t -> tcols t = l96_cols -> trows t = l96_rows (l96_keys trans dims seeds settings) ms ->
  let l q i := [seq km.2 | km <- zip (l96_keys trans dims seeds settings) ms & l96_match tr dim i q 1 km.1] in
  numeric (l 1 0%N) -> numeric (l p 9%N) ->
  exists o1 o2, [/\ l96_report R scan d name dim p tr = Ok [:: o1; o2], describes (l 1 0%N) o1 & describes (l p 9%N) o2].
Proof.
move=> hl ht hr l n1 n2; have [o1 e1 h1] := l96_line hl ht hr n1; have [o2 e2 h2] := l96_line hl ht hr n2.
by exists o1, o2; split=> //; rewrite /l96_report /= e1 bindE e2 !bindE.
Qed.
Lemma l96_other trans dims seeds settings (ms : seq (val * val)) tr dim i q p : tr != trans ->
  [seq km.2 | km <- zip (l96_keys trans dims seeds settings) ms & l96_match tr dim i q p km.1] = [::].
Proof.
move=> h; have : forall k, k \in l96_keys trans dims seeds settings -> nth VNull k 0 = VText trans by move=> k /l96_size[].
elim: (l96_keys _ _ _ _) ms => [|k ks IH] [|m ms] //= hk.
rewrite /l96_match (hk k) ?mem_head // -[VText _ == _]/(trans == tr) eq_sym (negbTE h) /= IH // => x hx; apply: hk; by rewrite inE hx orbT.
Qed.
Lemma describes_nil (o : option (R * R) * option (R * R)) : describes [::] o -> o = (None, None).
Proof. by case: o => [[[a b]|] [[c e]|]] [] //= => [[h]|[h]|_ [h]]; case: h. Qed.

(** ** the iterated smoothers *)
Lemma select_one d name col cs t v : lookup d name = Some t -> all (mem (tcols t)) (col :: map fst cs) ->
  [seq cell t r col | r <- trows t & holds t r cs] = [:: v] -> select scan d name col cs = Ok [:: v].
Proof. by move=> h1 h2 h3; have [vs -> hp] := select_perm scans h1 h2 h3; congr Ok; apply: perm_small_eq. Qed.
Lemma per_seed_ok A d name col (cs : A -> cond) (f : A -> seq val) l :
  (forall a, List.In a l -> select scan d name col (cs a) = Ok (f a)) -> per_seed scan d name col (map cs l) = Ok (map f l).
Proof.
elim: l => //= a l IH h; rewrite h; last by left.
by rewrite bindE IH ?bindE // => b hb; apply: h; right.
Qed.
Lemma const_size A B (l : seq A) (f : A -> seq B) k : (forall a, size (f a) = k) -> constant (map size (map f l)).
Proof.
move=> h; rewrite -map_comp; case: l => //= a l; rewrite h.
by elim: l => //= b l ->; rewrite h eqxx.
Qed.
Lemma ieks_ok d name extra (seeds : seq int) it (v : int -> val * val) :
  (forall s, s \in seeds -> forall col, col \in [:: "RMSE"; "NLL"] ->
    select scan d name col (extra ++ [:: ("Seed", VNum s%:~R); ("Iter", VNum it%:R)])%SEQ = Ok [:: if col == "RMSE" then (v s).1 else (v s).2]) ->
  numeric (map v seeds) ->
  exists2 o, ieks_report R scan d name extra seeds it = Ok o & describes (map v seeds) o.
Proof.
move=> h; rewrite /numeric all_map all_predI => /andP[n1 n2].
have inl s : List.In s seeds -> s \in seeds by elim: (seeds) => //= x l IH [->|/IH hs]; rewrite inE ?eqxx // hs orbT.
rewrite /ieks_report.
rewrite (@per_seed_ok int d name "RMSE" _ (fun s => [:: (v s).1])) => [|s /inl hs]; last exact: (h s hs "RMSE").
rewrite bindE (@per_seed_ok int d name "NLL" _ (fun s => [:: (v s).2])) => [|s /inl hs]; last exact: (h s hs "NLL").
rewrite bindE /nested_stats !(@const_size _ _ _ _ 1%N) //.
have fl (f : int -> val) : flatten [seq [:: f s] | s <- seeds] = map f seeds by elim: (seeds) => //= s l ->.
rewrite (fl (fun s => (v s).1)) (fl (fun s => (v s).2)).
have [s1 -> g1] : exists2 s, stats R [seq (v s).1 | s <- seeds] = Ok s & is_stat (map (@real_of R) [seq (v s).1 | s <- seeds]) s.
  by apply: stats_ok; rewrite all_map.
have [s2 -> g2] : exists2 s, stats R [seq (v s).2 | s <- seeds] = Ok s & is_stat (map (@real_of R) [seq (v s).2 | s <- seeds]) s.
  by apply: stats_ok; rewrite all_map.
exists (s1, s2); first by rewrite !bindE.
by split; rewrite -map_comp; [move: g1 | move: g2]; rewrite -map_comp.
Qed.
Lemma ieks_nan d name extra (seeds : seq int) it :
  (forall s, s \in seeds -> forall col, col \in [:: "RMSE"; "NLL"] ->
    select scan d name col (extra ++ [:: ("Seed", VNum s%:~R); ("Iter", VNum it%:R)])%SEQ = Ok [::]) ->
  ieks_report R scan d name extra seeds it = Ok (None, None).
Proof.
move=> h.
have inl s : List.In s seeds -> s \in seeds by elim: (seeds) => //= x l IH [->|/IH hs]; rewrite inE ?eqxx // hs orbT.
rewrite /ieks_report.
rewrite (@per_seed_ok int d name "RMSE" _ (fun s => [::])) => [|s /inl hs]; last exact: (h s hs "RMSE").
rewrite bindE (@per_seed_ok int d name "NLL" _ (fun s => [::])) => [|s /inl hs]; last exact: (h s hs "NLL").
rewrite bindE /nested_stats !(@const_size _ _ _ _ 0%N) //.
by have -> : flatten [seq ([::] : seq val) | s <- seeds] = [::] by elim: (seeds).
Qed.
Lemma collect_ok A B (f : A -> res B) g (l : seq A) : (forall a, List.In a l -> f a = Ok (g a)) -> collect (map f l) = (map g l, None).
Proof.
elim: l => //= a l IH h; rewrite (h a (or_introl erefl)) IH // => b hb; apply: h; by right.
Qed.
Lemma zip_map A B (g : A -> B) (l : seq A) : zip l (map g l) = [seq (a, g a) | a <- l].
Proof. by elim: l => //= a l ->. Qed.

Lemma pick_one (A : eqType) (l : seq A) a (f : A -> row) (P : row -> bool) : uniq l -> a \in l -> (forall x, x \in l -> P (f x) = (x == a)) ->
  [seq r <- map f l | P r] = [:: f a].
Proof.
move=> hu ha h; rewrite filter_map.
have e : {in l, preim f P =1 pred1 a} by move=> x hx /=; rewrite h.
by rewrite (eq_in_filter e) filter_pred1_uniq.
Qed.
Lemma num_int (s s' : int) : (VNum s%:~R == VNum s'%:~R) = (s == s').
Proof. by rewrite -[LHS]/(s%:~R == s'%:~R :> rat) eqr_int. Qed.
Lemma num_nat (s s' : nat) : (VNum s%:R == VNum s'%:R) = (s == s').
Proof. by rewrite -[LHS]/(s%:R == s'%:R :> rat) eqr_nat. Qed.

Lemma ungm_select d name n seeds (v : int -> val * val) s col : lookup d name = Some (Table ungm_cols [:: "Seed"; "Iter"] (ungm_rows n seeds (map v seeds))) ->
  uniq seeds -> s \in seeds -> col \in [:: "RMSE"; "NLL"] ->
  select scan d name col ([::] ++ [:: ("Seed", VNum s%:~R); ("Iter", VNum n%:R)])%SEQ = Ok [:: if col == "RMSE" then (v s).1 else (v s).2].
Proof.
move=> hl hu hs hc; apply: (select_one hl); first by move: hc; rewrite !inE => /orP[] /eqP->.
rewrite [trows _]/= /ungm_rows zip_map -map_comp (pick_one (a := s)) //=; last first.
  by move=> x hx; rewrite /holds /cell /= num_int eqxx !andbT.
by congr [:: _]; move: hc; rewrite !inE => /orP[] /eqP->.
Qed.
Lemma ungm_other d name n it seeds ms s col : lookup d name = Some (Table ungm_cols [:: "Seed"; "Iter"] (ungm_rows n seeds ms)) ->
  it <> n -> col \in [:: "RMSE"; "NLL"] ->
  select scan d name col ([::] ++ [:: ("Seed", VNum s%:~R); ("Iter", VNum it%:R)])%SEQ = Ok [::].
Proof.
move=> hl hn hc; have hA : all (mem ungm_cols) (col :: map fst ([::] ++ [:: ("Seed", VNum s%:~R); ("Iter", VNum it%:R)])%SEQ).
  by move: hc; rewrite !inE => /orP[] /eqP->.
case hS: (select _ _ _ _ _) => [vs|e]; last by move: hS; rewrite /select hl hA.
congr Ok; apply: (select_none hl) hS => r /mapP[x _ ->]; rewrite /holds /cell /= (num_nat n it).
have -> : (n == it) = false by apply/eqP => e; apply: hn.
by rewrite /= andbF.
Qed.
Lemma il96_select d name n dims seeds (v : nat * int -> val * val) s dim col :
  let cases := [seq (d, s) | d <- dims, s <- seeds] in
  lookup d name = Some (Table ieks_l96_cols [:: "dim"; "Seed"; "Iter"] (ieks_l96_rows n cases (map v cases))) ->
  uniq dims -> uniq seeds -> s \in seeds -> dim \in dims -> col \in [:: "RMSE"; "NLL"] ->
  select scan d name col ([:: ("dim", VNum dim%:R)] ++ [:: ("Seed", VNum s%:~R); ("Iter", VNum n%:R)])%SEQ =
  Ok [:: if col == "RMSE" then (v (dim, s)).1 else (v (dim, s)).2].
Proof.
move=> cases hl hu hu' hs hd hc; apply: (select_one hl); first by move: hc; rewrite !inE => /orP[] /eqP->.
rewrite [trows _]/= /ieks_l96_rows zip_map -map_comp (pick_one (a := (dim, s))) //=; first 1 last.
- by apply: allpairs_uniq => // -[a b] [a' b'] _ _ /= [-> ->].
- by apply/allpairsP; exists (dim, s).
- move=> [a b] hx; rewrite /holds /cell /= num_int num_nat eqxx !andbT.
  by apply/andP/eqP => [[/eqP-> /eqP->]|[-> ->]].
by congr [:: _]; move: hc; rewrite !inE => /orP[] /eqP->.
Qed.
Lemma il96_other d name n it cases ms s dim col :
  lookup d name = Some (Table ieks_l96_cols [:: "dim"; "Seed"; "Iter"] (ieks_l96_rows n cases ms)) -> it <> n -> col \in [:: "RMSE"; "NLL"] ->
  select scan d name col ([:: ("dim", VNum dim%:R)] ++ [:: ("Seed", VNum s%:~R); ("Iter", VNum it%:R)])%SEQ = Ok [::].
Proof.
move=> hl hn hc; have hA : all (mem ieks_l96_cols) (col :: map fst ([:: ("dim", VNum dim%:R)] ++ [:: ("Seed", VNum s%:~R); ("Iter", VNum it%:R)])%SEQ).
  by move: hc; rewrite !inE => /orP[] /eqP->.
case hS: (select _ _ _ _ _) => [vs|e]; last by move: hS; rewrite /select hl hA.
congr Ok; apply: (select_none hl) hS => r /mapP[x _ ->]; rewrite /holds /cell /= (num_nat n it).
have -> : (n == it) = false by apply/eqP => e; apply: hn.
by rewrite /= !andbF.
Qed.
Lemma ib_select d name n seeds (v : int -> (val * val) * (val * val) * (val * val)) s q col :
  lookup d name = Some (Table ieks_bott_cols [:: "Quantity"; "Seed"; "Iter"] (ieks_bott_rows n seeds (map v seeds))) ->
  uniq seeds -> s \in seeds -> q \in quantities -> col \in [:: "RMSE"; "NLL"] ->
  select scan d name col ([:: ("Quantity", VText q)] ++ [:: ("Seed", VNum s%:~R); ("Iter", VNum n%:R)])%SEQ =
  Ok [:: if col == "RMSE" then (part q (v s)).1 else (part q (v s)).2].
Proof.
move=> hl hu hs hq hc; apply: (select_one hl); first by move: hc; rewrite !inE => /orP[] /eqP->.
rewrite [trows _]/= /ieks_bott_rows zip_map.
set T := Table _ _ _.
have -> : [seq r <- flatten [seq [seq [:: VText y.1; VNum x.1%:~R; VNum n%:R; y.2.1; y.2.2] | y <- zip quantities [:: x.2.1.1; x.2.1.2; x.2.2]] | x <- [seq (a, v a) | a <- seeds]]
   | holds T r ([:: ("Quantity", VText q)] ++ [:: ("Seed", VNum s%:~R); ("Iter", VNum n%:R)])%SEQ] =
   [:: [:: VText q; VNum s%:~R; VNum n%:R; (part q (v s)).1; (part q (v s)).2]].
  have hT r : holds T r ([:: ("Quantity", VText q)] ++ [:: ("Seed", VNum s%:~R); ("Iter", VNum n%:R)])%SEQ =
    [&& nth VNull r 0 == VText q, nth VNull r 1 == VNum s%:~R & nth VNull r 2 == VNum n%:R] by rewrite /holds /cell /= andbT.
  rewrite (eq_filter hT).
  elim: (seeds) hu hs => //= x l IH /andP[hn hu]; rewrite !num_int !eqxx !andbT !inE.
  have nil : x = s -> [seq r <- flatten [seq [seq [:: VText y.1; VNum x.1%:~R; VNum n%:R; y.2.1; y.2.2] | y <- zip quantities [:: x.2.1.1; x.2.1.2; x.2.2]] | x <- [seq (a, v a) | a <- l]]
    | [&& nth VNull r 0 == VText q, nth VNull r 1 == VNum s%:~R & nth VNull r 2 == VNum n%:R]] = [::].
    move=> e; rewrite e in hn; elim: (l) hn => //= z l' IH'; rewrite inE negb_or => /andP[h1 h2].
    by rewrite !num_int (eq_sym z) (negbTE h1) !andbF IH'.
  rewrite (eq_sym s x); case hxs: (x == s) => /=; last by move=> hs; rewrite !andbF; apply: IH.
  move=> _; have /= -> := nil (eqP hxs); rewrite !andbT (eqP hxs).
  by move: hq; rewrite !inE => /or3P[] /eqP->.
by congr [:: _]; move: hc; rewrite !inE => /orP[] /eqP->.
Qed.
Lemma ib_other d name n it seeds ms s q col :
  lookup d name = Some (Table ieks_bott_cols [:: "Quantity"; "Seed"; "Iter"] (ieks_bott_rows n seeds ms)) -> it <> n -> col \in [:: "RMSE"; "NLL"] ->
  select scan d name col ([:: ("Quantity", VText q)] ++ [:: ("Seed", VNum s%:~R); ("Iter", VNum it%:R)])%SEQ = Ok [::].
Proof.
move=> hl hn hc; have hA : all (mem ieks_bott_cols) (col :: map fst ([:: ("Quantity", VText q)] ++ [:: ("Seed", VNum s%:~R); ("Iter", VNum it%:R)])%SEQ).
  by move: hc; rewrite !inE => /orP[] /eqP->.
case hS: (select _ _ _ _ _) => [vs|e]; last by move: hS; rewrite /select hl hA.
congr Ok; apply: (select_none hl) hS => r /flattenP[l /mapP[x _ ->] /mapP[y _ ->]]; rewrite /holds /cell /= (num_nat n it).
have -> : (n == it) = false by apply/eqP => e; apply: hn.
by rewrite /= !andbF.
Qed.

(** ** composition *)
Lemma absent_select W reseed simulate build sweep metrics num_iter dyn_name exp_name seeds trans powers damps override d0 (l : seq (W * option nat)) p q t i col vs :
  dyn_name != exp_name ->
  (forall tb, lookup d0 exp_name = Some tb -> tcols tb = exp_cols /\ forall r, r \in trows tb -> ~~ holds tb r (ep_cond [::] p q t i)) ->
  [|| t \notin trans, p \notin powers | q \notin damps] ->
  select scan (attempts reseed simulate build sweep metrics num_iter dyn_name exp_name seeds trans powers damps override l d0)
    exp_name col (ep_cond [::] p q t i) = Ok vs -> vs = [::].
Proof.
move=> names h0 h.
pose Q r := holds (Table exp_cols exp_key [::]) r (ep_cond [::] p q t i).
have good seed c ms r : c \in product seed trans powers damps -> r \in rows_of c ms -> ~~ Q r by move=> h1 h2; apply: absent_holds h1 h2 h.
have ok0 : okdb exp_name Q d0.
  by move=> tb /h0 [h1 h2]; split=> // r /h2; rewrite (@holds_cols tb (Table exp_cols exp_key [::])).
have := @keep_attempts W reseed simulate build sweep metrics num_iter dyn_name exp_name names trans powers damps Q good override seeds l d0 ok0.
move: (attempts _ _ _ _ _ _ _ _ _ _ _ _ _ _ _) => d hd.
case hl: (lookup d exp_name) => [tb|]; last by rewrite /select hl.
have [h1 h2] := hd _ hl; apply: (select_none hl) => r /h2; by rewrite (@holds_cols tb (Table exp_cols exp_key [::])).
Qed.

Section L96.
Variable W : Type.
Variables (make : nat -> W -> W * res unit) (reseed : int -> W -> W) (simulate : W -> W * res unit).
Variables (build : nat -> rat -> rat -> W -> W * res unit) (sweep : W -> W * res unit) (record : nat -> W -> W * res unit).
Variable metrics : W -> W * res (val * val).
Variables (name trans : string) (dims : seq nat) (seeds : seq int) (settings : seq (rat * rat * nat)).
Notation main := (l96_main make reseed simulate build sweep record metrics name trans dims seeds settings).
Notation work := (l96_work make reseed simulate build sweep record metrics dims seeds settings).
Notation keys := (l96_keys trans dims seeds settings).
Lemma l96_final w d t dim p : (forall t, lookup d name = Some t -> t = Table l96_cols l96_key [::]) -> uniq keys ->
  let l := l96_sample keys (chain work w).1 t dim in
  numeric (l 0%N 1 1) -> numeric (l 9%N p 1) ->
  exists o1 o2, [/\ l96_report R scan (s_durable (main (start w d None)).1) name dim p t = Ok [:: o1; o2],
    describes (l 0%N 1 1) o1 & describes (l 9%N p 1) o2].
Proof.
move=> h hu l n1 n2.
have hf : fresh name d by rewrite /fresh; case: (lookup d name) h => // t'; apply.
have [_ h1 _ _] := @l96_fresh W make reseed simulate build sweep record metrics name trans dims seeds settings w d None hf hu.
by apply: (l96_report_ok (h1 _)).
Qed.
Lemma l96_final_other w d f t dim p : (forall t, lookup d name = Some t -> t = Table l96_cols l96_key [::]) -> uniq keys ->
  f <> Some 0%N -> t != trans ->
  l96_report R scan (s_durable (main (start w d f)).1) name dim p t = Ok [:: (None, None); (None, None)].
Proof.
move=> h hu f0 ht.
have hf : fresh name d by rewrite /fresh; case: (lookup d name) h => // t'; apply.
have [_ /(_ f0) h1 _ _] := @l96_fresh W make reseed simulate build sweep record metrics name trans dims seeds settings w d f hf hu.
have [ms hms] : exists ms, (if f is Some k then take ((k - 2) %/ 2) (l96_rows keys (chain work w).1) else l96_rows keys (chain work w).1) = l96_rows keys ms.
  case: (f) => [k|]; last by eexists.
  exists (take ((k - 2) %/ 2) (chain work w).1); rewrite /l96_rows -map_take; congr (map _ _).
  elim: (keys) (chain work w).1 ((k - 2) %/ 2)%N => [|a l IH] [|b l'] [|j] //=; by rewrite IH.
rewrite hms in h1.
have e i q := @l96_other trans dims seeds settings ms t dim i q 1 ht.
have n i q : numeric [seq km.2 | km <- zip keys ms & l96_match t dim i q 1 km.1] by rewrite e.
have [o1 [o2 [->]]] := l96_report_ok h1 erefl erefl (n 0%N 1) (n 9%N p).
by rewrite !e => /describes_nil -> /describes_nil ->.
Qed.
End L96.

Section Ieks.
Variable W : Type.
Variables (reseed : int -> W -> W) (name : string) (num_iter : nat) (P : W -> Prop) (d0 : db) (w : W).
Hypothesis pw : P w.
Hypothesis new : lookup d0 name = None.
Variables (seeds asked : seq int).
Hypothesis u : uniq seeds.
Hypothesis sub : {subset asked <= seeds}.
Lemma sch c k : schema name c k d0. Proof. by move=> t; rewrite new. Qed.
Lemma final_ungm experiment v it : (forall s, reproducible P (fun w => experiment (reseed s w)) (Ok (v s))) ->
  numeric (map v asked) ->
  let r := ieks_ungm reseed name num_iter experiment seeds (start w d0 None) in
  if it == num_iter then exists2 o, ieks_report R scan (s_durable r.1) name [::] asked it = Ok o & describes (map v asked) o
  else ieks_report R scan (s_durable r.1) name [::] asked it = Ok (None, None).
Proof.
move=> h hn r.
have [_] := ungm_result num_iter h (sch _ _) pw new u.
rewrite (@collect_ok _ _ _ v) // -/r /= => hl.
case: eqP => [->|hi].
  by apply: ieks_ok => // s hs col hc; apply: ungm_select hl u (sub hs) hc.
by apply: ieks_nan => s hs col hc; apply: ungm_other hl hi hc.
Qed.
Lemma final_l96 make experiment (dims : seq nat) (dim : nat) (v : nat * int -> val * val) it : (forall d, reproducible P (make d) (Ok tt)) ->
  (forall c, reproducible P (fun w => experiment c.1 (reseed c.2 w)) (Ok (v c))) -> uniq dims -> dim \in dims ->
  numeric [seq v (dim, s) | s <- asked] ->
  let r := ieks_l96 reseed name num_iter make experiment dims seeds (start w d0 None) in
  let rep := ieks_report R scan (s_durable r.1) name [:: ("dim", VNum dim%:R)] asked it in
  if it == num_iter then exists2 o, rep = Ok o & describes [seq v (dim, s) | s <- asked] o else rep = Ok (None, None).
Proof.
move=> hm h ud hd hn r rep; rewrite /rep.
have [_] := @il96_result W reseed name num_iter P d0 make experiment dims seeds (fun c => Ok (v c)) hm h (sch _ _) w pw new ud u.
rewrite (@collect_ok _ _ _ v) // -/r /= => hl.
case: eqP => [->|hi].
  by apply: (@ieks_ok _ _ _ _ _ (fun s => v (dim, s))) => // s hs col hc; apply: il96_select hl ud u (sub hs) hd hc.
by apply: ieks_nan => s hs col hc; apply: il96_other hl hi hc.
Qed.
Lemma final_bott experiment q v it : (forall s, reproducible P (fun w => experiment (reseed s w)) (Ok (v s))) ->
  q \in quantities -> numeric [seq part q (v s) | s <- asked] ->
  let r := ieks_bott reseed name num_iter experiment seeds (start w d0 None) in
  let rep := ieks_report R scan (s_durable r.1) name [:: ("Quantity", VText q)] asked it in
  if it == num_iter then exists2 o, rep = Ok o & describes [seq part q (v s) | s <- asked] o else rep = Ok (None, None).
Proof.
move=> h hq hn r rep; rewrite /rep.
have [_] := ib_result num_iter h (sch _ _) pw new u.
rewrite (@collect_ok _ _ _ v) // -/r /= => hl.
case: eqP => [->|hi].
  by apply: (@ieks_ok _ _ _ _ _ (fun s => part q (v s))) => // s hs col hc; apply: ib_select hl u (sub hs) hq hc.
by apply: ieks_nan => s hs col hc; apply: ib_other hl hi hc.
Qed.
End Ieks.
End Scripts.
