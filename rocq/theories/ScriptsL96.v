(** * Experiments/EP_Sweep_L96.py as a program of plain INSERTs *)
Set Warnings "-notation-overridden,-ambiguous-paths".
From mathcomp Require Import all_ssreflect all_algebra.
From Coq Require Import String.
From Verif Require Import Base Database FullSweep SpecDb DatabaseFacts Scripts SpecScripts ScriptsFacts ScriptsRun.
Set Implicit Arguments.
Unset Strict Implicit.
Unset Printing Implicit Defensive.
Import GRing.Theory.

Lemma flat_pairs A B C (F : A -> B -> seq C) da sb :
  flatten [seq flatten [seq F d s | s <- sb] | d <- da] = flatten [seq F c.1 c.2 | c <- [seq (d, s) | d <- da, s <- sb]].
Proof. by elim: da => //= d da ->; rewrite map_cat flatten_cat -map_comp. Qed.

Section Tied.
Variable W : Type.
Notation step := (step W).
(** a step, the computation it makes and the key it stores *)
Fixpoint tied (l : seq step) (ws : seq (W -> W * res (option (val * val)))) (ks : seq (seq val)) : Prop :=
  match l, ws, ks with
  | [::], [::], [::] => True
  | Comp f :: l', g :: ws', _ => g = silent _ f /\ tied l' ws' ks
  | Batch f :: l', g :: ws', k :: ks' =>
      (exists m, g = observed m /\ f = mapw m (fun v => [:: k ++ [:: v.1; v.2]])) /\ tied l' ws' ks'
  | _, _, _ => False
  end.
Lemma tied_cat l1 w1 k1 l2 w2 k2 : tied l1 w1 k1 -> tied l2 w2 k2 -> tied (l1 ++ l2) (w1 ++ w2) (k1 ++ k2).
Proof.
elim: l1 w1 k1 => [|[f|f] l1 IH] [|g w1] k1 //=; first by case: k1.
  by case=> e h h2; split=> //; apply: IH.
by case: k1 => //= k k1 [e h] h2; split=> //; apply: IH.
Qed.
Lemma tied_flatten A (f : A -> seq step) g k l : (forall a, tied (f a) (g a) (k a)) ->
  tied (flatten (map f l)) (flatten (map g l)) (flatten (map k l)).
Proof. by move=> h; elim: l => //= a l IH; apply: tied_cat. Qed.
Lemma tied_outputs l ws ks w : tied l ws ks ->
  (outputs l w).1 = [seq [:: r] | r <- l96_rows ks (chain ws w).1] /\ (outputs l w).2.1 = (chain ws w).2.
Proof.
elim: l ws ks w => [|[f|f] l IH] [|g ws] ks w //=; first by case: ks.
  by case=> -> h; rewrite /silent; case: (f w) => w' [u|e] /=; [exact: IH | rewrite /l96_rows; case: ks {h}].
case: ks => // k ks [[m [-> ->]] h]; rewrite /observed /mapw; case: (m w) => w' [v|e] //=.
by have [-> ->] := IH _ _ w' h.
Qed.
Lemma tied_keyed cols key l ws ks : tied l ws ks ->
  (forall k a b, k \in ks -> size (k ++ [:: a; b]) = size cols /\ keyof (Table cols key [::]) (k ++ [:: a; b]) = k) -> keyed cols key l ks.
Proof.
elim: l ws ks => [|[f|f] l IH] [|g ws] ks //=; first by case: ks.
  by case=> _ h hk; apply: IH h hk.
case: ks => // k ks [[m [_ ->]] h] hk; split; last by apply: IH h _ => k' a b hk'; apply: hk; rewrite inE hk' orbT.
move=> w w' b; rewrite /mapw; case: (m w) => w1 [v|e] // [_ <-]; exists (k ++ [:: v.1; v.2]).
by have [h1 h2] := hk k v.1 v.2 (mem_head _ _).
Qed.
End Tied.

Section Main.
Variable W : Type.
Variables (make : nat -> W -> W * res unit) (reseed : int -> W -> W) (simulate : W -> W * res unit).
Variables (build : nat -> rat -> rat -> W -> W * res unit) (sweep : W -> W * res unit) (record : nat -> W -> W * res unit).
Variable metrics : W -> W * res (val * val).
Variables (name trans : string).
Variables (dims : seq nat) (seeds : seq int) (settings : seq (rat * rat * nat)).
Notation strict := (@insert_strict W name l96_cols).
Notation main := (l96_main make reseed simulate build sweep record metrics name trans dims seeds settings).
Notation work := (l96_work make reseed simulate build sweep record metrics dims seeds settings).
Notation keys := (l96_keys trans dims seeds settings).
Notation T0 := (Table l96_cols l96_key [::]).

Definition itk d s p q i : seq val := [:: VText trans; VNum s%:~R; VNum d%:R; VNum i%:R; VNum p; VNum q].
Definition it_steps d s p q i := [:: Comp sweep; Comp (record i); Batch (mapw metrics (fun v => [:: itk d s p q i ++ [:: v.1; v.2]]))].
Definition set_steps d s (x : rat * rat * nat) := Comp (build d x.1.1 x.1.2) :: flatten [seq it_steps d s x.1.1 x.1.2 i | i <- iota 0 x.2].
Definition case_steps (c : nat * int) := [:: Comp (make c.1), Comp (fun w => (reseed c.2 w, Ok tt)), Comp simulate & flatten [seq set_steps c.1 c.2 x | x <- settings]].
Definition all_steps := flatten [seq case_steps c | c <- [seq (d, s) | d <- dims, s <- seeds]].

Lemma it_prog d s p q i st : l96_iter sweep record metrics name trans d s p q i st = prog strict (it_steps d s p q i) st.
Proof.
rewrite /it_steps -comp_prog; apply: eq_mbind => // _ s1; rewrite -comp_prog; apply: eq_mbind => // _ s2.
by rewrite -batch_prog; apply: eq_mbind => // m s3; rewrite ins1.
Qed.
Lemma set_prog d s x st : l96_setting build sweep record metrics name trans d s x st = prog strict (set_steps d s x) st.
Proof.
case: x => [[p q] n]; rewrite /set_steps -comp_prog; apply: eq_mbind => // _ s1.
by apply: foreach_prog => i s2; rewrite it_prog.
Qed.
Lemma case_prog c st : l96_case make reseed simulate build sweep record metrics name trans settings c st = prog strict (case_steps c) st.
Proof.
rewrite /case_steps -comp_prog; apply: eq_mbind => // _ s1; rewrite -comp_prog; apply: eq_mbind => // _ s2.
rewrite -comp_prog; apply: eq_mbind => // _ s3.
by apply: foreach_prog => x s4; rewrite set_prog.
Qed.
Lemma all_prog st : foreach (l96_case make reseed simulate build sweep record metrics name trans settings) [seq (d, s) | d <- dims, s <- seeds] st
  = prog strict all_steps st.
Proof. by apply: foreach_prog => c s; rewrite case_prog. Qed.
Lemma all_tied : tied all_steps work keys.
Proof.
rewrite /l96_work /l96_keys [X in tied _ X _]flat_pairs [X in tied _ _ X]flat_pairs; apply: tied_flatten => c; rewrite /case_steps /=.
do 3! split=> //; apply: tied_flatten => x; rewrite /set_steps /=; split=> //.
have -> : [seq itk c.1 c.2 x.1.1 x.1.2 i | i <- iota 0 x.2] = flatten [seq [:: itk c.1 c.2 x.1.1 x.1.2 i] | i <- iota 0 x.2].
  by elim: (iota _ _) => //= i l ->.
apply: tied_flatten => i /=; do 3! split=> //; by exists metrics.
Qed.
Lemma key_form k : k \in keys -> exists s d i p q, k = [:: VText trans; VNum s; VNum d; VNum i; VNum p; VNum q].
Proof. by case/flattenP=> l /mapP [d _ ->] /flattenP [l' /mapP [s _ ->]] /flattenP [l2 /mapP [x _ ->]] /mapP [i _ ->]; do 5! eexists. Qed.
Lemma key_row k a b : k \in keys -> [/\ size (k ++ [:: a; b]) = size l96_cols, keyof T0 (k ++ [:: a; b]) = k & VNull \notin k].
Proof. by case/key_form=> s [d [i [p [q ->]]]]. Qed.
Lemma all_keyed : keyed l96_cols l96_key all_steps keys.
Proof. by apply: tied_keyed all_tied _ => k a b /(@key_row k a b) []. Qed.
Lemma mem_rows r ms : r \in l96_rows keys ms -> exists k a b, k \in keys /\ r = k ++ [:: a; b].
Proof.
case/mapP=> -[k [a b]] h ->; exists k, a, b; split=> //; move: h; elim: keys ms => [|k' ks IH] [|m ms] //=.
by rewrite !inE xpair_eqE => /orP [/andP [/eqP -> _]|/IH ->]; rewrite ?eqxx ?orbT.
Qed.
Lemma rows_keys ms : map (keyof T0) (l96_rows keys ms) = take (size ms) keys.
Proof.
have gen ks : {subset ks <= keys} -> forall ms, map (keyof T0) (l96_rows ks ms) = take (size ms) ks; last exact: gen.
elim: ks => [|k ks IH] hk [|m0 ms0] //; case: m0 => a b; rewrite /l96_rows [LHS]/= [RHS]/=.
have [_ -> _] := key_row a b (hk _ (mem_head _ _)); congr (_ :: _); apply: IH => k' hk'.
by apply: hk; rewrite inE hk' orbT.
Qed.
Lemma rows_take ms n : map (keyof T0) (take n (l96_rows keys ms)) = take n (take (size ms) keys).
Proof. by rewrite map_take rows_keys. Qed.

Definition fresh (d : db) : Prop := if lookup d name is Some t then t = T0 else True.
Definition base d : db := if lookup d name is Some _ then d else rcons d (name, T0).
Lemma main_start w d f : main (start w d f) =
  match f with
  | Some 0 => (start w d f, Died)
  | Some 1 => (St w (base d) (base d) false (Some 0), Died)
  | Some f.+2 => prog strict all_steps (St w (base d) (base d) false (Some f))
  | None => prog strict all_steps (St w (base d) (base d) false None)
  end.
Proof.
rewrite /l96_main {1}/mbind {1}/mbind /create_table {1}/mbind /tick /start /base; case: f => [[|f]|] //=; case E: (lookup d name) => [t|];
  rewrite commitE /=; try (by rewrite all_prog); case: f => [|f] //=; by rewrite all_prog.
Qed.
Lemma lookup_base d : fresh d -> lookup (base d) name = Some T0.
Proof. by rewrite /fresh /base; case E: (lookup d name) => [t|]; [move=> <- | rewrite lookup_rcons E eqxx]. Qed.
Lemma base_other d n : n != name -> lookup (base d) n = lookup d n.
Proof. by move=> h; rewrite /base; case: (lookup d name) => // ; rewrite lookup_rcons eq_sym (negbTE h); case: (lookup d n). Qed.
Lemma run_fresh w d (f : option nat) : fresh d -> uniq keys ->
  let s := St w (base d) (base d) false f in let r := prog strict all_steps s in
  let ms := chain work w in let rows := l96_rows keys ms.1 in
  let n := if f is Some f then minn (f %/ 2) (size rows) else size rows in
  s_durable r.1 = update (base d) name (Table l96_cols l96_key (take n rows)) /\
  r.2 = if dead f (2 * size rows) then Died else outcome ms.2.
Proof.
move=> hf hu s r ms rows n.
have hl : lookup (s_working s) name = Some T0 by exact: lookup_base.
have hr : r = prog (@insert W name l96_cols) all_steps s.
  by apply: (@strict_ignore W name l96_cols l96_key isT all_steps keys s T0 hl erefl erefl all_keyed hu).
have := @prog_run W name l96_cols isT all_steps s T0 hl erefl (keyed_sized all_keyed).
have [o1 o2] := tied_outputs w all_tied; cbv zeta; rewrite -[s_w s]/w o1 o2 -/ms -/rows -hr.
have fl b : flatten [seq [:: x] | x <- b] = b :> seq row by elim: b => //= x b ->.
have hs b : b \in [seq [:: x] | x <- rows] -> size b = 1%N by case/mapP=> x _ ->.
have ins m : insert_all T0 (take m rows) = Table l96_cols l96_key (take m rows).
  by rewrite insert_fresh //= rows_take; apply: take_uniq; apply: take_uniq.
rewrite (cost_const hs) size_map -[s_fuel s]/f -[s_durable s]/(base d) -[s_working s]/(base d) fl.
have nil0 : update (base d) name (Table l96_cols l96_key [::]) = base d by apply: update_same; exact: lookup_base.
case: ifP => hd.
  rewrite (finished_const _ hs) size_map; case: f @s @r @n hl hr hd => //= f hl hr hd [-> ->]; split=> //.
  case E: (minn _ _) => [|j]; first by rewrite take0 nil0.
  by rewrite -map_take fl ins.
move=> ->; split=> //=; have -> : n = size rows.
  rewrite /n; case: (f) hd => //= k /negbT; rewrite -leqNgt => h; apply/minn_idPr.
  by rewrite leq_divRL // mulnC.
have := ins (size rows); rewrite !take_size /nilp size_map => ->.
by case: (rows) => //=; rewrite nil0.
Qed.

Theorem l96_fresh w d f : fresh d -> uniq keys ->
  let r := main (start w d f) in let ms := chain work w in let rows := l96_rows keys ms.1 in
  [/\ r.2 = (if f is Some k then if (k < 2 + 2 * size rows)%N then Died else outcome ms.2 else outcome ms.2),
      f <> Some 0 -> lookup (s_durable r.1) name =
        Some (Table l96_cols l96_key (if f is Some k then take ((k - 2) %/ 2) rows else rows)),
      f = Some 0 -> s_durable r.1 = d
    & forall n, n != name -> lookup (s_durable r.1) n = lookup d n].
Proof.
move=> hf hu r ms rows; rewrite /r main_start.
have tk k : take (minn k (size rows)) rows = take k rows.
  by case: leqP => h //; rewrite take_size take_oversize // ltnW.
have lb t : lookup (update (base d) name t) name = Some t by apply: lookup_update; exact: lookup_base.
have lo t n : n != name -> lookup (update (base d) name t) n = lookup d n.
  by move=> h; rewrite lookup_update_ne ?base_other // eq_sym.
case: f {r} => [[|[|f]]|]; first by split.
- by split=> // [_|n h]; rewrite /= ?take0 ?lookup_base ?base_other.
- have [-> ->] := @run_fresh w d (Some f) hf hu; split=> // [_|n h]; last exact: lo.
  by rewrite lb -/ms -/rows tk subn2.
have [-> ->] := @run_fresh w d None hf hu; split=> // [_|n h]; last exact: lo.
by rewrite lb -/ms -/rows take_size.
Qed.

Theorem l96_stuck w d f t k ks : lookup d name = Some t -> tcols t = l96_cols -> tkey t = l96_key ->
  keys = k :: ks -> k \in map (keyof t) (trows t) ->
  let r := main (start w d f) in s_durable r.1 = d /\ r.2 <> Done tt.
Proof.
move=> hl hc hk ek hin r; rewrite /r main_start /base hl.
have hy : keyed l96_cols l96_key all_steps (k :: ks) by rewrite -ek; exact: all_keyed.
have hn : VNull \notin k by have [] := @key_row k VNull VNull (eq_ind_r (fun l => k \in l) (mem_head k ks) ek).
by case: f {r} => [[|[|f]]|] //; apply: (@stuck W name l96_cols l96_key isT all_steps k ks _ t).
Qed.
Theorem l96_stuck_err w d t k ks : lookup d name = Some t -> tcols t = l96_cols -> tkey t = l96_key ->
  keys = k :: ks -> k \in map (keyof t) (trows t) ->
  (forall d, total (make d)) -> total simulate -> (forall d p q, total (build d p q)) -> total sweep -> (forall i, total (record i)) -> total metrics ->
  (main (start w d None)).2 = Raised DbErr.
Proof.
move=> hl hc hk ek hin t1 t2 t3 t4 t5 t6; rewrite main_start /base hl.
have hy : keyed l96_cols l96_key all_steps (k :: ks) by rewrite -ek; exact: all_keyed.
have hn : VNull \notin k by have [] := @key_row k VNull VNull (eq_ind_r (fun l => k \in l) (mem_head k ks) ek).
apply: (@stuck_err W name l96_cols l96_key isT all_steps k ks _ t) => //.
apply: totals_flatten => c; rewrite /case_steps /=; split=> //; split; first by move=> w'; exists (reseed c.2 w'), tt.
split=> //; apply: totals_flatten => x; split=> //; apply: totals_flatten => i; do 2! split=> //; split=> //.
by move=> w'; rewrite /mapw; case: (t6 w') => w1 [m ->]; do 2! eexists.
Qed.
Theorem l96_once w d f t : fresh d -> uniq keys -> lookup (s_durable (main (start w d f)).1) name = Some t -> trows t <> [::] ->
  forall l, attempts_of main l (s_durable (main (start w d f)).1) = s_durable (main (start w d f)).1.
Proof.
move=> hf hu hl hne; have [_ h1 h2 _] := l96_fresh w f hf hu.
have h0 : f <> Some 0.
  move=> e; move: hl hne; rewrite (h2 e); move: hf; rewrite /fresh; case: (lookup d name) => // t' -> [<-] //.
move: (h1 h0); rewrite hl; case=> et.
have hs k ks : keys = k :: ks -> k \in map (keyof t) (trows t).
  move=> ek; move: hne; rewrite et /=; set rows := (if _ is Some _ then _ else _).
  have [m hm] : exists m, map (keyof T0) rows = take m keys.
    rewrite /rows; case: (f) => [j|]; last by eexists; exact: rows_keys.
    rewrite rows_take; case: (leqP ((j - 2) %/ 2) (size (chain work w).1)) => h; first by rewrite take_take //; eexists.
    by rewrite take_oversize; [eexists | rewrite size_take_min; apply: leq_trans (geq_minl _ _) (ltnW h)].
  have -> : keyof (Table l96_cols l96_key rows) = keyof T0 by [].
  by rewrite hm ek; case: m hm => [|m] hm; [move/(congr1 size): hm; rewrite take0 size_map; case: rows | rewrite /= mem_head].
case E: keys => [|k ks].
  by case: hne; rewrite et /= /l96_rows E; case: (f) => [j|]; case: (chain _ _).1.
have hc : tcols t = l96_cols by rewrite et.
have hk : tkey t = l96_key by rewrite et.
move=> l; elim: l => [//|wf l IH]; rewrite /attempts_of /=.
by have [-> _] := l96_stuck wf.1 wf.2 hl hc hk E (hs _ _ E).
Qed.
End Main.
