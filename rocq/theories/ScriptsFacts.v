(** * Programs that insert batches of rows, each followed by a commit *)
Set Warnings "-notation-overridden,-ambiguous-paths".
From mathcomp Require Import all_ssreflect all_algebra.
From Coq Require Import String.
From Verif Require Import Base Database FullSweep SpecDb DatabaseFacts Scripts SpecScripts.
Set Implicit Arguments.
Unset Strict Implicit.
Unset Printing Implicit Defensive.
Import GRing.Theory.

Section Steps.
Variable W : Type.
Notation M := (M W).
Notation st := (st W).
Inductive step := Comp of (W -> W * res unit) | Batch of (W -> W * res (seq row)).
Fixpoint inserts (ins : row -> M unit) (rs : seq row) : M unit :=
  if rs is r :: rs' then mbind (ins r) (fun _ => inserts ins rs') else mret tt.
Definition perform (ins : row -> M unit) (x : step) : M unit :=
  match x with Comp f => mworld f | Batch f => mbind (mworld f) (fun rs => mbind (inserts ins rs) (fun _ => @commit W)) end.
Fixpoint prog (ins : row -> M unit) (l : seq step) : M unit :=
  if l is x :: l' then mbind (perform ins x) (fun _ => prog ins l') else mret tt.

Lemma mbindA A B C (m : M A) (f : A -> M B) (g : B -> M C) s : mbind (mbind m f) g s = mbind m (fun a => mbind (f a) g) s.
Proof. by rewrite /mbind; case: (m s) => s' [a|e|]. Qed.
Lemma eq_mbind A B (m m' : M A) (f f' : A -> M B) s : m s = m' s -> (forall a s', f a s' = f' a s') -> mbind m f s = mbind m' f' s.
Proof. by move=> h hf; rewrite /mbind h; case: (m' s) => s' [a|e|]. Qed.
Lemma prog_cat ins l1 l2 s : prog ins (l1 ++ l2) s = mbind (prog ins l1) (fun _ => prog ins l2) s.
Proof. by elim: l1 s => //= x l1 IH s; rewrite mbindA; apply: eq_mbind. Qed.
Lemma foreach_prog ins A (body : A -> M unit) (f : A -> seq step) l : (forall a s, body a s = prog ins (f a) s) ->
  forall s, foreach body l s = prog ins (flatten (map f l)) s.
Proof.
move=> h; elim: l => //= a l IH s; rewrite prog_cat; exact: eq_mbind.
Qed.
Lemma mworld2 A B (f : W -> W * res A) (g : A -> W -> W * res B) s : mbind (mworld f) (fun a => mworld (g a)) s =
  mworld (fun w => match f w with (w', Ok a) => g a w' | (w', Err e) => (w', Err e) end) s.
Proof. by rewrite /mbind /mworld; case: (f _) => w [a|e]. Qed.

(** what a program computes *)
Fixpoint outputs (l : seq step) (w : W) : seq (seq row) * (option err * W) :=
  if l is x :: l' then
    match x with
    | Comp f => match f w with (w', Ok _) => outputs l' w' | (w', Err e) => ([::], (Some e, w')) end
    | Batch f => match f w with
                 | (w', Ok b) => (b :: (outputs l' w').1, (outputs l' w').2)
                 | (w', Err e) => ([::], (Some e, w')) end
    end
  else ([::], (None, w)).
(** all rows have [k] values *)
Fixpoint sized (k : nat) (l : seq step) : Prop :=
  if l is x :: l' then
    (if x is Batch f then forall w w' b, f w = (w', Ok b) -> all (fun r => size r == k) b else True) /\ sized k l'
  else True.
Lemma sized_cat k l1 l2 : sized k l1 -> sized k l2 -> sized k (l1 ++ l2).
Proof. by elim: l1 => //= x l1 IH [h1 h2] h; split=> //; apply: IH. Qed.
Lemma sized_flatten k A (f : A -> seq step) l : (forall a, sized k (f a)) -> sized k (flatten (map f l)).
Proof. by move=> h; elim: l => //= a l IH; apply: sized_cat. Qed.

Definition cost (bs : seq (seq row)) : nat := sumn [seq (size b).+1 | b <- bs].
(** the number of batches a process with [f] operations to live completes *)
Fixpoint finished (f : nat) (bs : seq (seq row)) : nat :=
  if bs is b :: bs' then if ((size b).+1 <= f)%N then (finished (f - (size b).+1) bs').+1 else 0 else 0.

Variables (name : string) (cols : seq string).
Hypothesis ucols : uniq cols.
Notation ignore := (@insert W name cols).
Lemma inserts_run rs s t : lookup (s_working s) name = Some t -> tcols t = cols -> all (fun r => size r == size cols) rs ->
  if dead (s_fuel s) (size rs) then (inserts ignore rs s).2 = Died /\ s_durable (inserts ignore rs s).1 = s_durable s
  else inserts ignore rs s = (St (s_w s) (s_durable s) (update (s_working s) name (insert_all t rs)) (~~ nilp rs || s_intx s) (minus (s_fuel s) (size rs)), Done tt).
Proof.
elim: rs s t => [|r rs IH] s t hl hc /=.
  by rewrite update_same //; case: s hl => w d wk tx [f|] /= _; rewrite ?subn0.
case/andP=> /eqP hr hrs; rewrite /mbind (insertE hl hc hr ucols).
case: (boolP (dead _ 1)) => hd.
  by have -> : dead (s_fuel s) (size rs).+1 by case: (s_fuel s) hd => //= f; rewrite ltnS leqn0 => /eqP ->.
set s1 := St _ _ _ _ _.
have hl1 : lookup (s_working s1) name = Some (insert_ignore t r) by rewrite /= (lookup_update _ hl).
have := IH s1 _ hl1; rewrite ins_cols => /(_ hc hrs); rewrite /s1 /=.
have -> : dead (dec (s_fuel s)) (size rs) = dead (s_fuel s) (size rs).+1.
  by case: (s_fuel s) hd => //= -[|f].
case: ifP => _; first by [].
move=> ->; congr (St _ _ _ _ _, _); first by rewrite update_update.
  by rewrite orbT.
by case: (s_fuel s) hd => //= -[|f] //= _; rewrite subSS.
Qed.

Definition with_w (s : st) (w : W) : st := St w (s_durable s) (s_working s) (s_intx s) (s_fuel s).
Lemma prog_comp ins f l s : prog ins (Comp f :: l) s =
  match f (s_w s) with (w1, Ok _) => prog ins l (with_w s w1) | (w1, Err e) => (with_w s w1, Raised e) end.
Proof. by rewrite /= /mbind /mworld; case: (f _) => w1 [[]|e]. Qed.
Lemma prog_batch ins f l s : prog ins (Batch f :: l) s =
  match f (s_w s) with
  | (w1, Ok b) => mbind (inserts ins b) (fun _ => mbind (@commit W) (fun _ => prog ins l)) (with_w s w1)
  | (w1, Err e) => (with_w s w1, Raised e) end.
Proof.
rewrite /= mbindA /= /mbind /mworld; case: (f _) => w1 [b|e] //; rewrite -/(with_w s w1).
by case: (inserts _ _ _) => s2 [a|e|].
Qed.
Lemma outputs_comp f l w : outputs (Comp f :: l) w = match f w with (w', Ok _) => outputs l w' | (w', Err e) => ([::], (Some e, w')) end.
Proof. by []. Qed.
Lemma outputs_batch f l w : outputs (Batch f :: l) w =
  match f w with (w', Ok b) => (b :: (outputs l w').1, (outputs l w').2) | (w', Err e) => ([::], (Some e, w')) end.
Proof. by []. Qed.

Lemma prog_run l s t : lookup (s_working s) name = Some t -> tcols t = cols -> sized (size cols) l ->
  let o := outputs l (s_w s) in let bs := o.1 in let r := prog ignore l s in
  if dead (s_fuel s) (cost bs) then
    r.2 = Died /\ s_durable r.1 =
      (if finished (odflt 0 (s_fuel s)) bs is j.+1 then update (s_working s) name (insert_all t (flatten (take j.+1 bs))) else s_durable s)
  else r = (St o.2.2 (if nilp bs then s_durable s else update (s_working s) name (insert_all t (flatten bs)))
              (update (s_working s) name (insert_all t (flatten bs))) (if nilp bs then s_intx s else false)
              (minus (s_fuel s) (cost bs)), outcome o.2.1).
Proof.
elim: l s t => [|x l IH] s t hl hc.
  by move=> _; case: s hl => w d wk tx [f|] hl; rewrite /= ?subn0 update_same.
have stop w1 e : (with_w s w1, @Raised unit e) = (St w1 (s_durable s) (update (s_working s) name t) (s_intx s) (minus (s_fuel s) 0), Raised e).
  by rewrite /with_w update_same //; case: (s_fuel s) => [k|] //=; rewrite subn0.
case: x => f [hf hs].
  rewrite outputs_comp prog_comp; case: (f _) => w1 [[]|e]; first exact: (IH (with_w s w1) t hl hc hs).
  by rewrite /= -stop; case: (s_fuel s).
rewrite outputs_batch prog_batch; case E: (f _) => [w1 [b|e]]; last by rewrite /= -stop; case: (s_fuel s).
have := @inserts_run b (with_w s w1) t hl hc (hf _ _ _ E); rewrite -[s_fuel (with_w s w1)]/(s_fuel s).
set o := outputs l w1; rewrite /cost [map _ _]/= [sumn _]/= -/(cost o.1) /mbind.
case: ifP => hd.
  case: (inserts _ _ _) => s2 [[]|e|] /= [// _ h2].
  case: (s_fuel s) hd => //= k hd; rewrite ltn_addr; last by rewrite ltnS ltnW.
  by rewrite leqNgt ltnS (ltnW hd).
move=> ->; rewrite commitE.
case: (boolP (dead _ 1)) => hd1.
  case: (s_fuel s) hd hd1 => //= k /negbT; rewrite -leqNgt => h1; rewrite ltnS leqn0 => h2.
  have ek : k = size b by apply/eqP; rewrite eqn_leq h1 -subn_eq0 h2.
  by rewrite ek ltn_addr // ltnn.
set s2 := St _ _ _ _ _.
have hl2 : lookup (s_working s2) name = Some (insert_all t b) by rewrite /= (lookup_update _ hl).
have := IH s2 _ hl2; rewrite insert_all_cols => /(_ hc hs); cbv zeta; rewrite -[s_w s2]/w1 -/o.
have ef : s_fuel s2 = minus (s_fuel s) (size b).+1 by rewrite /s2 /=; case: (s_fuel s) => //= k; rewrite subnS.
have hk : ~~ dead (s_fuel s) (size b).+1.
  case: (s_fuel s) hd hd1 => //= k /negbT; rewrite -leqNgt -leqNgt subn_gt0 => h1 h2; by rewrite -leqNgt.
have -> : dead (s_fuel s2) (cost o.1) = dead (s_fuel s) ((size b).+1 + cost o.1).
  rewrite ef; case: (s_fuel s) hk => //= k; rewrite -leqNgt => hk.
  by rewrite -(ltn_add2l (size b).+1) subnKC.
rewrite -[s_working s2]/(update (s_working s) name (insert_all t b)).
case: ifP => hd2.
  case=> -> ->; split=> //; rewrite ef; case: (s_fuel s) hk hd2 => //= k; rewrite -leqNgt => -> _.
  case: finished => [|j]; rewrite /s2 /= ?take0 ?cats0 // update_update insert_all_cat //.
move=> ->; congr (St _ _ _ _ _, _).
- by rewrite /= insert_all_cat update_update; case: o.1.
- by rewrite /= insert_all_cat update_update.
- by rewrite /=; case: nilp.
- rewrite ef; case: (s_fuel s) => //= k; by rewrite subnDA.
Qed.
End Steps.

(** ** tables *)
Lemma keys_ins t r k : VNull \notin keyof t r ->
  (k \in map (keyof t) (trows (insert_ignore t r))) = (k \in map (keyof t) (trows t)) || (k == keyof t r).
Proof.
move=> hn; rewrite /insert_ignore has_conflict /present hn /=; case: ifP => h /=.
  by case: (eqVneq k (keyof t r)) => [->|_]; rewrite ?h ?orbF.
by rewrite map_rcons mem_rcons inE orbC.
Qed.
Lemma keys_all t rs k : (forall r, r \in rs -> VNull \notin keyof t r) ->
  (k \in map (keyof t) (trows (insert_all t rs))) = (k \in map (keyof t) (trows t)) || (k \in map (keyof t) rs).
Proof.
elim: rs t => [|r rs IH] t h; first by rewrite orbF.
have e r' : keyof (insert_ignore t r) r' = keyof t r' by rewrite keyof_ins.
rewrite /= -(eq_map e) [trows _]/=; have h1 r' : r' \in rs -> VNull \notin keyof (insert_ignore t r) r'.
  by move=> hr; rewrite e; apply: h; rewrite inE hr orbT.
by rewrite (IH _ h1) !(eq_map e) keys_ins ?h ?inE ?eqxx // orbA.
Qed.
(** whole batches: doing the first [j] again changes nothing *)
Lemma absorb t bs i j : (forall r, r \in flatten bs -> VNull \notin keyof t r) ->
  insert_all (insert_all t (flatten (take j bs))) (flatten (take i bs)) = insert_all t (flatten (take (maxn i j) bs)).
Proof.
move=> hn; have sub m r : r \in flatten (take m bs) -> r \in flatten bs.
  by case/flattenP=> b /mem_take hb hr; apply/flattenP; exists b.
have again m m' : (m <= m')%N -> insert_all (insert_all t (flatten (take m' bs))) (flatten (take m bs)) = insert_all t (flatten (take m' bs)).
  move=> le; apply: all_id => r hr; rewrite keyof_all; apply: all_present; last by apply: hn; apply: sub hr.
  case/flattenP: hr => b hb hr; apply/flattenP; exists b => //.
  by move: hb; rewrite -(take_take le); exact: mem_take.
case: (leqP i j) => h; first exact: again.
have {1}-> : take i bs = take j bs ++ drop j (take i bs) by rewrite -{1}(cat_take_drop j (take i bs)) take_take // ltnW.
rewrite flatten_cat insert_all_cat again // -insert_all_cat -flatten_cat; congr (insert_all _ (flatten _)).
by rewrite -{2}(cat_take_drop j (take i bs)) take_take // ltnW.
Qed.

(** ** resuming a script *)
Section Resume.
Variable W : Type.
Variables (name : string) (cols key : seq string).
Hypothesis ucols : uniq cols.
Notation ignore := (@insert W name cols).
Variables (P : W -> Prop) (l : seq (step W)) (bs : seq (seq row)) (e : option err).
Hypothesis hsz : sized (size cols) l.
Hypothesis hout : forall w, P w -> (outputs l w).1 = bs /\ (outputs l w).2.1 = e.
Hypothesis hnull : forall r, r \in flatten bs -> VNull \notin keyof (Table cols key [::]) r.
Definition script : M W unit := mbind (@create_table W name cols key) (fun _ => prog ignore l).
Variable d0 : db.
Hypothesis hd0 : forall t, lookup d0 name = Some t -> tcols t = cols /\ tkey t = key.
Definition base : db := if lookup d0 name is Some _ then d0 else rcons d0 (name, Table cols key [::]).
Definition t0 : table := if lookup d0 name is Some t then t else Table cols key [::].
Lemma base_t0 : lookup base name = Some t0.
Proof. by rewrite /base /t0; case E: (lookup d0 name) => [t|] //; rewrite lookup_rcons E eqxx. Qed.
Lemma t0_schema : tcols t0 = cols /\ tkey t0 = key.
Proof. by rewrite /t0; case E: (lookup d0 name) => [t|] //; exact: hd0. Qed.
Definition at_ (j : nat) : db := update base name (insert_all t0 (flatten (take j bs))).
Lemma at0 : at_ 0 = base. Proof. by rewrite /at_ take0 /=; apply: update_same; exact: base_t0. Qed.
Definition seen (d : db) : Prop := d = d0 \/ exists j, d = at_ j.
Lemma seen_base d : seen d -> exists j, (if lookup d name is Some _ then d else rcons d (name, Table cols key [::])) = at_ j.
Proof.
case=> [->|[j ->]]; first by exists 0; rewrite at0.
by exists j; rewrite /at_ (lookup_update _ base_t0).
Qed.
Lemma at_lookup j : lookup (at_ j) name = Some (insert_all t0 (flatten (take j bs))).
Proof. by rewrite /at_ (lookup_update _ base_t0). Qed.
Lemma at_more i j : update (at_ j) name (insert_all (insert_all t0 (flatten (take j bs))) (flatten (take i bs))) = at_ (maxn i j).
Proof.
rewrite /at_ update_update absorb // => r hr; have [h1 h2] := t0_schema.
by rewrite (@keyof_cols _ (Table cols key [::])) // hnull.
Qed.
Lemma at_full j : update (at_ j) name (insert_all (insert_all t0 (flatten (take j bs))) (flatten bs)) = at_ (size bs).
Proof.
have := at_more (size bs) j; rewrite take_size => ->; case: (leqP j (size bs)) => // h.
by rewrite /at_ !take_oversize // ltnW.
Qed.
Lemma script_run w d k : P w -> seen d -> let r := script (start w d k) in
  seen (s_durable r.1) /\ (k = None -> [/\ r.2 = outcome e, s_durable r.1 = at_ (size bs) & s_working r.1 = at_ (size bs)]).
Proof.
move=> hw hd r; have [j hj] := seen_base hd.
have [[e1 e2]|[k' [h1 h2]]] : (k = Some 0 /\ r = (start w d k, Died)) \/
    exists k', (k = None -> k' = None) /\ r = prog ignore l (St w (at_ j) (at_ j) false k').
  rewrite /r /script /create_table /start {1 2}/mbind mbindA /mbind /tick /=.
  case: k {r} => [[|k]|] /=; first by left.
    by right; exists (Some k); split=> //; move: hj; case: (lookup d name) => [t|] <-.
  by right; exists None; split=> //; move: hj; case: (lookup d name) => [t|] <-.
  by rewrite e2; split=> // h; rewrite h in e1.
have [c1 c2] := t0_schema; have [o1 o2] := hout hw.
have := @prog_run W name cols ucols l (St w (at_ j) (at_ j) false k') _ (at_lookup j).
rewrite insert_all_cols => /(_ c1 hsz); cbv zeta; rewrite -h2 -[s_w _]/w -[s_durable (St _ _ _ _ _)]/(at_ j) -[s_working (St _ _ _ _ _)]/(at_ j) -[s_fuel (St _ _ _ _ _)]/k' o1 o2.
case: ifP => hd1.
  case=> r2 ->; split; last by move=> /h1 hk; rewrite hk in hd1.
  right; case: finished => [|i]; [by exists j|exists (maxn i.+1 j); exact: at_more].
move=> ->; rewrite /= at_full; split=> [|_]; first by right; case: ifP => _; [exists j|eexists].
by split=> //; case: ifP => // /nilP h0; rewrite /at_ h0.
Qed.
Lemma seen_attempts at0 : all_in P at0 -> seen (attempts_of script at0 d0).
Proof.
have : seen d0 by left.
rewrite /attempts_of; elim: at0 (d0) => //= -[w k] at' IH d hd h; apply: IH => [|w' k' hin]; last by apply: (h _ k'); right.
by apply: (script_run k _ hd).1; apply: (h _ k); left.
Qed.
Theorem resume_script at0 w w' : all_in P at0 -> P w -> P w' ->
  let r := script (start w (attempts_of script at0 d0) None) in let r0 := script (start w' d0 None) in
  [/\ r.2 = r0.2, s_durable r.1 = s_durable r0.1 & s_working r.1 = s_working r0.1].
Proof.
move=> ha hw hw' r r0.
have [_ /(_ erefl) [h1 h2 h3]] := script_run None hw (seen_attempts ha).
have [_ /(_ erefl) [h4 h5 h6]] := script_run None hw' (or_introl erefl : seen d0).
by rewrite h1 h2 h3 h4 h5 h6.
Qed.
Theorem script_result w : P w -> lookup d0 name = None -> let r := script (start w d0 None) in
  r.2 = outcome e /\ lookup (s_durable r.1) name = Some (insert_all (Table cols key [::]) (flatten bs)).
Proof.
move=> hw hl r; have [_ /(_ erefl) [h1 h2 h3]] := script_run None hw (or_introl erefl : seen d0).
by split=> //; rewrite h2 at_lookup take_size /t0 hl.
Qed.
End Resume.
