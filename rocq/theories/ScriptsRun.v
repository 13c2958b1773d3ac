(** * The experiment scripts as programs of batches *)
Set Warnings "-notation-overridden,-ambiguous-paths".
From mathcomp Require Import all_ssreflect all_algebra.
From Coq Require Import String.
From Verif Require Import Base Database FullSweep SpecDb DatabaseFacts Scripts SpecScripts ScriptsFacts.
Set Implicit Arguments.
Unset Strict Implicit.
Unset Printing Implicit Defensive.
Import GRing.Theory.
Local Open Scope string_scope.
Local Open Scope ring_scope.

Section Mapw.
Variable W : Type.
Definition mapw A B (f : W -> W * res A) (g : A -> B) : W -> W * res B :=
  fun w => match f w with (w', Ok a) => (w', Ok (g a)) | (w', Err e) => (w', Err e) end.
Lemma batch_prog ins A (f : W -> W * res A) (rows : A -> seq row) s :
  mbind (mworld f) (fun m => mbind (inserts ins (rows m)) (fun _ => @commit W)) s = prog ins [:: Batch (mapw f rows)] s.
Proof.
rewrite prog_batch /mapw /mbind /mworld; case: (f _) => w [a|e] //=.
by case: (inserts _ _ _) => s' [[]|e|] //; case: (commit _) => s2 [[]|e|].
Qed.
Lemma comp_prog ins (f : W -> W * res unit) l s : mbind (mworld f) (fun _ => prog ins l) s = prog ins (Comp f :: l) s.
Proof. by rewrite prog_comp /mbind /mworld; case: (f _) => w [a|e]. Qed.
Lemma ins1 (ins : row -> M W unit) r A (k : unit -> M W A) s : mbind (ins r) k s = mbind (inserts ins [:: r]) k s.
Proof. by rewrite /= /mbind /mret; case: (ins r s) => s' [[]|e|]. Qed.
End Mapw.

(** ** the bearings-only log *)
Section Bott.
Variable W : Type.
Variable sweep : W -> W * res unit.
Variable metrics : W -> W * res ((val * val) * (val * val) * (val * val)).
Variable name : string.
Variables (tr sd pw dp : val).
Notation ignore := (@insert W name bott_cols).
Definition std qt q a b : dict := zip bott_fields [:: tr; qt; sd; VNum q; pw; dp; a; b].
Lemma loss1 qt q a b key v l : insert_losses name (std qt q a b) ((key, v) :: l) =
  mbind (ignore [:: tr; VText key; sd; VNum q; pw; dp; v.1; v.2]) (fun _ => @insert_losses W name (std (VText key) q v.1 v.2) l).
Proof. by []. Qed.
Lemma losses_ins A qt q a b m (k : dict -> M W A) s :
  mbind (insert_losses name (std qt q a b) [:: ("position", m.1.1); ("velocity", m.1.2); ("angle", m.2)]) k s
  = mbind (inserts ignore (triple tr sd pw dp q m)) (fun _ => k (std (VText "angle") q m.2.1 m.2.2)) s.
Proof.
rewrite loss1 loss1 loss1 -[triple _ _ _ _ _ _]/([:: _; _; _]) /inserts.
rewrite mbindA [RHS]mbindA; apply: eq_mbind => // _ s1; rewrite mbindA [RHS]mbindA; apply: eq_mbind => // _ s2.
by rewrite mbindA [RHS]mbindA; apply: eq_mbind.
Qed.
Fixpoint bsteps (k : nat) (q : rat) : seq (step W) :=
  if k is k'.+1 then Comp sweep :: Batch (mapw metrics (triple tr sd pw dp (q + 1))) :: bsteps k' (q + 1) else [::].
Lemma bott_prog k qt q a b s : bott_loop sweep metrics k true name (std qt q a b) s = prog ignore (bsteps k q) s.
Proof.
elim: k qt q a b s => [//|k IH] qt q a b s.
rewrite [bsteps _ _]/= -comp_prog; apply: eq_mbind => // _ s1.
rewrite -[incr _]/(Ok (std qt (q + 1) a b)) prog_batch {1}/mbind /mlift {1}/mbind /mworld /mapw; case: (metrics _) => w [m|e] //.
rewrite -/(with_w _ _); case: m => [[pos vel] ang].
rewrite (losses_ins qt (q + 1) a b (pos, vel, ang)) /mbind; case: (inserts _ _ _) => s2 [[]|e|] //.
by case: (commit _) => s3 [[]|e|].
Qed.
Lemma bsteps_sized k q : sized (size bott_cols) (bsteps k q).
Proof.
elim: k q => //= k IH q; split=> //; split=> //.
by move=> w w' b; rewrite /mapw; case: (metrics w) => w1 [m|e] // [_ <-].
Qed.
Lemma triples_cons q m ms : triples tr sd pw dp q (m :: ms) = triple tr sd pw dp (q + 1) m :: triples tr sd pw dp (q + 1) ms.
Proof.
rewrite /triples /=; congr (_ :: _); rewrite -[1%N]addn0 iotaDl.
move: (iota 0 _) => l; elim: l ms => [|i l IH] [|m' ms] //=; congr (_ :: _); last exact: IH.
by rewrite -addrA -(natrD _ 1) !add1n.
Qed.
Lemma bott_outputs k q w : let o := outputs (bsteps k q) w in let t := trace sweep metrics k w in
  o.1 = triples tr sd pw dp q t.1 /\ o.2.1 = t.2.
Proof.
elim: k q w => [//|k IH] q w /=; case: (sweep w) => w1 [_|e] //; rewrite /mapw; case: (metrics w1) => w2 [m|e] //=.
by have [h1 h2] := IH (q + 1) w2; rewrite h1 h2 triples_cons.
Qed.
End Bott.
Lemma triple_size tr sd pw dp q ms b : b \in triples tr sd pw dp q ms -> size b = 3%N.
Proof. by case/mapP=> -[i m] _ ->. Qed.
Lemma triples_size tr sd pw dp q ms : size (triples tr sd pw dp q ms) = size ms.
Proof. by rewrite size_map size_zip size_iota minnn. Qed.
Lemma cost_const n bs : (forall b, b \in bs -> size b = n) -> cost bs = (n.+1 * size bs)%N.
Proof.
elim: bs => [|b bs IH] h; first by rewrite muln0.
by rewrite /cost /= -/(cost bs) IH ?mulnS ?h ?inE ?eqxx // => b' hb; apply: h; rewrite inE hb orbT.
Qed.
Lemma finished_const n f bs : (forall b, b \in bs -> size b = n) -> finished f bs = minn (f %/ n.+1) (size bs).
Proof.
elim: bs f => [|b bs IH] f h; first by rewrite minn0.
rewrite /= (h b) ?inE ?eqxx //; case: leqP => le; first by rewrite divn_small ?min0n.
rewrite IH; last by move=> b' hb; apply: h; rewrite inE hb orbT.
by rewrite -[in RHS](subnKC le) divnDl // divnn /= add1n minnSS.
Qed.
Section BottRun.
Variable W : Type.
Variable sweep : W -> W * res unit.
Variable metrics : W -> W * res ((val * val) * (val * val) * (val * val)).
Lemma bott_run n tr qt sd q pw dp a b name t (s : st W) :
  lookup (s_working s) name = Some t -> tcols t = bott_cols ->
  let r := bott_iterations sweep metrics n true (zip bott_fields [:: tr; qt; sd; VNum q; pw; dp; a; b]) name s in
  let ms := trace sweep metrics n (s_w s) in
  let rows := triples tr sd pw dp q ms.1 in
  match s_fuel s with
  | None => [/\ r.2 = outcome ms.2, s_working r.1 = update (s_working s) name (insert_all t (flatten rows))
              & s_durable r.1 = if rows is [::] then s_durable s else s_working r.1]
  | Some f =>
      if (f < 4 * size rows)%N
      then r.2 = Died /\ s_durable r.1 = if (f %/ 4)%N is 0%N then s_durable s else update (s_working s) name (insert_all t (flatten (take (f %/ 4) rows)))
      else [/\ r.2 = outcome ms.2, s_working r.1 = update (s_working s) name (insert_all t (flatten rows))
              & s_durable r.1 = if rows is [::] then s_durable s else s_working r.1]
  end.
Proof.
move=> hl hc r ms rows.
have := @prog_run W name bott_cols isT (bsteps sweep metrics tr sd pw dp n q) s t hl hc (bsteps_sized _ _ _ _ _ _ _ _).
have [o1 o2] := bott_outputs sweep metrics tr sd pw dp n q (s_w s).
cbv zeta; rewrite -(bott_prog sweep metrics name tr sd pw dp n qt q a b s) o1 o2 -/rows -/ms.
rewrite -[bott_loop _ _ _ _ _ _ _]/r.
have hs b0 : b0 \in rows -> size b0 = 3%N by exact: triple_size.
rewrite (cost_const hs); case: (s_fuel s) => [f|] /=.
  case: ifP => hf; last by move=> ->; split=> //=; case: (rows).
  rewrite (finished_const f hs); have /minn_idPl -> : (f %/ 4 <= size rows)%N.
    by apply: leq_trans (leq_div2r 4 (ltnW hf)) _; rewrite mulKn.
  by case: (f %/ 4)%N.
by move=> ->; split=> //=; case: (rows).
Qed.
End BottRun.

(** whole triples keep a table complete *)
Lemma complete_all t tr sd pw dp q ms : tcols t = bott_cols -> tkey t = bott_key -> VNull \notin [:: tr; sd; pw; dp] ->
  complete t -> complete (insert_all t (flatten (triples tr sd pw dp q ms))).
Proof.
move=> hc hk hn hcm a b tr' sd' it pw' dp' ha hb.
have kr tr0 qt sd0 q0 pw0 dp0 x y : keyof t [:: tr0; qt; sd0; q0; pw0; dp0; x; y] = [:: tr0; qt; sd0; q0; pw0; dp0].
  by rewrite /keyof /cell hc hk.
have mem r : r \in flatten (triples tr sd pw dp q ms) -> exists x i, x \in quantities /\ keyof t r = [:: tr; VText x; sd; VNum i; pw; dp].
  case/flattenP=> b0 /mapP [[i m] _ ->] /mapP [[x y] hx ->]; exists x, (q + (i.+1)%:R); split; last exact: kr.
  by have := map_f fst hx; rewrite -/(unzip1 _) unzip1_zip.
have nn r : r \in flatten (triples tr sd pw dp q ms) -> VNull \notin keyof t r.
  case/mem=> x [i [_ ->]]; move: hn; rewrite !inE !negb_or => /and4P [h1 h2 h3 h4].
  by rewrite h1 h2 h3 h4.
have e r : keyof (insert_all t (flatten (triples tr sd pw dp q ms))) r = keyof t r by exact: keyof_all.
rewrite !(eq_map e) !keys_all // => /orP [h|]; first by rewrite (hcm a b _ _ _ _ _ ha hb h).
case/mapP=> r /flattenP [b0 /mapP [[i m] him ->]] /mapP [[x y] hx ->]; rewrite kr => -[-> _ -> -> -> ->].
apply/orP; right.
have [y' hy'] : exists y', (b, y') \in zip quantities [:: m.1.1; m.1.2; m.2].
  move: hb; rewrite !inE => /or3P [] /eqP ->; [exists m.1.1|exists m.1.2|exists m.2].
  - exact: mem_head.
  - by rewrite inE mem_head orbT.
  - by rewrite !(inE, eqxx, orbT).
apply/mapP; exists [:: tr; VText b; sd; VNum (q + (i.+1)%:R); pw; dp; y'.1; y'.2]; last by rewrite kr.
apply/flattenP; exists (triple tr sd pw dp (q + (i.+1)%:R) m); first by apply/mapP; exists (i, m).
by apply/mapP; exists (b, y').
Qed.

(** ** plain INSERTs *)
Section Strict.
Variable W : Type.
Variables (name : string) (cols key : seq string).
Hypothesis ucols : uniq cols.
Notation ignore := (@insert W name cols).
Notation strict := (@insert_strict W name cols).
Notation T0 := (Table cols key [::]).
Lemma insert_strictE t vals (s : st W) : lookup (s_working s) name = Some t -> tcols t = cols -> size vals = size cols ->
  strict vals s = if dead (s_fuel s) 1 then (s, Died)
    else if present t (keyof t vals) then (St (s_w s) (s_durable s) (s_working s) (s_intx s) (dec (s_fuel s)), Raised DbErr)
    else ignore vals s.
Proof.
move=> hl hc hs; have e : [seq nth VNull vals (seq.index c cols) | c <- tcols t] = vals.
  by rewrite hc; apply: (@eq_from_nth _ VNull); rewrite size_map // => i hi; rewrite (nth_map ""%string) // index_uniq.
have ha : all (mem (tcols t)) cols by rewrite hc; apply/allP.
rewrite /insert_strict /insert /mbind /tick /mdb /mraise /mset; case: s hl => w d wk tx [[|f]|] //= hl;
  by rewrite hs eqxx /= hl ha e has_conflict /insert_ignore has_conflict; case: ifP.
Qed.
(** every batch is one row, and the keys are known in advance *)
Fixpoint keyed (l : seq (step W)) (ks : seq (seq val)) : Prop :=
  match l with
  | [::] => ks = [::]
  | Comp _ :: l' => keyed l' ks
  | Batch f :: l' => if ks is k :: ks' then
      (forall w w' b, f w = (w', Ok b) -> exists r, [/\ b = [:: r], size r = size cols & keyof T0 r = k]) /\ keyed l' ks' else False
  end.
Lemma keyed_cat l1 l2 k1 k2 : keyed l1 k1 -> keyed l2 k2 -> keyed (l1 ++ l2)%SEQ (k1 ++ k2)%SEQ.
Proof. by elim: l1 k1 => [k1 -> //|[f|f] l1 IH k1] /=; [exact: IH|case: k1 => //= k k1 [h1 h2] h; split=> //; apply: IH]. Qed.
Lemma keyed_flatten A (f : A -> seq (step W)) (g : A -> seq (seq val)) l : (forall a, keyed (f a) (g a)) -> keyed (flatten (map f l)) (flatten (map g l)).
Proof. by move=> h; elim: l => //= a l IH; apply: keyed_cat. Qed.
Lemma keyed_sized l ks : keyed l ks -> sized (size cols) l.
Proof.
elim: l ks => //= -[f|f] l IH ks; first by move/IH.
by case: ks => // k ks [h /IH hs]; split=> // w w' b /h [r [-> /eqP hr _]]; rewrite /= hr.
Qed.
Definition stored t k := k \in map (keyof t) (trows t).
Lemma strict_ignore l ks s t : lookup (s_working s) name = Some t -> tcols t = cols -> tkey t = key -> keyed l ks ->
  uniq ks -> (forall k, k \in ks -> ~~ stored t k) -> prog strict l s = prog ignore l s.
Proof.
elim: l ks s t => [//|[f|f] l IH] ks s t hl hc hk.
  by move=> hy hu hn; rewrite !prog_comp; case: (f _) => w1 [_|e] //; apply: (IH ks _ t).
case: ks => // k ks [hf hy] /andP [hk1 hu] hn; rewrite !prog_batch; case E: (f _) => [w1 [b|e]] //.
have [r [-> hr hkr]] := hf _ _ _ E.
have kt : keyof t r = k by rewrite -hkr; apply: keyof_cols.
rewrite /inserts /mbind (@insert_strictE t) //.
have hst : ~~ stored t k by apply: hn; rewrite inE eqxx.
have hp : present t (keyof t r) = false by rewrite /present kt -/(stored t k) (negbTE hst) andbF.
rewrite hp (insertE (s := with_w s w1) hl hc hr ucols); case: (boolP (dead _ 1)) => hd //=.
rewrite commitE /=; case: ifP => // _.
apply: (IH ks _ (insert_ignore t r)) => //; rewrite ?ins_cols ?ins_key //=; first by rewrite (lookup_update _ hl).
move=> k' hk'; rewrite /stored map_keyof_ins /insert_ignore has_conflict hp.
rewrite /= map_rcons mem_rcons inE kt negb_or; apply/andP; split; first by apply: contraNneq hk1 => <-.
by apply: hn; rewrite inE hk' orbT.
Qed.
(** a stored first key stops everything *)
Lemma stuck l k ks s t : lookup (s_working s) name = Some t -> tcols t = cols -> tkey t = key -> keyed l (k :: ks) ->
  VNull \notin k -> stored t k -> s_durable (prog strict l s).1 = s_durable s /\ (prog strict l s).2 <> Done tt.
Proof.
elim: l s => [//|[f|f] l IH] s hl hc hk.
  by move=> hy hn hs; rewrite prog_comp; case: (f _) => w1 [_|e] //; apply: (IH (with_w s w1)).
move=> [hf _] hn hs; rewrite prog_batch; case E: (f _) => [w1 [b|e]] //.
have [r [-> hr hkr]] := hf _ _ _ E.
have kt : keyof t r = k by rewrite -hkr; apply: keyof_cols.
rewrite /inserts /mbind (@insert_strictE t) //.
by rewrite /present kt hn -/(stored t k) hs; case: ifP.
Qed.
(** computations that return *)
Fixpoint totals (l : seq (step W)) : Prop :=
  match l with [::] => True | Comp f :: l' => total f /\ totals l' | Batch f :: l' => total f /\ totals l' end.
Lemma totals_cat l1 l2 : totals l1 -> totals l2 -> totals (l1 ++ l2)%SEQ.
Proof. by elim: l1 => [//|[f|f] l1 IH] /= [h1 h2] h; split=> //; apply: IH. Qed.
Lemma totals_flatten A (f : A -> seq (step W)) l : (forall a, totals (f a)) -> totals (flatten (map f l)).
Proof. by move=> h; elim: l => //= a l IH; apply: totals_cat. Qed.
Lemma stuck_err l k ks s t : lookup (s_working s) name = Some t -> tcols t = cols -> tkey t = key -> keyed l (k :: ks) ->
  VNull \notin k -> stored t k -> totals l -> s_fuel s = None -> (prog strict l s).2 = Raised DbErr.
Proof.
elim: l s => [//|[f|f] l IH] s hl hc hk.
  move=> hy hn hs [hf ht] h0; rewrite prog_comp; case: (hf (s_w s)) => w1 [[] ->]; exact: (IH (with_w s w1)).
move=> [hf _] hn hs [htf _] h0; rewrite prog_batch; case: (htf (s_w s)) => w1 [b E]; rewrite E.
have [r [-> hr hkr]] := hf _ _ _ E.
have kt : keyof t r = k by rewrite -hkr; apply: keyof_cols.
by rewrite /inserts /mbind (@insert_strictE t) // [s_fuel _]h0 /= /present kt hn -/(stored t k) hs.
Qed.
End Strict.

(** new keys are appended *)
Lemma insert_fresh t rs : uniq (map (keyof t) rs) -> (forall r, r \in rs -> keyof t r \notin map (keyof t) (trows t)) ->
  insert_all t rs = Table (tcols t) (tkey t) (trows t ++ rs)%SEQ.
Proof.
elim: rs t => [|r rs IH] t /=; first by rewrite cats0; case: t.
case/andP=> h1 h2 hn; have e : insert_ignore t r = Table (tcols t) (tkey t) (rcons (trows t) r).
  by rewrite /insert_ignore has_conflict /present (negbTE (hn _ (mem_head _ _))) andbF.
have ek r' : keyof (insert_ignore t r) r' = keyof t r' by rewrite keyof_ins.
rewrite [LHS]IH ?(eq_map ek) //; first by rewrite e /= cat_rcons.
move=> r' hr; rewrite ek ?(eq_map ek) e /= map_rcons mem_rcons inE negb_or; apply/andP; split.
  by apply: contraNneq h1 => <-; apply: map_f.
by apply: hn; rewrite inE hr orbT.
Qed.

Lemma bott_complete W (sweep : W -> W * res unit) metrics n tr qt sd q pw dp a b name t (s : st W) :
  lookup (s_working s) name = Some t -> tcols t = bott_cols -> tkey t = bott_key -> VNull \notin [:: tr; sd; pw; dp] ->
  complete t -> (forall t', lookup (s_durable s) name = Some t' -> complete t') ->
  let r := bott_iterations sweep metrics n true (zip bott_fields [:: tr; qt; sd; VNum q; pw; dp; a; b]) name s in
  forall t', lookup (s_durable r.1) name = Some t' -> complete t'.
Proof.
move=> hl hc hk hn h1 h2 r t'.
have up k t1 : lookup (update (s_working s) name (insert_all t (flatten (take k (triples tr sd pw dp q (trace sweep metrics n (s_w s)).1))))) name = Some t1 -> complete t1.
  rewrite (lookup_update _ hl) => -[<-]; rewrite /triples -map_take; set ms := (trace _ _ _ _).1.
  have -> : take k (zip (iota 0 (size ms)) ms) = zip (iota 0 (size (take k ms))) (take k ms).
    have -> : iota 0 (size (take k ms)) = take k (iota 0 (size ms)) by rewrite take_iota size_take_min.
    by move: (iota _ _) => l; elim: l (ms) (k) => [|i l IH] [|m ms'] [|k'] //=; rewrite IH.
  exact: complete_all.
have full t1 : lookup (update (s_working s) name (insert_all t (flatten (triples tr sd pw dp q (trace sweep metrics n (s_w s)).1)))) name = Some t1 -> complete t1.
  by move=> h; apply: (up (size (triples tr sd pw dp q (trace sweep metrics n (s_w s)).1))); rewrite take_size.
have := @bott_run W sweep metrics n tr qt sd q pw dp a b name t s hl hc; cbv zeta; rewrite -/r.
case: (s_fuel s) => [f|].
  case: ifP => _; first by case=> _ ->; case E: (f %/ 4)%N => [|j]; [exact: h2 | exact: up].
  case=> _ hw ->; move: full; rewrite hw; case: (triples _ _ _ _ _ _) => [|x l] hf; [exact: h2 | exact: hf].
case=> _ hw ->; move: full; rewrite hw; case: (triples _ _ _ _ _ _) => [|x l] hf; [exact: h2 | exact: hf].
Qed.
Lemma bott_silent W (sweep : W -> W * res unit) metrics n d name (s : st W) : bott_iterations sweep metrics n false d name s =
  (St (sweeps sweep n (s_w s)).1 (s_durable s) (s_working s) (s_intx s) (s_fuel s), outcome (sweeps sweep n (s_w s)).2).
Proof.
rewrite /bott_iterations; elim: n s => [|n IH] s /=; first by case: s.
by rewrite /mbind /mworld; case: (sweep _) => w1 [_|e] //=; rewrite IH.
Qed.
