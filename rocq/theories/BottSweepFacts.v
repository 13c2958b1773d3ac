(** * Facts about BottSweep.v *)
Set Warnings "-notation-overridden,-ambiguous-paths".
From mathcomp Require Import all_ssreflect all_algebra.
From Coq Require Import String.
From Verif Require Import Base Database FullSweep SpecDb DatabaseFacts Scripts SpecScripts ScriptsFacts ScriptsRun BottSweep.
Set Implicit Arguments.
Unset Strict Implicit.
Unset Printing Implicit Defensive.
Import GRing.Theory.
Local Open Scope string_scope.
Local Open Scope ring_scope.

Section Facts.
Variable W : Type.
Notation st := (st W).
Variable reseed : int -> W -> W.
Variable simulate : W -> W * res data.
Variable build : cfg -> data -> W -> W * res unit.
Variable sweep : W -> W * res unit.
Variable metrics : W -> W * res ((val * val) * (val * val) * (val * val)).
Variables (num_iter : nat) (dyn_name exp_name : string).
Hypothesis names : dyn_name != exp_name.
Notation setting := (bott_setting build sweep metrics num_iter exp_name).
Notation full := (bott_full_sweep reseed simulate build sweep metrics num_iter dyn_name exp_name).
Notation main := (bott_main reseed simulate build sweep metrics num_iter dyn_name exp_name).

Lemma all_mem t rs r : r \in trows (insert_all t rs) -> r \in trows t \/ r \in rs.
Proof.
elim: rs t => [|r1 rs IH] t /=; first by left.
case/IH=> [|h]; last by right; rewrite inE h orbT.
rewrite /insert_ignore; case: ifP => _ /=; first by left.
by rewrite mem_rcons inE => /orP [/eqP->|h]; [right; rewrite inE eqxx | left].
Qed.
(** ** one setting *)
Lemma sweepE b tr sd pw dp (s : st) t : lookup (s_working s) exp_name = Some t -> tcols t = bott_cols ->
  let r := bott_sweep sweep metrics b num_iter tr sd pw dp exp_name s in
  match b (s_w s) with
  | (w1, Err e) => r.2 = Raised e /\ s_working r.1 = s_working s /\ s_durable r.1 = s_durable s
  | (w1, Ok _) =>
      let ms := trace sweep metrics num_iter w1 in
      let rows := triples (VText tr) (numz sd) (VNum pw) (VNum dp) 0 ms.1 in
      if dead (s_fuel s) (4 * size rows)
      then r.2 = Died /\ exists k, s_durable r.1 = s_durable s \/ s_durable r.1 = update (s_working s) exp_name (insert_all t (flatten (take k rows)))
      else [/\ r.2 = outcome ms.2, s_working r.1 = update (s_working s) exp_name (insert_all t (flatten rows))
              & s_durable r.1 = if rows is [::] then s_durable s else s_working r.1]
  end.
Proof.
move=> hl hc r; have hr : r = bott_sweep sweep metrics b num_iter tr sd pw dp exp_name s by [].
move: hr; rewrite /bott_sweep /mbind /mworld; case: (b (s_w s)) => w1 [_|e] => [hr|-> //].
have := @bott_run W sweep metrics num_iter (VText tr) VNull (numz sd) 0 (VNum pw) (VNum dp) (VNum 0) (VNum 0) exp_name t
  (St w1 (s_durable s) (s_working s) (s_intx s) (s_fuel s)) hl hc.
cbv zeta; rewrite -hr [s_fuel _]/= [s_w _]/= [s_working (St _ _ _ _ _)]/= [s_durable (St _ _ _ _ _)]/=.
set rows := triples _ _ _ _ _ _; case: (s_fuel s) => [f|] //; rewrite [dead _ _]/=.
by case: ifP => // _ [-> ->]; split=> //; exists (f %/ 4)%N; case: (f %/ 4)%N => [|j]; [left|right].
Qed.

(** ** what every part keeps *)
Definition good (d : db) : Prop := forall t, lookup d exp_name = Some t -> bott_table t.
Definition keeps A (m : M W A) : Prop := forall s, good (s_working s) -> good (s_durable s) ->
  good (s_durable (m s).1) /\ ((m s).2 <> Died -> good (s_working (m s).1)).
Lemma keeps_ret A (a : A) : keeps (mret a). Proof. by move=> s. Qed.
Lemma keeps_raise A e : keeps (@mraise W A e). Proof. by move=> s. Qed.
Lemma keeps_world A (f : W -> W * res A) : keeps (mworld f).
Proof. by move=> s h1 h2; rewrite /mworld; case: (f _) => w [a|e]. Qed.
Lemma keeps_bind A B (m : M W A) (k : A -> M W B) : keeps m -> (forall a, keeps (k a)) -> keeps (mbind m k).
Proof.
move=> hm hk s h1 h2; have [g1 g2] := hm s h1 h2; rewrite /mbind; case: (m s) g1 g2 => s' [a|e|] /= g1 g2.
- by apply: hk => //; apply: g2.
- by split=> // _; apply: g2.
- by split.
Qed.
Lemma keeps_tick : keeps (@tick W).
Proof. by move=> s h1 h2; rewrite /tick; case: (s_fuel s) => [[|k]|]. Qed.
Lemma keeps_insert n cols vals : n != exp_name -> keeps (@insert W n cols vals).
Proof.
move=> hn; apply: keeps_bind => [|_ s h1 h2]; first exact: keeps_tick.
rewrite /mbind /mdb /=; case: ifP => // _; case E: (lookup _ n) => [t|] //; case: ifP => // _.
by split=> //= _ t'; rewrite lookup_update_ne //; apply: h1.
Qed.
Lemma keeps_dynamics n t xy sd : n != exp_name -> keeps (@insert_dynamics_from W n t xy sd).
Proof.
move=> hn; elim: xy t => [|[x y] xy IH] t /=; first exact: keeps_ret.
by apply: keeps_bind => [|_]; [apply: keeps_insert | apply: IH].
Qed.
Lemma good_rcons d n t : (n == exp_name -> lookup d exp_name = None -> bott_table t) ->
  good d -> good (rcons d (n, t)).
Proof.
move=> hn hd t'; rewrite lookup_rcons; case E: (lookup d exp_name) => [t1|]; first by case=> <-; apply: hd.
by case: ifP => // hn' [<-]; apply: hn.
Qed.
Lemma keeps_create n cols key : (n == exp_name -> [/\ cols = bott_cols & key = bott_key]) -> keeps (@create_table W n cols key).
Proof.
move=> hn; apply: keeps_bind => [|_ s h1 h2]; first exact: keeps_tick.
case E: (lookup _ n) => [t|] //.
have g : good (rcons (s_working s) (n, Table cols key [::])) by apply: good_rcons => // /hn [-> ->].
by split=> //=; case: (s_intx s).
Qed.
Lemma keeps_catch m : keeps m -> keeps (catch_linalg m).
Proof. by move=> hm s h1 h2; have [g1 g2] := hm s h1 h2; rewrite /catch_linalg; case: (m s) g1 g2 => s' [a|[]|] //= g1 g2; split=> // _; apply: g2. Qed.
Lemma keeps_sweep b tr sd pw dp (s : st) t : lookup (s_working s) exp_name = Some t -> good (s_working s) -> good (s_durable s) ->
  let r := bott_sweep sweep metrics b num_iter tr sd pw dp exp_name s in
  good (s_durable r.1) /\ (r.2 <> Died -> good (s_working r.1)).
Proof.
move=> hl h1 h2; have [hc hk hcm hq] := h1 _ hl; have := @sweepE b tr sd pw dp s t hl hc; cbv zeta.
set r := bott_sweep _ _ _ _ _ _ _ _ _ _; case: (b (s_w s)) => w1 [_|e]; last by case=> _ [-> ->].
set ms := trace _ _ _ _.
have g k : good (update (s_working s) exp_name (insert_all t (flatten (take k (triples (VText tr) (numz sd) (VNum pw) (VNum dp) 0 ms.1))))).
  move=> t'; rewrite (lookup_update _ hl) => -[<-]; rewrite /bott_table insert_all_cols insert_all_key; split=> //.
    rewrite /triples -map_take.
    have -> : take k (zip (iota 0 (size ms.1)) ms.1) = zip (iota 0 (size (take k ms.1))) (take k ms.1).
      have -> : iota 0 (size (take k ms.1)) = take k (iota 0 (size ms.1)) by rewrite take_iota size_take_min.
      by move: (iota _ _) => l; elim: l (ms.1) (k) => [|i l IH] [|m ms'] [|k'] //=; rewrite IH.
    by apply: complete_all.
  move=> r0; rewrite /cell insert_all_cols => /all_mem [/hq//|/flattenP [b0 /mem_take /mapP [[i m] _ ->]]].
  case/mapP=> -[x y] hx ->; exists x; last by rewrite hc.
  by have := map_f fst hx; rewrite -/(unzip1 _) unzip1_zip.
case: ifP => _; first by case=> -> [k [->|->]].
have := g (size (triples (VText tr) (numz sd) (VNum pw) (VNum dp) 0 ms.1)); rewrite take_size => gg.
by case=> _ hw hd; rewrite hd hw; split=> //; case: (triples _ _ _ _ _ _) gg.
Qed.
Lemma keeps_setting o c xy : keeps (setting o c xy).
Proof.
move=> s h1 h2; rewrite /bott_setting /mbind /exists_query /mdb /mbind; case E: (lookup _ _) => [t|] //=.
have q : let r := (if o || ~~ has (matches t c) (trows t)
      then bott_sweep sweep metrics (build c xy) num_iter (c_trans c) (c_seed c) (c_power c) (c_damp c) exp_name else mret tt) s in
    good (s_durable r.1) /\ (r.2 <> Died -> good (s_working r.1)).
  by case: ifP => _ //; apply: (keeps_sweep _ _ _ _ _ E).
by move: q; rewrite /catch_linalg; case: (_ s) => s' [a|[]|] //= [g1 g2]; split=> // _; apply: g2.
Qed.
Lemma keeps_each A (f : A -> M W unit) l : (forall a, keeps (f a)) -> keeps (foreach f l).
Proof. by move=> h; elim: l => [|a l IH] /=; [apply: keeps_ret | apply: keeps_bind]. Qed.
Lemma keeps_full seeds tr pw dp o : keeps (full seeds tr pw dp o).
Proof.
elim: seeds => [|sd seeds IH]; first exact: keeps_ret.
apply: keeps_bind => [|_]; first exact: keeps_world.
apply: keeps_bind => [|xy]; first exact: keeps_world.
apply: keeps_bind => [|_]; first exact: keeps_dynamics.
case: xy => [|x xy]; first exact: keeps_raise.
by apply: keeps_bind => [|_ //]; apply: keeps_each => c; apply: keeps_setting.
Qed.
Lemma keeps_main seeds tr pw dp o : keeps (main seeds tr pw dp o).
Proof.
apply: keeps_bind => [|_]; first by apply: keeps_create; rewrite (negbTE names).
by apply: keeps_bind => [|_]; [apply: keeps_create | apply: keeps_full].
Qed.
Lemma main_attempts seeds tr pw dp o l d : good d -> good (attempts_of (main seeds tr pw dp o) l d).
Proof. by elim: l d => [//|[w k] l IH] d hd /=; apply: IH; apply: (keeps_main seeds tr pw dp o _ _).1. Qed.

(** ** skipping *)
Lemma setting_skip c xy (s : st) t r : lookup (s_working s) exp_name = Some t -> r \in trows t -> matches t c r ->
  setting false c xy s = (s, Done tt).
Proof.
move=> hl hr hm; rewrite /bott_setting /mbind /exists_query /mdb /mbind hl /=.
by have -> : has (matches t c) (trows t) by apply/hasP; exists r.
Qed.
Lemma skipped_stored t c r q : bott_table t -> r \in trows t -> matches t c r -> q \in quantities ->
  [:: VText (c_trans c); VText q; numz (c_seed c); VNum 50%:R; VNum (c_power c); VNum (c_damp c)] \in map (keyof t) (trows t).
Proof.
case=> hc hk hcm hq hr /and5P [/eqP e1 /eqP e2 /eqP e3 /eqP e4 /eqP e5] q1; have [q0 q2 e0] := hq _ hr.
apply: (hcm q0) => //; apply/mapP; exists r => //.
by rewrite /keyof hk /= e1 e0 e2 e3 e4 e5.
Qed.
(** nothing to do *)
Definition holds t (s : st) := lookup (s_working s) exp_name = Some t /\ lookup (s_durable s) exp_name = Some t.
Definition idle t A (m : M W A) := forall s, holds t s -> holds t (m s).1.
Lemma idle_ret t A (a : A) : idle t (mret a). Proof. by move=> s. Qed.
Lemma idle_world t A (f : W -> W * res A) : idle t (mworld f).
Proof. by move=> s h; rewrite /mworld; case: (f _). Qed.
Lemma idle_bind t A B (m : M W A) (k : A -> M W B) : idle t m -> (forall a, idle t (k a)) -> idle t (mbind m k).
Proof. by move=> hm hk s /hm; rewrite /mbind; case: (m s) => s' [a|e|] //= h; apply: hk. Qed.
Lemma idle_tick t : idle t (@tick W).
Proof. by move=> s h; rewrite /tick; case: (s_fuel s) => [[|k]|]. Qed.
Lemma idle_insert t n cols vals : n != exp_name -> idle t (@insert W n cols vals).
Proof.
move=> hn; apply: idle_bind => [|_ s [h1 h2]]; first exact: idle_tick.
rewrite /mbind /mdb /=; case: ifP => // _; case E: (lookup _ n) => [t1|] //; case: ifP => // _.
by split=> //=; rewrite lookup_update_ne.
Qed.
Lemma idle_dynamics t n k xy sd : n != exp_name -> idle t (@insert_dynamics_from W n k xy sd).
Proof.
move=> hn; elim: xy k => [|[x y] xy IH] k /=; first exact: idle_ret.
by apply: idle_bind => [|_]; [apply: idle_insert | apply: IH].
Qed.
Lemma idle_create t n cols key : idle t (@create_table W n cols key).
Proof.
apply: idle_bind => [|_ s [h1 h2]]; first exact: idle_tick.
by case E: (lookup _ n) => [t1|] //; split=> /=; [rewrite lookup_rcons h1 | case: (s_intx s) => //; rewrite lookup_rcons h1].
Qed.
Lemma idle_each t A (f : A -> M W unit) (P : A -> Prop) l : (forall a, P a -> idle t (f a)) -> (forall a, List.In a l -> P a) -> idle t (foreach f l).
Proof.
move=> h; elim: l => [|a l IH] hl /=; first exact: idle_ret.
by apply: idle_bind => [|_]; [apply: h; apply: hl; left | apply: IH => b hb; apply: hl; right].
Qed.
Lemma idle_main t seeds tr pw dp : (forall sd c, sd \in seeds -> List.In c (product sd tr pw dp) -> has (matches t c) (trows t)) ->
  idle t (main seeds tr pw dp false).
Proof.
move=> h; apply: idle_bind => [|_]; first exact: idle_create.
apply: idle_bind => [|_]; first exact: idle_create.
elim: seeds h => [|sd seeds IH] h; first exact: idle_ret.
apply: idle_bind => [|_]; first exact: idle_world.
apply: idle_bind => [|xy]; first exact: idle_world.
apply: idle_bind => [|_]; first exact: idle_dynamics.
case: xy => [|x xy]; first by move=> s.
apply: idle_bind => [|_]; last by apply: IH => sd' c h1; apply: h; rewrite inE h1 orbT.
apply: (@idle_each _ _ _ (fun c => has (matches t c) (trows t))) => [c /hasP [r hr hm] s [h1 h2]|c hc].
  by rewrite (setting_skip _ h1 hr hm).
by apply: (h sd) => //; rewrite mem_head.
Qed.
End Facts.
