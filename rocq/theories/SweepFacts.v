(** * Proofs about the parameter sweep *)
Set Warnings "-notation-overridden,-ambiguous-paths".
From mathcomp Require Import all_ssreflect all_algebra.
From Coq Require Import String.
From Verif Require Import Base Database FullSweep SpecDb DatabaseFacts.
Set Implicit Arguments.
Unset Strict Implicit.
Unset Printing Implicit Defensive.
Import GRing.Theory.

(** ** the sweep as a list of steps on the two tables *)
Section Plan.
Variable override : bool.
Record tabs := Tabs { td : table; te : table }.
Inductive step := SDyn of row | SSet of cfg & seq row & option err | SStop of err.
Definition skips (c : cfg) (S : tabs) : bool := ~~ override && has (matches (te S) c) (trows (te S)).
Definition caught (e : option err) : bool := if e is Some e then err_eqb e LinAlgErr else true.
Definition addd (rs : seq row) (S : tabs) : tabs := Tabs (insert_all (td S) rs) (te S).
Definition adde (rs : seq row) (S : tabs) : tabs := Tabs (td S) (insert_all (te S) rs).

Fixpoint exec (l : seq step) (S : tabs) : tabs * out unit :=
  match l with
  | [::] => (S, Done tt)
  | SDyn r :: l' => exec l' (addd [:: r] S)
  | SSet c rows e :: l' =>
      if skips c S then exec l' S
      else if caught e then exec l' (adde rows S) else (adde rows S, outcome e)
  | SStop e :: l' => (S, Raised e)
  end.
(** the states committed on the way *)
Fixpoint snap (l : seq step) (S X : tabs) : Prop :=
  match l with
  | [::] => False
  | SDyn r :: l' => snap l' (addd [:: r] S) X
  | SSet c rows e :: l' =>
      if skips c S then snap l' S X
      else (exists2 j, (0 < j <= size rows)%N & X = adde (take j rows) S) \/ (caught e /\ snap l' (adde rows S) X)
  | SStop e :: l' => False
  end.

Definition wf (S : tabs) : Prop :=
  [/\ tcols (td S) = dyn_cols, tkey (td S) = [:: "Seed"; "t"]%string, tcols (te S) = exp_cols & tkey (te S) = exp_key].
(** rows have a key; a setting with a row for iteration 50 has all its rows *)
Definition good (s : step) : Prop := forall S, wf S ->
  match s return Prop with
  | SDyn r => VNull \notin keyof (td S) r
  | SSet c rows e => (forall r, r \in rows -> VNull \notin keyof (te S) r) /\
      (forall j, ~~ override -> has (matches (te S) c) (take j rows) -> (size rows <= j)%N /\ e = None)
  | SStop _ => True
  end.

Lemma wf_addd rs S : wf S -> wf (addd rs S).
Proof. by case=> h1 h2 h3 h4; split; rewrite /= ?insert_all_cols ?insert_all_key. Qed.
Lemma wf_adde rs S : wf S -> wf (adde rs S).
Proof. by case=> h1 h2 h3 h4; split; rewrite /= ?insert_all_cols ?insert_all_key. Qed.

Definition ext (S X : tabs) : Prop := exists a b, X = addd a (adde b S).
Lemma ext_refl S : ext S S. Proof. by exists [::], [::]; case: S. Qed.
Lemma ext_trans S X Y : ext S X -> ext X Y -> ext S Y.
Proof. by case=> a [b ->] [a' [b' ->]]; exists (a ++ a'), (b ++ b'); rewrite /addd /adde /= !insert_all_cat. Qed.
Lemma ext_addd rs S : ext S (addd rs S). Proof. by exists rs, [::]; case: S. Qed.
Lemma ext_adde rs S : ext S (adde rs S). Proof. by exists [::], rs; case: S. Qed.
Lemma ext_wf S X : ext S X -> wf S -> wf X.
Proof. by case=> a [b ->] h; apply/wf_addd/wf_adde. Qed.
Lemma snap_ext l S X : snap l S X -> ext S X.
Proof.
elim: l S => //= -[r|c rows e|e] l IH S //=.
  by move=> /IH; apply: ext_trans; apply: ext_addd.
case: ifP => _; first exact: IH.
case=> [[j _ ->]|[_ /IH]]; first exact: ext_adde.
by apply: ext_trans; apply: ext_adde.
Qed.

Lemma matches_cols t t' c : tcols t = tcols t' -> matches t c =1 matches t' c.
Proof. by move=> h r; rewrite /matches /cell h. Qed.
Lemma skips_ext c S X : ext S X -> skips c S -> skips c X.
Proof.
case=> a [b ->]; rewrite /skips => /andP [-> /=].
rewrite (eq_has (matches_cols c (insert_all_cols _ b))).
by case: (all_rows (te S) b) => new ->; rewrite has_cat => ->.
Qed.
Lemma skips_take c rows S : skips c (adde rows S) -> ~~ skips c S -> ~~ override /\ has (matches (te S) c) rows.
Proof.
rewrite /skips /= => /andP [-> /=]; rewrite (eq_has (matches_cols c (insert_all_cols _ rows))) => h h'.
split=> //; elim: rows (te S) h h' => [|r rows IH] t /= h h'; first by rewrite h in h'.
move: (IH (insert_ignore t r)); rewrite !(eq_has (matches_cols c (ins_cols t r))) => {}IH.
case: (boolP (has (matches t c) (trows (insert_ignore t r)))) => hh; last first.
  by rewrite (IH h hh) orbT.
move: hh; rewrite /insert_ignore; case: ifP => _ /=; first by rewrite (negbTE h').
by rewrite has_rcons (negbTE h') orbF => ->.
Qed.

(** what has been inserted once stays the same *)
Lemma absorb_dyn r S X : wf S -> good (SDyn r) -> ext (addd [:: r] S) X -> addd [:: r] X = X.
Proof.
move=> hw hg [a [b ->]]; rewrite /addd /adde /=; congr Tabs; apply: ins_id.
rewrite keyof_all keyof_ins; apply: all_mono; apply: ins_present; exact: hg.
Qed.
Lemma absorb_exp c rows e S X i : wf S -> good (SSet c rows e) -> ext (adde rows S) X -> adde (take i rows) X = X.
Proof.
move=> hw hg [a [b ->]]; rewrite /addd /adde /=; congr Tabs; apply: all_id => r /mem_take hr.
rewrite keyof_all keyof_all; apply: all_mono; apply: all_present => //.
by apply: (hg S hw).1.
Qed.
Lemma absorb_take c rows e S i j : wf S -> good (SSet c rows e) ->
  adde (take i rows) (adde (take j rows) S) = adde (take (maxn i j) rows) S.
Proof.
move=> hw hg; rewrite /adde /=; congr Tabs.
have key r : r \in rows -> VNull \notin keyof (te S) r := (hg S hw).1 r.
have pres k : (k <= j)%N -> insert_all (insert_all (te S) (take j rows)) (take k rows) = insert_all (te S) (take j rows).
  move=> hk; apply: all_id => r hr; rewrite keyof_all; apply: all_present; last by apply: key; apply: mem_take hr.
  by move: hr; rewrite -(take_take hk rows) => /mem_take.
case: (leqP i j) => h; first by rewrite pres.
have -> : take i rows = take j rows ++ drop j (take i rows).
  by rewrite -{1}(take_take (ltnW h) rows) cat_take_drop.
by rewrite insert_all_cat pres // -insert_all_cat.
Qed.

Fixpoint goods (l : seq step) : Prop := if l is s :: l' then good s /\ goods l' else True.

(** resuming from a committed state *)
Lemma resume l S X : wf S -> goods l -> snap l S X ->
  exec l X = exec l S /\ (forall Y, snap l X Y -> Y = X \/ snap l S Y).
Proof.
elim: l S => [//|[r|c rows e|e] l IH] S hw [hg hl] /=; last by [].
  move=> hs; have hX : addd [:: r] X = X by apply: (absorb_dyn hw hg); apply: snap_ext hs.
  by rewrite hX; apply: IH => //; apply: wf_addd.
case hk: (skips c S) => hs.
  by rewrite (skips_ext (snap_ext hs) hk); apply: IH.
case: hs => [[j hj ->]|[hc hs]].
  case hk': (skips c (adde (take j rows) S)).
    have [ho hm] := skips_take hk' (negbT hk).
    have [hsz he] := (hg S hw).2 j ho hm.
    rewrite take_oversize // he /=; split=> // Y hY; right; right; by [].
  split; first by have := absorb_take (size rows) j hw hg; rewrite take_size (maxn_idPl _) ?(andP hj).2 // => ->; rewrite take_size.
  move=> Y [[i hi ->]|[hc hY]].
    rewrite (absorb_take _ _ hw hg); case: (leqP i j) => h; first by left.
    by right; left; exists i.
  right; right; split=> //; move: hY.
  by have := absorb_take (size rows) j hw hg; rewrite take_size (maxn_idPl _) ?(andP hj).2 // => ->; rewrite take_size.
have [h1 h2] := IH _ (wf_adde rows hw) hl hs.
have hX i : adde (take i rows) X = X by apply: (absorb_exp _ hw hg); apply: snap_ext hs.
case: ifP => hk'; first by rewrite hc; split=> // Y /h2 [->|hY]; [left | right; right].
have -> : adde rows X = X by rewrite -[in LHS](take_size rows).
rewrite hc; split=> // Y [[i _ ->]|[_ /h2 [->|hY]]]; by [left; rewrite ?hX | right; right].
Qed.
End Plan.

Lemma exec_cat o l1 l2 S : exec o (l1 ++ l2) S =
  match (exec o l1 S).2 with Done _ => exec o l2 (exec o l1 S).1 | r => ((exec o l1 S).1, r) end.
Proof.
elim: l1 S => [|[r|c rows e|e] l IH] S //=.
case: ifP => _; first exact: IH.
by case: e => [e|] //=; case: ifP => _ //=.
Qed.
Lemma snap_catl o l1 l2 S X : snap o l1 S X -> snap o (l1 ++ l2) S X.
Proof.
elim: l1 S => [|[r|c rows e|e] l IH] S //=; first exact: IH.
case: ifP => _; first exact: IH.
by case=> [h|[h1 h2]]; [left | right; split=> //; apply: IH].
Qed.
Lemma snap_catr o l1 l2 S X : (exec o l1 S).2 = Done tt -> snap o l2 (exec o l1 S).1 X -> snap o (l1 ++ l2) S X.
Proof.
elim: l1 S => [|[r|c rows e|e] l IH] S //=; first exact: IH.
case: ifP => _; first exact: IH.
case: ifP => h; last by case: e h.
by move=> h1 h2; right; split=> //; apply: IH.
Qed.

(** ** the program follows the plan *)
Definition rows_of (c : cfg) (ms : seq (val * val)) : seq row :=
  log_rows (VText (c_trans c)) (seed_val (c_seed c)) (VNum (c_power c)) (VNum (c_damp c)) 0 ms.
Fixpoint dsteps (sd : val) (t : nat) (xy : data) : seq step :=
  if xy is (x, y) :: xy' then SDyn [:: sd; VNum t%:R; x; y] :: dsteps sd t.+1 xy' else [::].

Section Follow.
Variable W : Type.
Notation M := (M W).
Variable reseed : int -> W -> W.
Variable simulate : W -> W * res data.
Variable build : cfg -> data -> W -> W * res unit.
Variable sweep : W -> W * res unit.
Variable metrics : W -> W * res (val * val).
Variables (num_iter : nat) (dyn_name exp_name : string).
Variable override : bool.
Hypothesis names : dyn_name != exp_name.

Variable base : db.
Variables (bd be : table).
Hypothesis hbd : lookup base dyn_name = Some bd.
Hypothesis hbe : lookup base exp_name = Some be.
Definition conc (S : tabs) : db := update (update base dyn_name (td S)) exp_name (te S).
Lemma conc_exp S : lookup (conc S) exp_name = Some (te S).
Proof. by rewrite /conc; apply: lookup_update; rewrite lookup_update_ne // hbe. Qed.
Lemma conc_dyn S : lookup (conc S) dyn_name = Some (td S).
Proof. by rewrite /conc lookup_update_ne; [apply: lookup_update hbd | rewrite eq_sym]. Qed.
Lemma conc_addd rs S : conc (addd rs S) = update (conc S) dyn_name (insert_all (td S) rs).
Proof. by rewrite /conc /addd /= [RHS]update_comm 1?eq_sym // update_update. Qed.
Lemma conc_adde rs S : conc (adde rs S) = update (conc S) exp_name (insert_all (te S) rs).
Proof. by rewrite /conc /adde /= update_update. Qed.

(** from worlds in [P], [m] performs the steps [l] and, if it returns, ends in a world in [Q] *)
Definition impl (P : W -> Prop) (m : M unit) (l : seq step) (Q : W -> Prop) : Prop :=
  forall s S, wf S -> s_working s = conc S -> P (s_w s) ->
  [/\ s_fuel s = None -> (m s).2 <> Died /\ s_fuel (m s).1 = None,
      s_durable (m s).1 = s_durable s \/ (exists2 X, snap override l S X & s_durable (m s).1 = conc X),
      (m s).2 <> Died -> s_working (m s).1 = conc (exec override l S).1 /\ (m s).2 = (exec override l S).2,
      (m s).2 <> Died -> lookup (s_durable s) exp_name = lookup (s_working s) exp_name ->
      lookup (s_durable (m s).1) exp_name = lookup (s_working (m s).1) exp_name
    & (m s).2 = Done tt -> Q (s_w (m s).1)].

Lemma exec_wf l S : wf S -> wf (exec override l S).1.
Proof.
elim: l S => [|[r|c rows e|e] l IH] S //= h; first by apply: IH; apply: wf_addd.
case: ifP => _; first exact: IH.
by case: ifP => _; [apply: IH; apply: wf_adde | apply: wf_adde].
Qed.
Lemma impl_ret P : impl P (mret tt) [::] P.
Proof. by move=> s S hw hs hp; split=> //; left. Qed.
Lemma impl_raise P Q e : impl P (mraise unit e) [:: SStop e] Q.
Proof. by move=> s S hw hs hp; split=> //; left. Qed.
Lemma impl_bind P Q1 Q m k l1 l2 : impl P m l1 Q1 -> impl Q1 k l2 Q -> impl P (mbind m (fun _ => k)) (l1 ++ l2) Q.
Proof.
move=> hm hk s S hw hs hp; have := hm s S hw hs hp; rewrite /mbind.
case: (m s) => s1 [[]|e|] /= [h1 h2 h3 h4 hq]; last first.
- by split=> //; case: h2 => [->|[X hX ->]]; [left | right; exists X => //; apply: snap_catl].
- have [h5 h6] := h3 (fun x => notF (congr1 (fun o => if o is Died then true else false) x)).
  split=> //.
  + by case: h2 => [->|[X hX ->]]; [left | right; exists X => //; apply: snap_catl].
  + by move=> _; rewrite exec_cat -h6.
have nd : Done tt <> @Died unit by [].
have [h5 h6] := h3 nd.
have [h7 h8 h9 h10 h11] := hk s1 _ (exec_wf l1 hw) h5 (hq erefl).
split=> //.
- by case/h1 => _ /h7.
- case: h8 => [->|[X hX ->]]; last by right; exists X => //; apply: snap_catr.
  by case: h2 => [->|[X hX ->]]; [left | right; exists X => //; apply: snap_catl].
- by move=> /h9; rewrite exec_cat -h6.
- by move=> hd he; apply: h10 => //; apply: h4.
Qed.

Lemma impl_insert P r : size r = 4 -> impl P (@insert W dyn_name dyn_cols r) [:: SDyn r] P.
Proof.
move=> hr s S hw hs hp; have hl : lookup (s_working s) dyn_name = Some (td S) by rewrite hs conc_dyn.
rewrite (insertE hl) //; last by case: hw.
case: ifP => hd.
  by split=> //; [move=> hf; move: hd; rewrite hf | left].
split=> //=.
- by move=> ->.
- by left.
- by rewrite (conc_addd [:: r]) hs.
- by rewrite lookup_update_ne.
Qed.
Lemma impl_dyn P sd t xy : impl P (@insert_dynamics_from W dyn_name t xy sd) (dsteps sd t xy) P.
Proof.
elim: xy t => [|[x y] xy IH] t; first exact: impl_ret.
by apply: (@impl_bind _ P _ _ _ [:: _]); [apply: impl_insert | apply: IH].
Qed.

(** the world after a setting *)
Definition setting_world (c : cfg) (xy : data) (w : W) : W :=
  match build c xy w with (w', Err _) => w' | (w', Ok _) => after sweep metrics num_iter w' end.

Lemma ep_loop_impl c xy s S ll : wf S -> s_working s = conc S -> ~~ skips override c S ->
  setting_logs build sweep metrics num_iter c xy (s_w s) = ll ->
  let m := power_sweep build sweep metrics num_iter exp_name c xy in
  [/\ s_fuel s = None -> (m s).2 <> Died /\ s_fuel (m s).1 = None,
      s_durable (m s).1 = s_durable s \/
        (exists2 j, (0 < j <= size (rows_of c ll.1))%N & s_durable (m s).1 = conc (adde (take j (rows_of c ll.1)) S)),
      (m s).2 <> Died -> s_working (m s).1 = conc (adde (rows_of c ll.1) S) /\ (m s).2 = outcome ll.2,
      (m s).2 <> Died -> lookup (s_durable s) exp_name = lookup (s_working s) exp_name ->
      lookup (s_durable (m s).1) exp_name = lookup (s_working (m s).1) exp_name
    & (m s).2 <> Died -> s_w (m s).1 = setting_world c xy (s_w s)].
Proof.
move=> hw hs hk e0 m; rewrite /m /power_sweep /mbind /mworld.
case hb: (build c xy (s_w s)) => [w1 [[]|er]]; last first.
  have -> : ll = ([::], Some er) by rewrite -e0 /setting_logs hb.
  by rewrite /setting_world hb; split=> //=; left.
have eL : logs sweep metrics num_iter w1 = ll by rewrite -e0 /setting_logs hb.
set s1 := St _ _ _ _ _.
have hl : lookup (s_working s1) exp_name = Some (te S) by rewrite /= hs conc_exp.
have hc : tcols (te S) = exp_cols by case: hw.
have -> : ep_iterations sweep metrics num_iter true (exp_data c) exp_name s1 =
  ep_loop sweep metrics num_iter true exp_name
    (stdd (VText (c_trans c)) (seed_val (c_seed c)) 0 (VNum (c_power c)) (VNum (c_damp c)) (VNum 0) (VNum 0) (VNum 0) (VNum 0)) s1 by [].
have := loop_run sweep metrics num_iter (VText (c_trans c)) (seed_val (c_seed c)) 0 (VNum (c_power c)) (VNum (c_damp c)) (VNum 0) (VNum 0) (VNum 0) (VNum 0) hl hc.
rewrite /setting_world hb [logs _ _ _ _]eL -/(rows_of c ll.1) /logged.
move: (ep_loop _ _ _ _ _ _ _) => r; move: (rows_of _ _) => rows; rewrite /= -/(conc _).
case: ifP => hd.
  case=> r2 r1; rewrite r2; split=> //.
    by move=> hf; move: hd; rewrite hf.
  rewrite r1; move: hd; case: (s_fuel s) => [f|] //=; rewrite /dead => hf.
  case hj: f./2 => [|j]; [by left | right; exists j.+1 => /=; last by rewrite conc_adde hs].
  by rewrite -hj; apply: ltnW; rewrite -ltn_double; apply: leq_ltn_trans hf; rewrite -{2}(odd_double_half f) leq_addl.
move=> -> /=; split=> //.
- by move=> ->; case: ll.2.
- case: nilP => [_|hn]; [by left | right; exists (size rows); last by rewrite take_size conc_adde hs].
  by rewrite leqnn andbT; case: (rows) hn.
- by rewrite conc_adde hs.
- move=> _; case: nilP => [->|_] //=; rewrite update_same //.
Qed.

Lemma impl_setting (P Q : W -> Prop) c xy ll :
  (forall w, P w -> setting_logs build sweep metrics num_iter c xy w = ll) ->
  (forall w, P w -> Q (setting_world c xy w)) -> override \/ (forall w, P w -> Q w) ->
  impl P (one_setting build sweep metrics num_iter exp_name override c xy) [:: SSet c (rows_of c ll.1) ll.2] Q.
Proof.
move=> hll hQ hPQ s S hw hs hp.
have hl : lookup (s_working s) exp_name = Some (te S) by rewrite hs conc_exp.
have -> : one_setting build sweep metrics num_iter exp_name override c xy s =
  catch_linalg (if skips override c S then mret tt else power_sweep build sweep metrics num_iter exp_name c xy) s.
  rewrite /one_setting /exists_query /mbind /mdb hl /mret -/(mret _) /skips.
  by case: override => //=; case: (has _ _).
rewrite /catch_linalg /=; case hk: (skips override c S).
  rewrite /=; split=> //; first by left.
  move=> _; case: hPQ => [ho|]; last by apply.
  by move: hk; rewrite /skips ho.
have := ep_loop_impl hw hs (negbT hk) (hll _ hp); cbv zeta.
have := hQ _ hp; move: (setting_world _ _ _) => w' hw'.
move: (rows_of _ _) ll.2 => rows e.
case: (power_sweep _ _ _ _ _ _ _ _) => s1 o /= [h1 h2 h3 h4 h5].
have hd : s_durable s1 = s_durable s \/ exists2 X,
  (exists2 j, (0 < j <= size rows)%N & X = adde (take j rows) S) \/ caught e /\ False & s_durable s1 = conc X.
  by case: h2 => [->|[j hj ->]]; [left | right; eexists; last reflexivity; left; exists j].
case: o h1 h3 h4 h5 => [u|er|] h1 h3 h4 h5.
- have nd : Done u <> @Died unit by [].
  have [h6 h7] := h3 nd.
  have he : e = None by case: (e) h7.
  by rewrite he /= in hd *; split=> //; [case: (u) | rewrite h5].
- have nd : Raised er <> @Died unit by [].
  have [h6 h7] := h3 nd; have := h4 nd => {h3}h4.
  have hq : Q (s_w s1) by rewrite h5.
  have he : e = Some er by case: (e) h7 => // e1 [->].
  rewrite he /= in hd *; case: er nd h1 h4 h5 h7 {he} hd => nd h1 h4 h5 h7 hd; rewrite /=;
    by split=> //=; try (case/h1).
by split=> // /h1 [].
Qed.
Lemma logs_size k w : (size (logs sweep metrics k w).1 <= k)%N /\ (size (logs sweep metrics k w).1 = k -> (logs sweep metrics k w).2 = None).
Proof.
elim: k w => //= k IH w; case: (sweep w) => w1 [_|e] //; case: (metrics w1) => w2 [m|e] //=.
by case: (IH w2) => h1 h2; split=> // -[]; apply: h2.
Qed.
Lemma rows_size tr sd pw dp q ms : size (log_rows tr sd pw dp q ms) = size ms.
Proof. by elim: ms q => //= -[a b] ms IH q /=; rewrite IH. Qed.
Lemma rows_nth tr sd pw dp q ms i : (i < size ms)%N -> nth [::] (log_rows tr sd pw dp q ms) i =
  [:: tr; sd; VNum (q + (i.+1)%:R); pw; dp; (nth (VNull, VNull) ms i).1; (nth (VNull, VNull) ms i).2; empty_list; empty_list].
Proof.
elim: ms q i => //= -[a b] ms IH q [|i] //= hi.
by rewrite IH // -addrA -(natrD _ 1).
Qed.
Lemma goods_cat l1 l2 : goods override l1 -> goods override l2 -> goods override (l1 ++ l2).
Proof. by elim: l1 => //= s l IH [h1 h2] h; split=> //; apply: IH. Qed.
Lemma good_dsteps sd t xy : goods override (dsteps (seed_val sd) t xy).
Proof.
elim: xy t => //= -[x y] xy IH t; split; last exact: IH.
by case=> t1 t2 [/= h1 h2 h3 h4]; rewrite /keyof /cell h1 h2.
Qed.
Lemma good_set c xy w0 : override \/ (num_iter <= 50)%N ->
  let ll := setting_logs build sweep metrics num_iter c xy w0 in good override (SSet c (rows_of c ll.1) ll.2).
Proof.
move=> few ll S [h1 h2 h3 h4]; rewrite /rows_of; split.
  move=> r /(nthP [::]) [i]; rewrite rows_size => hi <-; rewrite rows_nth //.
  by rewrite /keyof /cell h3 h4.
move=> j ho /(has_nthP [::]) [i hi]; move: hi; rewrite size_take rows_size => hi.
have hij : (i < j)%N /\ (i < size ll.1)%N.
  by move: hi; case: ifP => h hi; split=> //; [apply: ltn_trans h | apply: (leq_trans hi); rewrite leqNgt h].
rewrite nth_take ?hij.1 // rows_nth ?hij.2 //.
rewrite /matches /cell h3 /= => /and5P [_ _ _ _ /eqP [he]].
have e50 : i.+1 = 50 by apply/eqP; rewrite -(@Num.Theory.eqr_nat [numDomainType of rat]); apply/eqP; rewrite -he add0r.
case: few => [hov|hn]; first by rewrite hov in ho.
case hb: (build c xy w0) => [w1 [[]|er]].
  have eL : ll = logs sweep metrics num_iter w1 by rewrite /ll /setting_logs hb.
  have [hs1 hs2] := logs_size num_iter w1; rewrite -eL in hs1 hs2.
  have hs : size ll.1 = num_iter.
    by apply/eqP; rewrite eqn_leq hs1 /=; apply: leq_trans hn _; rewrite -e50 hij.2.
  split; last exact: hs2.
  by rewrite hs; apply: leq_trans hn _; rewrite -e50 hij.1.
by move: hij.2; rewrite /ll /setting_logs hb.
Qed.

(** *** settings whose results do not depend on the world *)
Section Det.
Hypothesis det : deterministic reseed simulate build sweep metrics num_iter.
Variable w0 : W.
Let D seed := (simulate (reseed seed w0)).2.
Let L c xy := setting_logs build sweep metrics num_iter c xy w0.
Let T (_ : W) := True.
Definition ssteps (cs : seq cfg) (xy : data) : seq step := [seq SSet c (rows_of c (L c xy).1) (L c xy).2 | c <- cs].
Fixpoint plan (seeds : seq int) (trans : seq string) (powers damps : seq rat) : seq step :=
  if seeds is seed :: seeds' then
    match D seed with
    | Err e => [:: SStop e]
    | Ok xy => dsteps (seed_val seed) 0 xy ++
        if xy is [::] then [:: SStop ValueErr] else ssteps (product seed trans powers damps) xy ++ plan seeds' trans powers damps
    end
  else [::].
Lemma impl_settings cs xy : impl T (settings build sweep metrics num_iter exp_name override cs xy) (ssteps cs xy) T.
Proof.
elim: cs => [|c cs IH]; first exact: impl_ret.
apply: (@impl_bind _ T _ _ _ [:: _]); last exact: IH.
by apply: impl_setting => //; [move=> w _; apply: det.1 | right].
Qed.
Lemma impl_full seeds trans powers damps :
  impl T (full_sweep reseed simulate build sweep metrics num_iter dyn_name exp_name seeds trans powers damps override)
    (plan seeds trans powers damps) T.
Proof.
elim: seeds => [|seed seeds IH] /=; first exact: impl_ret.
move=> s S hw hs hp; rewrite /mbind /mworld /=.
have hD : (simulate (reseed seed (s_w s))).2 = D seed by apply: det.2.
case hsim: (simulate _) hD => [w1 r] /= <-; case: r {hsim} => [xy|e]; last by split=> //; left.
have I := @impl_dyn T (seed_val seed) 0 xy.
have J := impl_bind (@impl_settings (product seed trans powers damps) xy) IH.
case: xy I J => [|p xy] I J.
  exact: (impl_bind I (@impl_raise T T ValueErr) (s := St w1 (s_durable s) (s_working s) (s_intx s) (s_fuel s)) hw hs Logic.I).
exact: (impl_bind I J (s := St w1 (s_durable s) (s_working s) (s_intx s) (s_fuel s)) hw hs Logic.I).
Qed.
Lemma goods_plan seeds trans powers damps : override \/ (num_iter <= 50)%N -> goods override (plan seeds trans powers damps).
Proof.
move=> few; elim: seeds => //= seed seeds IH; case: (D seed) => [xy|e] //=.
apply: goods_cat; first exact: good_dsteps.
case: xy => [|p xy] //; apply: goods_cat IH.
elim: (product _ _ _ _) => //= c cs IHc; split=> //; exact: good_set.
Qed.
End Det.

(** *** nothing is skipped: results may depend on the random state, which seeding resets *)
Section Random.
Hypothesis ov : override.
Hypothesis seeding : forall seed w w', reseed seed w = reseed seed w'.
Fixpoint rsteps (cs : seq cfg) (xy : data) (w : W) : seq step :=
  if cs is c :: cs' then
    let ll := setting_logs build sweep metrics num_iter c xy w in
    SSet c (rows_of c ll.1) ll.2 :: rsteps cs' xy (setting_world c xy w)
  else [::].
Fixpoint rplan (seeds : seq int) (trans : seq string) (powers damps : seq rat) (w : W) : seq step :=
  if seeds is seed :: seeds' then
    match simulate (reseed seed w) with
    | (_, Err e) => [:: SStop e]
    | (w1, Ok xy) => dsteps (seed_val seed) 0 xy ++
        if xy is [::] then [:: SStop ValueErr] else rsteps (product seed trans powers damps) xy w1 ++ rplan seeds' trans powers damps w
    end
  else [::].
Lemma impl_rsettings cs xy w : impl (eq w) (settings build sweep metrics num_iter exp_name override cs xy) (rsteps cs xy w) (fun _ => True).
Proof.
elim: cs w => [|c cs IH] w; first by move=> s S hw hs hp; split=> //; left.
apply: (@impl_bind _ (eq (setting_world c xy w)) _ _ _ [:: _]); last exact: IH.
by apply: impl_setting => [w' <-|w' <-|] //; left.
Qed.
Lemma impl_rfull seeds trans powers damps w0 :
  impl (fun _ => True) (full_sweep reseed simulate build sweep metrics num_iter dyn_name exp_name seeds trans powers damps override)
    (rplan seeds trans powers damps w0) (fun _ => True).
Proof.
elim: seeds => [|seed seeds IH] /=; first exact: impl_ret.
move=> s S hw hs hp; rewrite /mbind /mworld /= (seeding _ _ w0).
case hsim: (simulate _) => [w1 [xy|e]] /=; last by split=> //; left.
have I := @impl_dyn (eq w1) (seed_val seed) 0 xy.
have J := impl_bind (@impl_rsettings (product seed trans powers damps) xy w1) IH.
case: xy {hsim} I J => [|p xy] I J.
  exact: (impl_bind I (@impl_raise _ (fun _ => True) ValueErr) (s := St w1 (s_durable s) (s_working s) (s_intx s) (s_fuel s)) hw hs erefl).
exact: (impl_bind I J (s := St w1 (s_durable s) (s_working s) (s_intx s) (s_fuel s)) hw hs erefl).
Qed.
Lemma goods_rplan seeds trans powers damps w0 : goods override (rplan seeds trans powers damps w0).
Proof.
elim: seeds => //= seed seeds IH; case: (simulate _) => [w1 [xy|e]] //=.
apply: goods_cat; first exact: good_dsteps.
case: xy => [|p xy] //; apply: goods_cat IH.
elim: (product _ _ _ _) w1 => //= c cs IHc w1; split; last exact: IHc.
by apply: good_set; left.
Qed.
End Random.
End Follow.

Definition addt (d : db) (n : string) (cols key : seq string) : db :=
  if lookup d n is Some _ then d else rcons d (n, Table cols key [::]).
Lemma addt_lookup d n cols key : exists t, lookup (addt d n cols key) n = Some t /\
  (lookup d n = Some t \/ (lookup d n = None /\ t = Table cols key [::])).
Proof.
rewrite /addt; case h: (lookup d n) => [t|]; first by exists t; rewrite h; split=> //; left.
by exists (Table cols key [::]); rewrite lookup_rcons h eqxx; split=> //; right.
Qed.
Lemma addt_ne d n cols key n' : n != n' -> lookup (addt d n cols key) n' = lookup d n'.
Proof.
by rewrite /addt => hn; case: (lookup d n) => // ; rewrite lookup_rcons (negbTE hn); case: (lookup d n').
Qed.
Lemma addt_id d n cols key t : lookup d n = Some t -> addt d n cols key = d.
Proof. by rewrite /addt => ->. Qed.
Lemma createE W n cols key w d k : @create_table W n cols key (St w d d false k) =
  if dead k 1 then (St w d d false k, Died) else (St w (addt d n cols key) (addt d n cols key) false (dec k), Done tt).
Proof.
rewrite /create_table /mbind /tick /addt; case: k => [[|k]|] //=; by case: (lookup d n).
Qed.
Lemma create_open W n c v name cols key (w : W) d k :
  s_durable (mbind (insert n c v) (fun _ => create_table name cols key) (St w d d false k)).1 = d.
Proof.
rewrite /insert /create_table /mbind /tick /=; case: k => [[|k]|] //=.
  case: ifP => _ //=; case: (lookup d n) => [t|] //=; case: ifP => _ //=; case: k => [|k] //=; by case: (lookup _ name).
case: ifP => _ //=; case: (lookup d n) => [t|] //=; case: ifP => _ //=; by case: (lookup _ name).
Qed.

Section Resume.
Variable W : Type.
Variable reseed : int -> W -> W.
Variable simulate : W -> W * res data.
Variable build : cfg -> data -> W -> W * res unit.
Variable sweep : W -> W * res unit.
Variable metrics : W -> W * res (val * val).
Variables (num_iter : nat) (dyn_name exp_name : string).
Variable override : bool.
Hypothesis names : dyn_name != exp_name.
Variables (seeds : seq int) (trans : seq string) (powers damps : seq rat).
Let run := main reseed simulate build sweep metrics num_iter dyn_name exp_name seeds trans powers damps override.
Variable d0 : db.
Hypothesis sch : schema_ok dyn_name exp_name d0.
Let d1 := addt d0 dyn_name dyn_cols [:: "Seed"; "t"]%string.
Let d2 := addt d1 exp_name exp_cols exp_key.
Variable pl : seq step.
Hypothesis gp : goods override pl.
Hypothesis follows : forall bd be, lookup d2 dyn_name = Some bd -> lookup d2 exp_name = Some be ->
  impl dyn_name exp_name override d2 (fun _ : W => True)
    (full_sweep reseed simulate build sweep metrics num_iter dyn_name exp_name seeds trans powers damps override) pl (fun _ => True).

Lemma init : exists S0, [/\ wf S0, lookup d2 dyn_name = Some (td S0), lookup d2 exp_name = Some (te S0)
  & conc dyn_name exp_name d2 S0 = d2].
Proof.
have [t1 [h1 c1]] := addt_lookup d0 dyn_name dyn_cols [:: "Seed"; "t"]%string.
have [t2 [h2 c2]] := addt_lookup d1 exp_name exp_cols exp_key.
have h3 : lookup d2 dyn_name = Some t1 by rewrite /d2 addt_ne // eq_sym.
exists (Tabs t1 t2); split=> //; last by rewrite /conc /= (update_same h3) update_same.
rewrite /wf /=.
have [-> ->] : tcols t1 = dyn_cols /\ tkey t1 = [:: "Seed"; "t"]%string.
  by case: c1 => [/(sch.1)|[_ ->]].
have [-> ->] : tcols t2 = exp_cols /\ tkey t2 = exp_key; last by [].
by case: c2 => [|[_ ->]] //; rewrite /d1 addt_ne // => /(sch.2).
Qed.

Definition reach (S0 : tabs) (d : db) : Prop :=
  [\/ d = d0, d = d1 | exists2 X, X = S0 \/ snap override pl S0 X & d = conc dyn_name exp_name d2 X].

Lemma run_reach S0 d w k : wf S0 -> lookup d2 dyn_name = Some (td S0) -> lookup d2 exp_name = Some (te S0) ->
  conc dyn_name exp_name d2 S0 = d2 -> reach S0 d ->
  reach S0 (s_durable (run (start w d k)).1) /\
  (k = None -> [/\ s_working (run (start w d k)).1 = conc dyn_name exp_name d2 (exec override pl S0).1,
     (run (start w d k)).2 = (exec override pl S0).2 &
     lookup (s_durable (run (start w d k)).1) exp_name = lookup (s_working (run (start w d k)).1) exp_name]).
Proof.
move=> hw hd he h0 hr.
have A2 X : addt (addt (conc dyn_name exp_name d2 X) dyn_name dyn_cols [:: "Seed"; "t"]%string) exp_name exp_cols exp_key
  = conc dyn_name exp_name d2 X.
  rewrite (addt_id _ _ (conc_dyn names hd X)) (addt_id _ _ (conc_exp names he X)); by [].
have A1 X : addt (conc dyn_name exp_name d2 X) dyn_name dyn_cols [:: "Seed"; "t"]%string = conc dyn_name exp_name d2 X.
  by rewrite (addt_id _ _ (conc_dyn names hd X)).
set a1 := addt d dyn_name dyn_cols [:: "Seed"; "t"]%string.
set a2 := addt a1 exp_name exp_cols exp_key.
have d11 : addt d1 dyn_name dyn_cols [:: "Seed"; "t"]%string = d1.
  by have [t [h _]] := addt_lookup d0 dyn_name dyn_cols [:: "Seed"; "t"]%string; apply: addt_id h.
have r1 : reach S0 a1.
  rewrite /a1; case: hr => [->|->|[X hX ->]]; first by apply: Or32.
    by apply: Or32.
  by rewrite A1; apply: Or33; exists X.
have [X hX hX2] : exists2 X, X = S0 \/ snap override pl S0 X & a2 = conc dyn_name exp_name d2 X.
  rewrite /a2 /a1; case: hr => [->|->|[X hX ->]].
  - by exists S0; [left | rewrite h0].
  - by exists S0; [left | rewrite d11 h0].
  - by exists X; last rewrite A2.
rewrite /run /main /mbind /create_dynamics_table /create_experiment_table /start createE -/a1.
case: ifP => hk1; first by split=> // hk; move: hk1; rewrite hk.
rewrite createE -/a2; case: ifP => hk2; first by split=> // hk; move: hk2; rewrite hk.
have hwX : wf X by case: hX => [->|/snap_ext hX] //; apply: ext_wf hX hw.
have eX : exec override pl X = exec override pl S0.
  by case: hX => [->|hX] //; have [] := resume hw gp hX.
have sX Y : snap override pl X Y -> Y = X \/ snap override pl S0 Y.
  by case: hX => [->|hX] hY; [right | have [_] := resume hw gp hX; apply].
have [i1 i2 i3 i4 _] := follows hd he (s := St w a2 a2 false (dec (dec k))) hwX hX2 Logic.I.
split.
  apply: Or33; case: i2 => [->|[Y hY ->]]; first by exists X.
  case: (sX Y hY) => [->|h]; [by exists X | by exists Y => //; right].
move=> hk; have [nd _] := i1 (congr1 (fun k => dec (dec k)) hk).
have [i5 i6] := i3 nd; rewrite -eX; split=> //.
by apply: i4.
Qed.
End Resume.

Section Main.
Variable W : Type.
Variable reseed : int -> W -> W.
Variable simulate : W -> W * res data.
Variable build : cfg -> data -> W -> W * res unit.
Variable sweep : W -> W * res unit.
Variable metrics : W -> W * res (val * val).
Variables (num_iter : nat) (dyn_name exp_name : string).
Variables (seeds : seq int) (trans : seq string) (powers damps : seq rat).
Notation run o := (main reseed simulate build sweep metrics num_iter dyn_name exp_name seeds trans powers damps o).

Let after_all := attempts reseed simulate build sweep metrics num_iter dyn_name exp_name seeds trans powers damps.
Lemma resume_plan (override : bool) pl d0 l w w' : dyn_name != exp_name -> schema_ok dyn_name exp_name d0 -> goods override pl ->
  (forall base bd be, lookup base dyn_name = Some bd -> lookup base exp_name = Some be ->
    impl dyn_name exp_name override base (fun _ : W => True)
      (full_sweep reseed simulate build sweep metrics num_iter dyn_name exp_name seeds trans powers damps override) pl (fun _ => True)) ->
  let r := run override (start w (after_all override l d0) None) in
  let r0 := run override (start w' d0 None) in
  [/\ r.2 = r0.2, s_working r.1 = s_working r0.1 & lookup (s_durable r.1) exp_name = lookup (s_durable r0.1) exp_name].
Proof.
move=> names sch gp hi r r0; set d := after_all override l d0 in r *.
have [S0 [hw hd he h0]] := init names sch.
have R d' w1 k := @run_reach W reseed simulate build sweep metrics num_iter dyn_name exp_name override names
  seeds trans powers damps d0 pl gp (hi _) S0 d' w1 k hw hd he h0.
have hr : reach dyn_name exp_name override d0 pl S0 d.
  rewrite /d; have : reach dyn_name exp_name override d0 pl S0 d0 by apply: Or31.
  move: {2 4}d0; elim: (l) => [|[w1 k] l' IH] d' hd' //=.
  by apply: IH; have [] := R d' w1 k hd'.
have [_ /(_ erefl) [h1 h2 h3]] := R d w None hr.
have [_ /(_ erefl) [h4 h5 h6]] := R d0 w' None (Or31 _ _ erefl).
by rewrite /r /r0 h2 h5 h1 h4 h3 h6 h1 h4.
Qed.

Lemma resume_main (override : bool) d0 l w w' :
  deterministic reseed simulate build sweep metrics num_iter -> dyn_name != exp_name ->
  override \/ (num_iter <= 50)%N -> schema_ok dyn_name exp_name d0 ->
  let r := run override (start w (after_all override l d0) None) in
  let r0 := run override (start w' d0 None) in
  [/\ r.2 = r0.2, s_working r.1 = s_working r0.1 & lookup (s_durable r.1) exp_name = lookup (s_durable r0.1) exp_name].
Proof.
move=> det names few sch; apply: (resume_plan _ _ _ names sch (goods_plan reseed simulate build sweep metrics w seeds trans powers damps few)).
by move=> base bd be h1 h2; have := impl_full override names h1 h2 det w seeds trans powers damps; apply.
Qed.

Lemma resume_random d0 l w w' :
  (forall seed w w', reseed seed w = reseed seed w') -> dyn_name != exp_name -> schema_ok dyn_name exp_name d0 ->
  let r := run true (start w (after_all true l d0) None) in
  let r0 := run true (start w' d0 None) in
  [/\ r.2 = r0.2, s_working r.1 = s_working r0.1 & lookup (s_durable r.1) exp_name = lookup (s_durable r0.1) exp_name].
Proof.
move=> sd names sch; apply: (resume_plan _ _ _ names sch (goods_rplan reseed simulate build sweep metrics num_iter isT seeds trans powers damps w)).
by move=> base bd be h1 h2; have := impl_rfull simulate build sweep metrics num_iter names h1 h2 isT sd seeds trans powers damps w; apply.
Qed.

(** ** nothing stored is lost, whatever happens *)
Lemma safe_catch (m : M W unit) : safe m -> safe (catch_linalg m).
Proof.
move=> hm s h; have := hm s h; rewrite /catch_linalg; case: (m s) => s' [u|e|] //=.
by case: e.
Qed.
Lemma safe_one c xy o : safe (one_setting build sweep metrics num_iter exp_name o c xy).
Proof.
apply: safe_bind => [|ex]; last first.
  apply: safe_catch; case: ifP => _; last exact: safe_ret.
  by apply: safe_bind => [|_]; [apply: safe_world | apply: safe_iterations].
by apply: safe_db => s h; case: (lookup _ _) => [t|]; split=> //; apply: grown_refl.
Qed.
Lemma safe_settings cs xy o : safe (settings build sweep metrics num_iter exp_name o cs xy).
Proof.
elim: cs => [|c cs IH] /=; first exact: safe_ret.
by apply: safe_bind => [|_]; [apply: safe_one | apply: IH].
Qed.
Lemma safe_full sds o : safe (full_sweep reseed simulate build sweep metrics num_iter dyn_name exp_name sds trans powers damps o).
Proof.
elim: sds => [|sd sds IH] /=; first exact: safe_ret.
apply: safe_bind => [|_]; first exact: safe_world.
apply: safe_bind => [|xy]; first exact: safe_world.
apply: safe_bind => [|_]; first exact: safe_dynamics.
case: xy => [|p xy]; first exact: safe_raise.
by apply: safe_bind => [|_]; [apply: safe_settings | apply: IH].
Qed.
Lemma safe_main o : safe (run o).
Proof.
apply: safe_bind => [|_]; first exact: safe_create.
by apply: safe_bind => [|_]; [apply: safe_create | apply: safe_full].
Qed.
Lemma main_grown o w d k : grown d (s_durable (run o (start w d k)).1).
Proof. by have [] := safe_main o (s := start w d k) (@grown_refl d). Qed.
Lemma attempts_grown o l d :
  grown d (attempts reseed simulate build sweep metrics num_iter dyn_name exp_name seeds trans powers damps o l d).
Proof.
elim: l d => [|[w k] l IH] d /=; first exact: grown_refl.
by apply: grown_trans (IH _); apply: main_grown.
Qed.
End Main.

(** ** without a stored iteration 50 nothing is skipped *)
Section NoSkip.
Variable W : Type.
Variable reseed : int -> W -> W.
Variable simulate : W -> W * res data.
Variable build : cfg -> data -> W -> W * res unit.
Variable sweep : W -> W * res unit.
Variable metrics : W -> W * res (val * val).
Variables (num_iter : nat) (dyn_name exp_name : string).
Hypothesis names : dyn_name != exp_name.
Hypothesis short : (num_iter < 50)%N.
Definition okt (t : table) : Prop := tcols t = exp_cols /\ forall r, r \in trows t -> cell t r "Iter" != VNum 50%:R.
Definition okdb (d : db) : Prop := forall t, lookup d exp_name = Some t -> okt t.
Definition keep A (m1 m2 : M W A) : Prop := forall s, okdb (s_durable s) -> okdb (s_working s) ->
  [/\ m1 s = m2 s, okdb (s_durable (m1 s).1) & (m1 s).2 <> Died -> okdb (s_working (m1 s).1)].
Lemma keep_bind A B (m1 m2 : M W A) (k1 k2 : A -> M W B) : keep m1 m2 -> (forall a, keep (k1 a) (k2 a)) -> keep (mbind m1 k1) (mbind m2 k2).
Proof.
move=> hm hk s h1 h2; rewrite /mbind; case: (hm s h1 h2) => <-.
case: (m1 s) => s1 [a|e|] /= h3 h4; first by apply: hk => //; apply: h4.
  by split=> // _; apply: h4.
by split=> // /(_ erefl).
Qed.
Lemma keep_ret A (a : A) : keep (mret a) (mret a). Proof. by []. Qed.
Lemma keep_raise A e : keep (@mraise W A e) (@mraise W A e). Proof. by []. Qed.
Lemma keep_world A (f : W -> W * res A) : keep (mworld f) (mworld f).
Proof. by move=> s h1 h2; rewrite /mworld; case: (f _). Qed.
Lemma keep_tick : keep (@tick W) (@tick W).
Proof. by move=> s h1 h2; rewrite /tick; case: (s_fuel s) => [[|k]|]. Qed.
Lemma keep_insert c v : keep (@insert W dyn_name c v) (@insert W dyn_name c v).
Proof.
apply: keep_bind; first exact: keep_tick.
move=> _ s h1 h2; rewrite /mbind /mdb; case: ifP => _ //; case: (lookup _ dyn_name) => [t|] //; case: ifP => _ //=.
by split=> // _ t'; rewrite lookup_update_ne //; apply: h2.
Qed.
Lemma keep_dyn t xy sd : keep (@insert_dynamics_from W dyn_name t xy sd) (@insert_dynamics_from W dyn_name t xy sd).
Proof.
elim: xy t => [|[x y] xy IH] t /=; first exact: keep_ret.
by apply: keep_bind => [|_]; [apply: keep_insert | apply: IH].
Qed.
Lemma okt_all t rs : okt t -> (forall r, r \in rs -> cell t r "Iter" != VNum 50%:R) -> okt (insert_all t rs).
Proof.
elim: rs t => //= r rs IH t [h1 h2] h; apply: IH.
  split; first by rewrite ins_cols.
  move=> r'; rewrite /cell ins_cols -/(cell _ _ _) /insert_ignore; case: ifP => _ /=; first exact: h2.
  by rewrite mem_rcons inE => /orP [/eqP ->|/h2 //]; apply: h; rewrite inE eqxx.
by move=> r' hr; rewrite /cell ins_cols; apply: h; rewrite inE hr orbT.
Qed.
Lemma okdb_update d t rs : lookup d exp_name = Some t -> okdb d ->
  (forall r, r \in rs -> cell t r "Iter" != VNum 50%:R) -> okdb (update d exp_name (insert_all t rs)).
Proof. by move=> hl hd hr t'; rewrite (lookup_update _ hl) => -[<-]; apply: okt_all => //; apply: hd. Qed.

Lemma keep_power c xy t s : okdb (s_durable s) -> okdb (s_working s) -> lookup (s_working s) exp_name = Some t ->
  let m := power_sweep build sweep metrics num_iter exp_name c xy in
  okdb (s_durable (m s).1) /\ ((m s).2 <> Died -> okdb (s_working (m s).1)).
Proof.
move=> h1 h2 hl m; rewrite /m /power_sweep /mbind /mworld.
case hb: (build c xy (s_w s)) => [w1 [[]|er]] //.
set s1 := St _ _ _ _ _.
have -> : ep_iterations sweep metrics num_iter true (exp_data c) exp_name s1 =
  ep_loop sweep metrics num_iter true exp_name
    (stdd (VText (c_trans c)) (seed_val (c_seed c)) 0 (VNum (c_power c)) (VNum (c_damp c)) (VNum 0) (VNum 0) (VNum 0) (VNum 0)) s1 by [].
have hl1 : lookup (s_working s1) exp_name = Some t by [].
have := loop_run sweep metrics num_iter (VText (c_trans c)) (seed_val (c_seed c)) 0 (VNum (c_power c)) (VNum (c_damp c)) (VNum 0) (VNum 0) (VNum 0) (VNum 0) hl1 (h2 _ hl).1.
have : forall r, r \in log_rows (VText (c_trans c)) (seed_val (c_seed c)) (VNum (c_power c)) (VNum (c_damp c)) 0
  (logs sweep metrics num_iter (s_w s1)).1 -> cell t r "Iter" != VNum 50%:R.
  move=> r /(nthP [::]) [i]; rewrite rows_size => hi <-; rewrite rows_nth // /cell (h2 _ hl).1 /=.
  apply/eqP => -[]; rewrite add0r => /eqP; rewrite Num.Theory.eqr_nat => /eqP e.
  have := leq_trans hi (logs_size sweep metrics num_iter (s_w s1)).1.
  by rewrite e leqNgt short.
rewrite /logged; move: (log_rows _ _ _ _ _ _) => rows hr; move: (ep_loop _ _ _ _ _ _ _) => r.
have hT j : forall r, r \in take j rows -> cell t r "Iter" != VNum 50%:R by move=> r' /mem_take /hr.
case: ifP => _.
  case=> -> ->; split; last by move=> /(_ erefl).
  by case: (_./2) => [|j] //; apply: (okdb_update hl h2 (hT _)).
by move=> -> /=; split; [case: ifP => _ //|]; try (move=> _); apply: (okdb_update hl h2 hr).
Qed.
Lemma keep_setting c xy : keep (one_setting build sweep metrics num_iter exp_name false c xy) (one_setting build sweep metrics num_iter exp_name true c xy).
Proof.
move=> s h1 h2; rewrite /one_setting /exists_query /mbind /mdb.
case hl: (lookup (s_working s) exp_name) => [t|] //=.
have -> : has (matches t c) (trows t) = false.
  by apply/negbTE/hasPn => r hr; rewrite /matches (negbTE ((h2 _ hl).2 _ hr)) !andbF.
have [h3 h4] := keep_power c xy h1 h2 hl; rewrite /catch_linalg /=.
by case: (power_sweep _ _ _ _ _ _ _ _) h3 h4 => s1 [u|e|] /= h3 h4; [| case: e h4 => h4 |]; split=> //= _; apply: h4.
Qed.
Lemma keep_settings cs xy : keep (settings build sweep metrics num_iter exp_name false cs xy) (settings build sweep metrics num_iter exp_name true cs xy).
Proof.
elim: cs => [|c cs IH] /=; first exact: keep_ret.
by apply: keep_bind => [|_]; [apply: keep_setting | apply: IH].
Qed.
Lemma keep_full seeds trans powers damps :
  keep (full_sweep reseed simulate build sweep metrics num_iter dyn_name exp_name seeds trans powers damps false)
       (full_sweep reseed simulate build sweep metrics num_iter dyn_name exp_name seeds trans powers damps true).
Proof.
elim: seeds => [|sd sds IH] /=; first exact: keep_ret.
apply: keep_bind => [|_]; first exact: keep_world.
apply: keep_bind => [|xy]; first exact: keep_world.
apply: keep_bind => [|_]; first exact: keep_dyn.
case: xy => [|p xy]; first exact: keep_raise.
by apply: keep_bind => [|_]; [apply: keep_settings | apply: IH].
Qed.
Lemma keep_create n c k : (n = exp_name -> c = exp_cols) -> keep (@create_table W n c k) (@create_table W n c k).
Proof.
move=> hn; apply: keep_bind; first exact: keep_tick.
move=> _ s h1 h2; case: (lookup _ n) => [t|] //=.
have h : okdb (rcons (s_working s) (n, Table c k [::])).
  move=> t; rewrite lookup_rcons; case he: (lookup _ _) => [u|]; first by move=> [<-]; apply: h2.
  by case: eqP => [e|] // -[<-]; split=> //; rewrite /= hn.
by split=> //; case: ifP.
Qed.
Lemma keep_main seeds trans powers damps :
  keep (main reseed simulate build sweep metrics num_iter dyn_name exp_name seeds trans powers damps false)
       (main reseed simulate build sweep metrics num_iter dyn_name exp_name seeds trans powers damps true).
Proof.
apply: keep_bind => [|_]; first by apply: keep_create => e; move: (names); rewrite e eqxx.
by apply: keep_bind => [|_]; [apply: keep_create | apply: keep_full].
Qed.
Lemma resume_short seeds trans powers damps d0 l w w' :
  (forall seed w w', reseed seed w = reseed seed w') -> schema_ok dyn_name exp_name d0 ->
  (forall t, lookup d0 exp_name = Some t -> forall r, r \in trows t -> cell t r "Iter" != VNum 50%:R) ->
  let run w d := main reseed simulate build sweep metrics num_iter dyn_name exp_name seeds trans powers damps false (start w d None) in
  let r := run w (attempts reseed simulate build sweep metrics num_iter dyn_name exp_name seeds trans powers damps false l d0) in
  let r0 := run w' d0 in
  [/\ r.2 = r0.2, s_working r.1 = s_working r0.1 & lookup (s_durable r.1) exp_name = lookup (s_durable r0.1) exp_name].
Proof.
move=> sd sch h50 run r r0.
have ok0 : okdb d0 by move=> t ht; split; [case: (sch.2 _ ht) | apply: h50 ht].
have K d w1 k : okdb d -> _ := fun hd => @keep_main seeds trans powers damps (start w1 d k) hd hd.
have [ok1 e1] : okdb (attempts reseed simulate build sweep metrics num_iter dyn_name exp_name seeds trans powers damps false l d0) /\
  attempts reseed simulate build sweep metrics num_iter dyn_name exp_name seeds trans powers damps false l d0 =
  attempts reseed simulate build sweep metrics num_iter dyn_name exp_name seeds trans powers damps true l d0.
  elim: (l) (d0) ok0 => [|[w1 k] l' IH] d hd //=.
  by have [e h _] := K d w1 k hd; rewrite -e; apply: IH.
rewrite /r /r0 /run.
have [-> _ _] := K _ w None ok1; have [-> _ _] := K _ w' None ok0; rewrite e1.
exact: resume_random.
Qed.
End NoSkip.

(** ** invariants of all databases *)
Section Inv.
Variable P : db -> Prop.
Hypothesis Pup : forall d n t r, P d -> lookup d n = Some t -> P (update d n (insert_ignore t r)).
Hypothesis Pnew : forall d n c k, P d -> lookup d n = None -> P (rcons d (n, Table c k [::])).
Variable W : Type.
Notation M := (M W).
Definition inv A (m : M A) : Prop := forall s, P (s_durable s) -> P (s_working s) -> P (s_durable (m s).1) /\ P (s_working (m s).1).
Lemma inv_ret A (a : A) : inv (mret a). Proof. by []. Qed.
Lemma inv_raise A e : inv (@mraise W A e). Proof. by []. Qed.
Lemma inv_lift A (r : res A) : inv (@mlift W A r). Proof. by []. Qed.
Lemma inv_world A (f : W -> W * res A) : inv (mworld f).
Proof. by move=> s h1 h2; rewrite /mworld; case: (f _). Qed.
Lemma inv_tick : inv (@tick W).
Proof. by move=> s h1 h2; rewrite /tick; case: (s_fuel s) => [[|k]|]. Qed.
Lemma inv_bind A B (m : M A) (k : A -> M B) : inv m -> (forall a, inv (k a)) -> inv (mbind m k).
Proof.
by move=> hm hk s h1 h2; rewrite /mbind; case: (hm s h1 h2); case: (m s) => s' [a|e|] //= h3 h4; apply: hk.
Qed.
Lemma inv_commit : inv (@commit W).
Proof. by apply: inv_bind => [|_]; first exact: inv_tick. Qed.
Lemma inv_create n c k : inv (@create_table W n c k).
Proof.
apply: inv_bind => [|_]; first exact: inv_tick.
move=> s h1 h2; case hl: (lookup _ _) => [t|] //=.
by have := Pnew c k h2 hl => h; split=> //; case: ifP.
Qed.
Lemma inv_insert n c v : inv (@insert W n c v).
Proof.
apply: inv_bind => [|_]; first exact: inv_tick.
move=> s h1 h2; rewrite /mbind /mdb; case: ifP => _ //; case hl: (lookup _ _) => [t|] //; case: ifP => _ //=.
by split=> //; apply: Pup.
Qed.
Lemma inv_dyn n t xy sd : inv (@insert_dynamics_from W n t xy sd).
Proof.
elim: xy t => [|[x y] xy IH] t /=; first exact: inv_ret.
by apply: inv_bind => [|_]; [apply: inv_insert | apply: IH].
Qed.
Lemma inv_loop sweep metrics k b n d : inv (@ep_loop W sweep metrics k b n d).
Proof.
elim: k d => [|k IH] d /=; first exact: inv_ret.
apply: inv_bind => [|_]; first exact: inv_world.
case: b IH => IH; last exact: IH.
apply: inv_bind => [|d1]; first exact: inv_lift.
apply: inv_bind => [|m]; first exact: inv_world.
apply: inv_bind => [|_]; first exact: inv_insert.
by apply: inv_bind => [|_]; first exact: inv_commit.
Qed.
Variable reseed : int -> W -> W.
Variable simulate : W -> W * res data.
Variable build : cfg -> data -> W -> W * res unit.
Variable sweep : W -> W * res unit.
Variable metrics : W -> W * res (val * val).
Variables (num_iter : nat) (dyn_name exp_name : string).
Lemma inv_setting o c xy : inv (one_setting build sweep metrics num_iter exp_name o c xy).
Proof.
apply: inv_bind => [|ex]; first by move=> s h1 h2; rewrite /exists_query /mbind /mdb; case: (lookup _ _).
set m := (if _ then _ else _); have hm : inv m.
  rewrite /m; case: ifP => _ //; apply: inv_bind => [|_]; first exact: inv_world.
  exact: inv_loop.
by move=> s h1 h2; case: (hm s h1 h2); rewrite /catch_linalg; case: (m s) => s' [u|e|] //; case: e.
Qed.
Lemma inv_main seeds trans powers damps o :
  inv (main reseed simulate build sweep metrics num_iter dyn_name exp_name seeds trans powers damps o).
Proof.
apply: inv_bind => [|_]; first exact: inv_create.
apply: inv_bind => [|_]; first exact: inv_create.
elim: seeds => [|sd sds IH] /=; first exact: inv_ret.
apply: inv_bind => [|_]; first exact: inv_world.
apply: inv_bind => [|xy]; first exact: inv_world.
apply: inv_bind => [|_]; first exact: inv_dyn.
case: xy => [|p xy]; first exact: inv_raise.
apply: inv_bind => [|_]; last exact: IH.
elim: (product _ _ _ _) => [|c cs IHc] /=; first exact: inv_ret.
by apply: inv_bind => [|_]; [apply: inv_setting | apply: IHc].
Qed.
End Inv.

Definition uniqdb (d : db) : Prop := forall n t, lookup d n = Some t -> unique_keys t.
Lemma uniq_up d n t r : uniqdb d -> lookup d n = Some t -> uniqdb (update d n (insert_ignore t r)).
Proof.
move=> h hl m u; case: (eqVneq n m) => [<-|ne]; last by rewrite lookup_update_ne //; apply: h.
by rewrite (lookup_update _ hl) => -[<-]; apply: ins_unique; apply: h hl.
Qed.
Lemma uniq_new d n c k : uniqdb d -> lookup d n = None -> uniqdb (rcons d (n, Table c k [::])).
Proof.
move=> h hl m u; rewrite lookup_rcons; case hm: (lookup d m) => [v|]; first by move=> [<-]; apply: h hm.
by case: eqP => // _ [<-].
Qed.
Lemma uniq_main W reseed simulate build sweep metrics num_iter dn en seeds trans powers damps o w d k : uniqdb d ->
  uniqdb (s_durable (@main W reseed simulate build sweep metrics num_iter dn en seeds trans powers damps o (start w d k)).1).
Proof.
by move=> h; have [] := @inv_main uniqdb uniq_up uniq_new W reseed simulate build sweep metrics num_iter dn en seeds trans powers damps o (start w d k) h h.
Qed.

(** ** the experiment table *)
Section Exp.
Variable W : Type.
Implicit Types (s : st W) (d : dict).
Lemma exp_inserts_unique name ds s : uniqdb (s_durable s) -> uniqdb (s_working s) ->
  let s' := foldl (fun s d => (insert_experiment_data name d s).1) s ds in uniqdb (s_durable s') /\ uniqdb (s_working s').
Proof.
elim: ds s => //= d ds IH s h1 h2.
have [h3 h4] := @inv_insert uniqdb uniq_up W name exp_cols (dvalues d) s h1 h2.
exact: IH.
Qed.
Lemma exp_insert_wrong name d s : size d <> 9 -> s_fuel s = None ->
  insert_experiment_data name d s = (s, Raised DbErr).
Proof.
move=> h hf; rewrite /insert_experiment_data /insert /mbind /tick hf /mdb.
by rewrite /dvalues size_map; case: eqP => // e; case: h.
Qed.
Lemma exp_insert name d t s : size d = 9 -> s_fuel s = None -> lookup (s_working s) name = Some t -> tcols t = exp_cols ->
  insert_experiment_data name d s =
  (St (s_w s) (s_durable s) (update (s_working s) name (insert_ignore t (dvalues d))) true None, Done tt).
Proof.
by move=> h hf hl hc; rewrite /insert_experiment_data (insertE hl) ?hf //= /dvalues size_map.
Qed.
Lemma dget_nth d i : uniq (map fst d) -> (i < size d)%N ->
  dget d (nth EmptyString (map fst d) i) = Some (nth VNull (dvalues d) i).
Proof.
rewrite /dget /dvalues; elim: d i => //= -[k v] d IH [|i] /= /andP [hk hu] hi.
  by rewrite eqxx.
have hn : nth EmptyString (map fst d) i \in map fst d by rewrite mem_nth // size_map.
by case: eqP => [e|_]; [by move: hk; rewrite e hn | exact: IH].
Qed.
(** cells of a stored row: positional *)
Lemma exp_cells d t c : map fst d = exp_cols -> tcols t = exp_cols -> c \in exp_cols -> dget d c = Some (cell t (dvalues d) c).
Proof.
move=> hd hc hin; have hs : size d = 9 by rewrite -(size_map fst) hd.
rewrite /cell hc -{1}(nth_index EmptyString hin) -{1}hd dget_nth ?hd // hs.
by move: hin; rewrite -index_mem.
Qed.
Lemma exp_cells_conv d t : tcols t = exp_cols -> uniq (map fst d) -> size d = 9 -> uniq (dvalues d) ->
  (forall c, c \in exp_cols -> dget d c = Some (cell t (dvalues d) c)) -> map fst d = exp_cols.
Proof.
move=> hc hu hs hv h; apply: (@eq_from_nth _ EmptyString); rewrite size_map ?hs // => i hi.
have hin : nth EmptyString exp_cols i \in exp_cols by apply: mem_nth.
have := h _ hin; rewrite /cell hc index_uniq //.
set c := nth _ exp_cols i => hg.
have hcd : c \in map fst d.
  apply/negPn/negP => hn; move: hg; rewrite /dget.
  suff -> : [seq p <- d | p.1 == c] = [::] by [].
  by apply/eqP; rewrite -(negbK (_ == _)) -has_filter; apply/hasPn => p hp; apply: contra hn => /eqP <-; apply: map_f.
have hj : (seq.index c (map fst d) < size d)%N by rewrite -(size_map fst) index_mem.
have := dget_nth hu hj; rewrite nth_index // hg => -[] /esym/eqP.
rewrite nth_uniq ?size_map -?hs //; last by rewrite hs.
move/eqP => e.
by rewrite -e nth_index.
Qed.
(** appending fresh rows *)
Lemma all_fresh t rs : uniq (map (keyof t) rs) -> (forall r, r \in rs -> ~~ present t (keyof t r)) ->
  trows (insert_all t rs) = trows t ++ rs.
Proof.
elim: rs t => [|r rs IH] t /=; first by rewrite cats0.
move=> /andP [hr hu] hp.
have hi : insert_ignore t r = Table (tcols t) (tkey t) (rcons (trows t) r).
  by rewrite /insert_ignore has_conflict (negbTE (hp r _)) // inE eqxx.
rewrite hi; set t' := Table _ _ _ in hi *.
have K r' : keyof t' r' = keyof t r' by [].
have Km x : map (keyof t') x = map (keyof t) x by apply: eq_map.
rewrite [LHS]IH ?Km //= ?cat_rcons //.
move=> r' hr'; have := hp r'; rewrite inE hr' orbT => /(_ isT); rewrite /present Km K /= map_rcons mem_rcons inE.
rewrite !negb_and negb_or => /orP [->//|h]; apply/orP; right; rewrite h andbT.
by apply: contra hr => /eqP <-; apply: map_f.
Qed.
Lemma log_keys t tr sd pw dp q ms : tcols t = exp_cols -> tkey t = exp_key -> uniq (map (keyof t) (log_rows tr sd pw dp q ms)).
Proof.
move=> hc hk; apply/(uniqP [::]) => i j; rewrite !inE size_map rows_size => hi hj.
rewrite !(nth_map [::]) ?rows_size // !rows_nth // /keyof /cell hc hk /= => -[].
by move/addrI/eqP; rewrite Num.Theory.eqr_nat => /eqP [].
Qed.
End Exp.

Lemma silent W (sweep : W -> W * res unit) metrics k name d s :
  ep_loop sweep metrics k false name d s =
  (St (sweeps sweep k (s_w s)).1 (s_durable s) (s_working s) (s_intx s) (s_fuel s), outcome (sweeps sweep k (s_w s)).2).
Proof.
elim: k s => [|k IH] s /=; first by case: s.
by rewrite {1}/mbind /mworld; case: (sweep _) => w1 [u|e] //; rewrite IH.
Qed.
Lemma iterations_run W (sweep : W -> W * res unit) metrics n tr sd q pw dp a b c e nodes name t (s : st W) :
  lookup (s_working s) name = Some t -> tcols t = exp_cols ->
  let r := ep_iterations sweep metrics n true (zip exp_data_fields [:: tr; sd; VNum q; pw; dp; a; b; c; e; nodes]) name s in
  let ms := logs sweep metrics n (s_w s) in
  let rows := log_rows tr sd pw dp q ms.1 in
  match s_fuel s with
  | None => [/\ r.2 = outcome ms.2, s_working r.1 = update (s_working s) name (insert_all t rows)
              & s_durable r.1 = if rows is [::] then s_durable s else s_working r.1]
  | Some f =>
      if (f < 2 * size rows)%N
      then r.2 = Died /\ s_durable r.1 = if f./2 is 0 then s_durable s else update (s_working s) name (insert_all t (take f./2 rows))
      else [/\ r.2 = outcome ms.2, s_working r.1 = update (s_working s) name (insert_all t rows)
              & s_durable r.1 = if rows is [::] then s_durable s else s_working r.1]
  end.
Proof.
move=> hl hc r ms rows.
have := loop_run sweep metrics n tr sd q pw dp a b c e hl hc.
rewrite -/ms -/rows /logged.
have -> : ep_loop sweep metrics n true name (stdd tr sd q pw dp a b c e) s = r by [].
rewrite /dead mul2n; case: (s_fuel s) => [f|] /=.
  case: ifP => _; last by move=> ->; case: (rows).
  by case=> -> ->; case: (f./2).
by move=> ->; case: (rows).
Qed.

Section Unsaved.
Variable W : Type.
Variable reseed : int -> W -> W.
Variable simulate : W -> W * res data.
Variable build : cfg -> data -> W -> W * res unit.
Variable sweep : W -> W * res unit.
Variable metrics : W -> W * res (val * val).
Variables (num_iter : nat) (dyn_name exp_name : string).
Hypothesis names : dyn_name != exp_name.
Variable (t : table).
Definition calm A (m : M W A) : Prop := forall s, lookup (s_working s) exp_name = Some t ->
  s_durable (m s).1 = s_durable s /\ lookup (s_working (m s).1) exp_name = Some t.
Lemma calm_bind A B (m : M W A) (k : A -> M W B) : calm m -> (forall a, calm (k a)) -> calm (mbind m k).
Proof.
by move=> hm hk s h; rewrite /mbind; case: (hm s h); case: (m s) => s' [a|e|] //= <- h'; apply: hk.
Qed.
Lemma calm_world A (f : W -> W * res A) : calm (mworld f).
Proof. by move=> s h; rewrite /mworld; case: (f _). Qed.
Lemma calm_insert c v : calm (@insert W dyn_name c v).
Proof.
apply: calm_bind => [s h|_ s h]; first by rewrite /tick; case: (s_fuel s) => [[|k]|].
rewrite /mbind /mdb; case: ifP => _ //; case: (lookup _ dyn_name) => [u|] //; case: ifP => _ //=.
by rewrite lookup_update_ne.
Qed.
Lemma calm_dyn k xy sd : calm (@insert_dynamics_from W dyn_name k xy sd).
Proof. by elim: xy k => [|[x y] xy IH] k //=; apply: calm_bind => [|_]; [apply: calm_insert | apply: IH]. Qed.
Lemma calm_settings cs xy : (forall c, List.In c cs -> has (matches t c) (trows t)) ->
  calm (settings build sweep metrics num_iter exp_name false cs xy).
Proof.
elim: cs => [|c cs IH] //= h; apply: calm_bind => [|_]; last by apply: IH => c' hc; apply: h; right.
by move=> s hl; rewrite /one_setting /exists_query /mbind /mdb hl /= (h c) //; left.
Qed.
Lemma unsaved seeds trans powers damps w d fuel td0 : lookup d dyn_name = Some td0 -> lookup d exp_name = Some t ->
  (forall sd c, sd \in seeds -> List.In c (product sd trans powers damps) -> has (matches t c) (trows t)) ->
  s_durable (main reseed simulate build sweep metrics num_iter dyn_name exp_name seeds trans powers damps false (start w d fuel)).1 = d.
Proof.
move=> hd he hm; rewrite /main /mbind /create_dynamics_table /create_experiment_table /start createE (addt_id _ _ hd).
case: ifP => // _; rewrite createE (addt_id _ _ he); case: ifP => // _.
set s := St w d d false _; rewrite -[RHS]/(s_durable s).
suff h : calm (full_sweep reseed simulate build sweep metrics num_iter dyn_name exp_name seeds trans powers damps false) by case: (h s he).
elim: seeds hm => [|sd sds IH] hm //=.
apply: calm_bind => [|_]; first exact: calm_world.
apply: calm_bind => [|xy]; first exact: calm_world.
apply: calm_bind => [|_]; first exact: calm_dyn.
case: xy => [|p xy] //; apply: calm_bind => [|_].
  by apply: calm_settings => c hc; apply: hm hc; rewrite inE eqxx.
by apply: IH => s' c hs; apply: hm; rewrite inE hs orbT.
Qed.
End Unsaved.
