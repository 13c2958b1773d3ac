(** * Which rows a run of the sweep can leave in the experiment table *)
Set Warnings "-notation-overridden,-ambiguous-paths".
From mathcomp Require Import all_ssreflect all_algebra.
From Coq Require Import String.
From Verif Require Import Base Database FullSweep SpecDb DatabaseFacts SweepFacts.
Set Implicit Arguments.
Unset Strict Implicit.
Unset Printing Implicit Defensive.
Import GRing.Theory.

Section Rows.
Variable W : Type.
Variable reseed : int -> W -> W.
Variable simulate : W -> W * res data.
Variable build : cfg -> data -> W -> W * res unit.
Variable sweep : W -> W * res unit.
Variable metrics : W -> W * res (val * val).
Variables (num_iter : nat) (dyn_name exp_name : string).
Hypothesis names : dyn_name != exp_name.
Variables (seeds : seq int) (trans : seq string) (powers damps : seq rat).
(** [I s w]: the world during the settings of seed [s] *)
Variables (I : int -> W -> Prop) (ok : row -> Prop).
Hypothesis I_sim : forall s w w' xy, simulate (reseed s w) = (w', Ok xy) -> I s w'.
Hypothesis I_build : forall s c xy w, I s w -> I s (build c xy w).1.
Hypothesis I_sweep : forall s w, I s w -> I s (sweep w).1.
Hypothesis I_metrics : forall s w, I s w -> I s (metrics w).1.
Hypothesis good : forall c xy w r, c_seed c \in seeds -> c_trans c \in trans -> c_power c \in powers -> c_damp c \in damps ->
  I (c_seed c) w -> r \in rows_of c (setting_logs build sweep metrics num_iter c xy w).1 -> ok r.

Definition okdb (d : db) : Prop := forall t, lookup d exp_name = Some t -> tcols t = exp_cols /\ forall r, r \in trows t -> ok r.
Definition trip A (P : W -> Prop) (m : M W A) (Q : A -> W -> Prop) : Prop := forall s, okdb (s_durable s) -> okdb (s_working s) -> P (s_w s) ->
  [/\ okdb (s_durable (m s).1), (m s).2 <> Died -> okdb (s_working (m s).1) & forall a, (m s).2 = Done a -> Q a (s_w (m s).1)].

Lemma trip_ret A (a : A) (P : W -> Prop) : trip P (mret a) (fun _ => P). Proof. by []. Qed.
Lemma trip_raise A e (P : W -> Prop) Q : trip P (@mraise W A e) Q. Proof. by []. Qed.
Lemma trip_bind A B P (m : M W A) Q (k : A -> M W B) S : trip P m Q -> (forall a, trip (Q a) (k a) S) -> trip P (mbind m k) S.
Proof.
move=> hm hk s h1 h2 h3; rewrite /mbind; have := hm s h1 h2 h3.
case: (m s) => s1 [a|e|] /= [h4 h5 h6].
- by apply: hk => //; [apply: h5 | apply: h6].
- by split=> // _; apply: h5.
- by split=> // /(_ erefl).
Qed.
Lemma trip_weak A (P P' : W -> Prop) (m : M W A) (Q Q' : A -> W -> Prop) : (forall w, P' w -> P w) -> (forall a w, Q a w -> Q' a w) ->
  trip P m Q -> trip P' m Q'.
Proof. by move=> hP hQ h s h1 h2 /hP h3; have [h4 h5 h6] := h s h1 h2 h3; split=> // a /h6/hQ. Qed.
Lemma trip_tick P : trip P (@tick W) (fun _ => P).
Proof. by move=> s h1 h2; rewrite /tick; case: (s_fuel s) => [[|k]|]. Qed.
Lemma trip_insert P c v : trip P (@insert W dyn_name c v) (fun _ => P).
Proof.
apply: trip_bind (@trip_tick P) _.
move=> _ s h1 h2 h3; rewrite /mbind /mdb; case: ifP => _ //; case: (lookup _ dyn_name) => [t|] //; case: ifP => _ //=.
by split=> // _ t'; rewrite lookup_update_ne //; apply: h2.
Qed.
Lemma trip_dyn P t xy sd : trip P (@insert_dynamics_from W dyn_name t xy sd) (fun _ => P).
Proof.
elim: xy t => [|[x y] xy IH] t /=; first exact: trip_ret.
by apply: trip_bind (@trip_insert P _ _) _ => _; apply: IH.
Qed.
Lemma trip_create P n c k : (n = exp_name -> c = exp_cols) -> trip P (@create_table W n c k) (fun _ => P).
Proof.
move=> hn; apply: trip_bind (@trip_tick P) _.
move=> _ s h1 h2 h3; case hl: (lookup _ _) => [t|] //=.
have h4 : okdb (rcons (s_working s) (n, Table c k [::])).
  move=> t; rewrite lookup_rcons; case hl2: (lookup _ exp_name) => [t'|]; first by move=> [<-]; apply: h2.
  by case: eqP => // e [<-]; split=> //; apply: hn.
by split=> //; case: ifP.
Qed.
Lemma in_insert_all t rs r : r \in trows (insert_all t rs) -> r \in trows t \/ r \in rs.
Proof.
elim: rs t => [|r' rs IH] t /=; first by left.
case/IH; last by right; rewrite inE orbC; apply/orP; left.
rewrite /insert_ignore; case: ifP => _ /=; first by left.
by rewrite mem_rcons inE => /orP [/eqP ->|]; [right; rewrite inE eqxx | left].
Qed.
Lemma okdb_update d t rs : lookup d exp_name = Some t -> okdb d -> (forall r, r \in rs -> ok r) ->
  okdb (update d exp_name (insert_all t rs)).
Proof.
move=> hl hd hr t'; rewrite (lookup_update _ hl) => -[<-]; have [h1 h2] := hd _ hl.
split; first by rewrite insert_all_cols.
by move=> r /in_insert_all [/h2|/hr].
Qed.
Lemma I_after s k w : I s w -> I s (after sweep metrics k w).
Proof.
elim: k w => //= k IH w h; have := I_sweep h; case: (sweep w) => w1 [u|e] //= h1.
by have := I_metrics h1; case: (metrics w1) => w2 [m|e] //=; apply: IH.
Qed.
Notation settled c := [/\ c_seed c \in seeds, c_trans c \in trans, c_power c \in powers & c_damp c \in damps].
Lemma power_rows c xy t s : settled c -> okdb (s_durable s) -> okdb (s_working s) -> I (c_seed c) (s_w s) ->
  lookup (s_working s) exp_name = Some t ->
  let m := power_sweep build sweep metrics num_iter exp_name c xy in
  [/\ okdb (s_durable (m s).1), (m s).2 <> Died -> okdb (s_working (m s).1) & (m s).2 <> Died -> I (c_seed c) (s_w (m s).1)].
Proof.
move=> [g1 g2 g3 g4] h1 h2 hI hl m; rewrite /m /power_sweep /mbind /mworld.
have gd r := @good c xy _ r g1 g2 g3 g4 hI; have hb' := @I_build _ c xy _ hI.
case hb: (build c xy (s_w s)) gd hb' => [w1 [[]|er]] gd hb' //.
set s1 := St _ _ _ _ _.
have -> : ep_iterations sweep metrics num_iter true (exp_data c) exp_name s1 =
  ep_loop sweep metrics num_iter true exp_name
    (stdd (VText (c_trans c)) (seed_val (c_seed c)) 0 (VNum (c_power c)) (VNum (c_damp c)) (VNum 0) (VNum 0) (VNum 0) (VNum 0)) s1 by [].
have hl1 : lookup (s_working s1) exp_name = Some t by [].
have := loop_run sweep metrics num_iter (VText (c_trans c)) (seed_val (c_seed c)) 0 (VNum (c_power c)) (VNum (c_damp c)) (VNum 0) (VNum 0) (VNum 0) (VNum 0) hl1 (h2 _ hl).1.
have : forall r, r \in log_rows (VText (c_trans c)) (seed_val (c_seed c)) (VNum (c_power c)) (VNum (c_damp c)) 0
  (logs sweep metrics num_iter (s_w s1)).1 -> ok r.
  by move=> r hr; apply: gd; rewrite /setting_logs hb.
have := I_after num_iter hb'; rewrite -[w1]/(s_w s1).
rewrite /logged; move: (after _ _ _ _) => w' hw'; move: (log_rows _ _ _ _ _ _) => rows hr; move: (ep_loop _ _ _ _ _ _ _) => r.
have hT j : forall r, r \in take j rows -> ok r by move=> r' /mem_take /hr.
case: ifP => _.
  case=> -> ->; split; last 2 first; try by move=> /(_ erefl).
  by case: (_./2) => [|j] //; apply: (okdb_update hl h2 (hT _)).
by move=> -> /=; split=> //; [case: ifP => _ //|]; try (move=> _); apply: (okdb_update hl h2 hr).
Qed.
Lemma trip_setting o c xy : settled c -> trip (I (c_seed c)) (one_setting build sweep metrics num_iter exp_name o c xy) (fun _ => I (c_seed c)).
Proof.
move=> hc s h1 h2 h3; rewrite /one_setting /exists_query /mbind /mdb.
case hl: (lookup (s_working s) exp_name) => [t|] //=.
case: ifP => _ //; have [h4 h5 h6] := power_rows xy hc h1 h2 h3 hl; rewrite /catch_linalg /=.
case: (power_sweep _ _ _ _ _ _ _ _) h4 h5 h6 => s1 [u|e|] /= h4 h5 h6; [by split=> // a _; apply: h6| |by []].
have nd : Raised e <> @Died unit by [].
by move: (h5 nd) (h6 nd); case: e {h5 h6 nd} => h5 h6; split.
Qed.
Lemma trip_settings o sd cs xy : (forall c, List.In c cs -> settled c /\ c_seed c = sd) ->
  trip (I sd) (settings build sweep metrics num_iter exp_name o cs xy) (fun _ => I sd).
Proof.
elim: cs => [|c cs IH] h /=; first exact: trip_ret.
have [h1 e1] := h c (or_introl erefl).
apply: (@trip_bind _ _ _ _ (fun _ => I sd)) => [|_]; first by have := @trip_setting o c xy h1; rewrite e1.
by apply: IH => x hx; apply: h; right.
Qed.
Lemma product_settled sd c : sd \in seeds -> List.In c (product sd trans powers damps) -> settled c /\ c_seed c = sd.
Proof.
move=> hs; rewrite /product => hc.
have {hc} : exists t pd, [/\ t \in trans, pd \in [seq (p, d) | p <- powers, d <- damps] & c = Cfg sd t pd.1 pd.2].
  have mapin (A B : Type) (f : A -> B) l b : List.In b (map f l) -> exists2 a, List.In a l & b = f a.
    by elim: l => //= a l IH [<-|/IH [a' h ->]]; [exists a => //; left | exists a' => //; right].
  have inm (A : eqType) (l : seq A) a : List.In a l -> a \in l by elim: l => //= b l IH [->|/IH h]; rewrite inE ?eqxx // h orbT.
  elim: (trans) hc => //= t ts IH; rewrite List.in_app_iff => -[h|/IH [t' [pd [h1 h2 ->]]]]; first have [pd /inm hp ->] := mapin _ _ _ _ _ h.
    by exists t, pd; rewrite inE eqxx.
  by exists t', pd; rewrite inE h1 orbT.
by case=> t [[p d] [ht /allpairsP [[p' d'] /= [hp hd [-> ->]]] ->]]; split.
Qed.
Lemma trip_main o : trip (fun _ => True) (main reseed simulate build sweep metrics num_iter dyn_name exp_name seeds trans powers damps o) (fun _ _ => True).
Proof.
apply: (@trip_bind _ _ _ _ (fun _ _ => True)) => [|_]; first by apply: (@trip_create (fun=> True)) => e; move: names; rewrite e eqxx.
apply: (@trip_bind _ _ _ _ (fun _ _ => True)) => [|_]; first exact: (@trip_create (fun=> True)).
have : forall l, {subset l <= seeds} -> trip (fun _ => True) (full_sweep reseed simulate build sweep metrics num_iter dyn_name exp_name l trans powers damps o) (fun _ _ => True).
  elim=> [|sd sds IH] hl /=; first exact: (@trip_ret _ _ (fun=> True)).
  have hs : sd \in seeds by apply: hl; rewrite inE eqxx.
  apply: (@trip_bind _ _ _ _ (fun _ w => exists w0, w = reseed sd w0)) => [|_].
    by move=> s h1 h2 _; rewrite /mworld /=; split=> // _ _; exists (s_w s).
  apply: (@trip_bind _ _ _ _ (fun _ => I sd)) => [|xy].
    move=> s h1 h2 [w0 e]; rewrite /mworld e; have := @I_sim sd w0; case: (simulate _) => w' [xy|er] h; split=> //= a [_].
    exact: h erefl.
  apply: (@trip_bind _ _ _ _ (fun _ => I sd)) => [|_]; first exact: (@trip_dyn (I sd)).
  case: xy => [|p xy]; first exact: trip_raise.
  apply: (@trip_bind _ _ _ _ (fun _ => I sd)) => [|_].
    by apply: trip_settings => c; apply: product_settled.
  by apply: trip_weak (IH _) => // x hx; apply: hl; rewrite inE hx orbT.
by apply.
Qed.
Lemma main_rows o w d fuel : okdb d ->
  okdb (s_durable (main reseed simulate build sweep metrics num_iter dyn_name exp_name seeds trans powers damps o (start w d fuel)).1).
Proof. by move=> h; have [] := trip_main o (s := start w d fuel) h h Logic.I. Qed.
End Rows.
