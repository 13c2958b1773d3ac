(** * Proofs about tables, connections and the iteration log *)
Set Warnings "-notation-overridden,-ambiguous-paths".
From mathcomp Require Import all_ssreflect all_algebra.
From Coq Require Import String.
From Verif Require Import Base Database FullSweep SpecDb.
Set Implicit Arguments.
Unset Strict Implicit.
Unset Printing Implicit Defensive.
Import GRing.Theory.

(** ** tables *)
Section Tables.
Implicit Types (t : table) (r : row).
Definition present t (k : seq val) : bool := (VNull \notin k) && (k \in map (keyof t) (trows t)).

Lemma has_conflict t r : has (conflict t r) (trows t) = present t (keyof t r).
Proof.
rewrite /present; case: (boolP (VNull \in keyof t r)) => hn /=.
  by apply/negbTE/hasPn => r' _; rewrite /conflict hn andbF.
apply/hasP/mapP=> -[r' hr]; first by case/andP=> /eqP e _; exists r'.
by move=> e; exists r' => //; rewrite /conflict e eqxx -e.
Qed.

Lemma ins_id t r : present t (keyof t r) -> insert_ignore t r = t.
Proof. by rewrite /insert_ignore has_conflict => ->. Qed.

Lemma keyof_cols t t' r : tcols t = tcols t' -> tkey t = tkey t' -> keyof t r = keyof t' r.
Proof. by rewrite /keyof /cell => -> ->. Qed.

Lemma ins_cols t r : tcols (insert_ignore t r) = tcols t.
Proof. by rewrite /insert_ignore; case: ifP. Qed.
Lemma ins_key t r : tkey (insert_ignore t r) = tkey t.
Proof. by rewrite /insert_ignore; case: ifP. Qed.
Lemma keyof_ins t r r' : keyof (insert_ignore t r) r' = keyof t r'.
Proof. by apply: keyof_cols; rewrite ?ins_cols ?ins_key. Qed.
Lemma ins_rows t r : exists new, trows (insert_ignore t r) = trows t ++ new.
Proof.
rewrite /insert_ignore; case: ifP => _; first by exists [::]; rewrite cats0.
by exists [:: r]; rewrite cats1.
Qed.

Lemma map_keyof_ins t r : map (keyof (insert_ignore t r)) (trows (insert_ignore t r)) = map (keyof t) (trows (insert_ignore t r)).
Proof. by apply: eq_map => r'; rewrite keyof_ins. Qed.

Lemma ins_present t r : VNull \notin keyof t r -> present (insert_ignore t r) (keyof t r).
Proof.
move=> hn; rewrite /present hn map_keyof_ins /=.
rewrite /insert_ignore has_conflict; case: ifP => [/andP [_ ->] //|_].
by rewrite map_rcons mem_rcons inE eqxx.
Qed.

Lemma ins_mono t r k : present t k -> present (insert_ignore t r) k.
Proof.
rewrite /present map_keyof_ins => /andP [-> hk] /=.
by case: (ins_rows t r) => new ->; rewrite map_cat mem_cat hk.
Qed.

Lemma ins_unique t r : unique_keys t -> unique_keys (insert_ignore t r).
Proof.
rewrite /unique_keys map_keyof_ins /insert_ignore has_conflict /present => u.
case: ifP => //= /negbT; rewrite negb_and negbK => hp.
rewrite map_rcons filter_rcons; case: ifP => // hn.
rewrite rcons_uniq u andbT mem_filter hn /=.
by move: hp; rewrite (negbTE hn).
Qed.

Lemma insert_all_cols t rs : tcols (insert_all t rs) = tcols t.
Proof. by elim: rs t => //= r rs IH t; rewrite [LHS]IH ins_cols. Qed.
Lemma insert_all_key t rs : tkey (insert_all t rs) = tkey t.
Proof. by elim: rs t => //= r rs IH t; rewrite [LHS]IH ins_key. Qed.
Lemma keyof_all t rs r' : keyof (insert_all t rs) r' = keyof t r'.
Proof. by apply: keyof_cols; rewrite ?insert_all_cols ?insert_all_key. Qed.
Lemma all_mono t rs k : present t k -> present (insert_all t rs) k.
Proof. by elim: rs t => //= r rs IH t h; apply: IH; apply: ins_mono. Qed.
Lemma all_rows t rs : exists new, trows (insert_all t rs) = trows t ++ new.
Proof.
elim: rs t => [|r rs IH] t; first by exists [::]; rewrite cats0.
rewrite /=; case: (IH (insert_ignore t r)) => n1 ->; case: (ins_rows t r) => n2 ->.
by exists (n2 ++ n1); rewrite catA.
Qed.
Lemma all_present t rs r : r \in rs -> VNull \notin keyof t r -> present (insert_all t rs) (keyof t r).
Proof.
elim: rs t => //= r' rs IH t; rewrite inE => /orP [/eqP <-|hr] hn; first by apply: all_mono; apply: ins_present.
by rewrite -(keyof_ins t r'); apply: IH => //; rewrite keyof_ins.
Qed.
Lemma all_id t rs : (forall r, r \in rs -> present t (keyof t r)) -> insert_all t rs = t.
Proof.
elim: rs => //= r rs IH h; rewrite ins_id; last by apply: h; rewrite inE eqxx.
by apply: IH => r' hr; apply: h; rewrite inE hr orbT.
Qed.
Lemma all_unique t rs : unique_keys t -> unique_keys (insert_all t rs).
Proof. by elim: rs t => //= r rs IH t u; apply: IH; apply: ins_unique. Qed.
Lemma insert_all_cat t a b : insert_all t (a ++ b) = insert_all (insert_all t a) b.
Proof. by rewrite /insert_all foldl_cat. Qed.
End Tables.

(** ** databases *)
Section Db.
Implicit Types (d : db).
Lemma lookup_update d n t t' : lookup d n = Some t -> lookup (update d n t') n = Some t'.
Proof. by elim: d => //= p d IH; case: ifP => [_ _|h]; rewrite /= ?eqxx // h. Qed.
Lemma lookup_update_ne d n n' t : n != n' -> lookup (update d n t) n' = lookup d n'.
Proof.
move=> ne; elim: d => //= p d IH; case: ifP => [/eqP ->|h] /=; first by rewrite (negbTE ne).
by rewrite IH.
Qed.
Lemma update_update d n t t' : update (update d n t) n t' = update d n t'.
Proof. by elim: d => //= p d IH; case: ifP => h /=; rewrite ?eqxx // h IH. Qed.
Lemma update_same d n t : lookup d n = Some t -> update d n t = d.
Proof. by elim: d => //= -[m u] d IH /=; case: eqP => [-> [->] //|_ /IH ->]. Qed.
Lemma update_comm d n n' t t' : n != n' -> update (update d n t) n' t' = update (update d n' t') n t.
Proof.
move=> ne; elim: d => //= p d IH; case: (eqVneq p.1 n) => [e|h] /=.
  by rewrite e !(negbTE ne) /= e eqxx.
case: (eqVneq p.1 n') => [e'|h'] /=; first by rewrite eq_sym (negbTE ne).
by rewrite (negbTE h) IH.
Qed.
Lemma lookup_rcons d n n' t : lookup (rcons d (n, t)) n' =
  if lookup d n' is Some u then Some u else if n == n' then Some t else None.
Proof. by elim: d => //= p d IH; case: ifP. Qed.

Lemma grown_refl d : grown d d.
Proof. by move=> n t h; exists [::]; rewrite cats0 h; case: t h. Qed.
Lemma grown_trans d1 d2 d3 : grown d1 d2 -> grown d2 d3 -> grown d1 d3.
Proof. by move=> h1 h2 n t /h1 [n1 /h2 /= [n2 h]]; exists (n1 ++ n2); rewrite h -catA. Qed.
Lemma grown_update d n t r : lookup d n = Some t -> grown d (update d n (insert_ignore t r)).
Proof.
move=> h m u hu; case: (eqVneq n m) => [e|ne]; last by exists [::]; rewrite (lookup_update_ne _ _ ne) cats0 hu; case: u {hu}.
subst m; rewrite h in hu; case: hu => <-; rewrite (lookup_update _ h).
case: (ins_rows t r) => new e; exists new; rewrite -e -(ins_cols t r) -(ins_key t r).
by case: (insert_ignore t r).
Qed.
Lemma grown_rcons d n t : grown d (rcons d (n, t)).
Proof. by move=> m u h; exists [::]; rewrite lookup_rcons h cats0; case: u {h}. Qed.
End Db.

(** ** stored rows stay *)
Section Safe.
Variable W : Type.
Notation M := (M W).
Definition consistent (s : st W) : Prop := grown (s_durable s) (s_working s).
Definition safe A (m : M A) : Prop := forall s, consistent s ->
  [/\ grown (s_durable s) (s_durable (m s).1), grown (s_working s) (s_working (m s).1) & consistent (m s).1].

Lemma safe_ret A (a : A) : safe (mret a).
Proof. by move=> s h; split=> //; apply: grown_refl. Qed.
Lemma safe_raise A e : safe (@mraise W A e).
Proof. by move=> s h; split=> //; apply: grown_refl. Qed.
Lemma safe_lift A (r : res A) : safe (@mlift W A r).
Proof. by move=> s h; split=> //; apply: grown_refl. Qed.
Lemma safe_world A (f : W -> W * res A) : safe (mworld f).
Proof. by move=> s h; rewrite /mworld; case: (f _) => w r; split=> //; apply: grown_refl. Qed.
Lemma safe_tick : safe (@tick W).
Proof. by move=> s h; rewrite /tick; case: (s_fuel s) => [[|k]|]; split=> //; apply: grown_refl. Qed.
Lemma safe_bind A B (m : M A) (k : A -> M B) : safe m -> (forall a, safe (k a)) -> safe (mbind m k).
Proof.
move=> hm hk s h; rewrite /mbind; case: (hm s h); case: (m s) => s' [a|e|] /= h1 h2 h3 //.
by case: (hk a s' h3) => h4 h5 h6; split=> //; [apply: grown_trans h1 h4 | apply: grown_trans h2 h5].
Qed.
Lemma safe_db A (k : db -> M A) : (forall s, consistent s ->
  [/\ grown (s_durable s) (s_durable (k (s_working s) s).1), grown (s_working s) (s_working (k (s_working s) s).1)
    & consistent (k (s_working s) s).1]) -> safe (mbind (@mdb W) k).
Proof. by move=> h s hs; apply: h. Qed.
Lemma safe_commit : safe (@commit W).
Proof.
apply: safe_bind; first exact: safe_tick.
by move=> _ s h; split=> //=; apply: grown_refl.
Qed.
Lemma safe_create n c k : safe (@create_table W n c k).
Proof.
apply: safe_bind; first exact: safe_tick.
move=> _ s h; case: (lookup _ _) => [t|] /=; first by split=> //; apply: grown_refl.
have g : grown (s_working s) (rcons (s_working s) (n, Table c k [::])) by exact: grown_rcons.
rewrite /consistent /=; case: (s_intx s); split=> //; try exact: grown_refl; try exact: grown_trans h g.
Qed.
Lemma safe_insert n c v : safe (@insert W n c v).
Proof.
apply: safe_bind; first exact: safe_tick.
move=> _; apply: safe_db => s h; case: ifP => _; first by split=> //; apply: grown_refl.
case hl: (lookup _ _) => [t|]; last by split=> //; apply: grown_refl.
case: ifP => _; last by split=> //; apply: grown_refl.
rewrite /=; set r := [seq _ | _ <- _].
split=> /=; [exact: grown_refl | exact: grown_update | apply: grown_trans h _; exact: grown_update].
Qed.
Lemma safe_loop sweep metrics k b n d : safe (@ep_loop W sweep metrics k b n d).
Proof.
elim: k d => [|k IH] d /=; first exact: safe_ret.
apply: safe_bind; first exact: safe_world.
move=> _; case: b IH => IH; last exact: IH.
apply: safe_bind; first exact: safe_lift.
move=> d1; apply: safe_bind; first exact: safe_world.
move=> m; apply: safe_bind; first exact: safe_insert.
by move=> _; apply: safe_bind; first exact: safe_commit.
Qed.
Lemma safe_iterations sweep metrics k b d n : safe (@ep_iterations W sweep metrics k b d n).
Proof. by rewrite /ep_iterations; case: ifP => _; [apply: safe_loop | apply: safe_raise]. Qed.

Lemma safe_dynamics n t xy sd : safe (@insert_dynamics_from W n t xy sd).
Proof.
elim: xy t => [|[x y] xy IH] t /=; first exact: safe_ret.
by apply: safe_bind => [|_]; [apply: safe_insert | apply: IH].
Qed.
End Safe.

(** ** running the loop *)
Section Run.
Variable W : Type.
Notation M := (M W).
Notation st := (st W).

(** one write less to live *)
Definition dec (f : option nat) : option nat := omap predn f.
Definition dead (f : option nat) (k : nat) : bool := if f is Some f then (f < k)%N else false.

Lemma insertE n cols t vals (s : st) : lookup (s_working s) n = Some t -> tcols t = cols -> size vals = size cols -> uniq cols ->
  insert n cols vals s =
  if dead (s_fuel s) 1 then (s, Died)
  else (St (s_w s) (s_durable s) (update (s_working s) n (insert_ignore t vals)) true (dec (s_fuel s)), Done tt).
Proof.
move=> hl hc hs hu; have hv : [seq nth VNull vals (seq.index c cols) | c <- tcols t] = vals.
  rewrite hc; apply: (@eq_from_nth _ VNull); rewrite size_map // => i hi.
  by rewrite (nth_map EmptyString) // index_uniq.
rewrite /insert /mbind /tick; case: s hl => w d wk tx [[|f]|] /= hl //.
- by rewrite /mdb /= hs eqxx /= hl hv hc; have -> : all (mem cols) cols by apply/allP.
- by rewrite /mdb /= hs eqxx /= hl hv hc; have -> : all (mem cols) cols by apply/allP.
Qed.

Lemma commitE (s : st) : commit s =
  if dead (s_fuel s) 1 then (s, Died)
  else (St (s_w s) (s_working s) (s_working s) false (dec (s_fuel s)), Done tt).
Proof. by rewrite /commit /mbind /tick; case: s => w d wk tx [[|f]|]. Qed.

Variable sweep : W -> W * res unit.
Variable metrics : W -> W * res (val * val).

(** the world left by the sweeps *)
Fixpoint after (k : nat) (w : W) : W :=
  if k is k'.+1 then
    match sweep w with
    | (w1, Err e) => w1
    | (w1, Ok _) => match metrics w1 with (w2, Err e) => w2 | (w2, Ok m) => after k' w2 end
    end
  else w.

Definition minus (f : option nat) (k : nat) : option nat := omap (subn^~ k) f.

(** the effect of logging [rows] one by one with a commit after each *)
Definition logged (n : string) (t : table) (rows : seq row) (e : option err) (w' : W) (s : st) (r : st * out unit) : Prop :=
  if dead (s_fuel s) (size rows).*2 then
    r.2 = Died /\
    s_durable r.1 = (if (odflt 0 (s_fuel s))./2 is j.+1 then update (s_working s) n (insert_all t (take j.+1 rows)) else s_durable s)
  else r = (St w' (if nilp rows then s_durable s else update (s_working s) n (insert_all t rows))
              (update (s_working s) n (insert_all t rows)) (if nilp rows then s_intx s else false)
              (minus (s_fuel s) (size rows).*2), outcome e).

Definition stdd tr sd q pw dp a b c e : dict := zip exp_cols [:: tr; sd; VNum q; pw; dp; a; b; c; e].
Lemma incr_std tr sd q pw dp a b c e : incr (stdd tr sd q pw dp a b c e) = Ok (stdd tr sd (q + 1)%R pw dp a b c e).
Proof. by []. Qed.
Lemma set_std tr sd q pw dp a b c e x y : dset (dset (dset (dset (stdd tr sd q pw dp a b c e) "RMSE" x) "NLL" y) "Mean" empty_list) "Variance" empty_list
  = stdd tr sd q pw dp x y empty_list empty_list.
Proof. by []. Qed.
Lemma values_std tr sd q pw dp a b c e : dvalues (stdd tr sd q pw dp a b c e) = [:: tr; sd; VNum q; pw; dp; a; b; c; e].
Proof. by []. Qed.

Lemma loopS k name d (s : st) : ep_loop sweep metrics k.+1 true name d s =
  match sweep (s_w s) with
  | (w1, Err e) => (St w1 (s_durable s) (s_working s) (s_intx s) (s_fuel s), Raised e)
  | (w1, Ok _) =>
      mbind (mlift (incr d)) (fun d => mbind (mworld metrics) (fun m =>
      let d := dset (dset (dset (dset d "RMSE" m.1) "NLL" m.2) "Mean" empty_list) "Variance" empty_list in
      mbind (insert_experiment_data name d) (fun _ =>
      mbind (@commit W) (fun _ => ep_loop sweep metrics k true name d))))
      (St w1 (s_durable s) (s_working s) (s_intx s) (s_fuel s))
  end.
Proof. by rewrite /= {1}/mbind /mworld; case: (sweep _) => w1 [[]|e]. Qed.

Lemma loop_run k name t tr sd q pw dp a b c e (s : st) :
  lookup (s_working s) name = Some t -> tcols t = exp_cols ->
  logged name t (log_rows tr sd pw dp q (logs sweep metrics k (s_w s)).1) (logs sweep metrics k (s_w s)).2 (after k (s_w s)) s
    (ep_loop sweep metrics k true name (stdd tr sd q pw dp a b c e) s).
Proof.
elim: k q a b c e t s => [|k IH] q a b c e t s hl hc.
  rewrite /logged /= /dead /minus; case: s hl => w d wk tx [f|] /= hl; rewrite (update_same hl) //=.
  by rewrite subn0.
rewrite loopS; case hs: (sweep (s_w s)) => [w1 [[]|er]]; last first.
  rewrite /logged /= hs /= /dead /minus; case: s hl hs => w d wk tx [f|] /= hl hs; rewrite (update_same hl) //=.
  by rewrite subn0.
rewrite incr_std /mbind /mlift /mworld /=.
case hm: (metrics w1) => [w2 [m|er]]; last first.
  rewrite /logged /= hs hm /= /dead /minus; case: s hl hs => w d wk tx [f|] /= hl hs; rewrite (update_same hl) //=.
  by rewrite subn0.
rewrite set_std /insert_experiment_data values_std.
case: m hm => m1 m2 hm; rewrite /= hs hm /=.
set row := [:: tr; sd; VNum (q + 1)%R; pw; dp; m1; m2; empty_list; empty_list].
rewrite (insertE (t := t)) //=.
have hl' : lookup (update (s_working s) name (insert_ignore t row)) name = Some (insert_ignore t row) by apply: lookup_update hl.
have hc' : tcols (insert_ignore t row) = exp_cols by rewrite ins_cols.
have H fu := IH (q + 1)%R m1 m2 empty_list empty_list _ (St w2 (update (s_working s) name (insert_ignore t row))
  (update (s_working s) name (insert_ignore t row)) false fu) hl' hc'.
move: H; move: (log_rows _ _ _ _ _ _) (after _ _) (logs _ _ _ _).2 (ep_loop _ _ _ _ _ _) => rows w' oe loop H.
case: s hl hs hl' H => w d wk tx [[|[|f]]|] /= hl hs hl' H; rewrite /logged //=.
- have := H (Some f); rewrite /logged /= doubleS !ltnS; case: ifP => hf.
    case=> -> ->; split=> //; case: f./2 => [|j] //=; first by rewrite take0.
    by rewrite update_update.
  rewrite update_update => ->; rewrite /minus /= !subSS; congr (St _ _ _ _ _, _); first by case: (rows).
  by case: (rows).
- have := H None; rewrite /logged /= => ->; rewrite update_update; congr (St _ _ _ _ _, _); first by case: (rows).
  by case: (rows).
Qed.
End Run.
