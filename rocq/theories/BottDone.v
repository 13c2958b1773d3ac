(** * A sweep of EP_Sweep_BearingsOnly.py whose only failures are numerical ones completes *)
Set Warnings "-notation-overridden,-ambiguous-paths".
From mathcomp Require Import all_ssreflect all_algebra.
From Coq Require Import String.
From Verif Require Import Base Database FullSweep SpecDb DatabaseFacts SweepFacts Scripts SpecScripts ScriptsFacts ScriptsRun BottSweep BottSweepFacts.
Set Implicit Arguments.
Unset Strict Implicit.
Unset Printing Implicit Defensive.
Import GRing.Theory.
Local Open Scope string_scope.
Local Open Scope ring_scope.

Section Alive.
Variable W : Type.
(** a process that is not killed stays alive *)
Definition alive A (m : M W A) : Prop := forall s, s_fuel s = None -> s_fuel (m s).1 = None.
Lemma alive_bind A B (m : M W A) (k : A -> M W B) : alive m -> (forall a, alive (k a)) -> alive (mbind m k).
Proof. by move=> h1 h2 s hs; have := h1 s hs; rewrite /mbind; case: (m s) => s' [a|e|] //= h; apply: h2. Qed.
Lemma alive_tick : alive (@tick W). Proof. by move=> s h; rewrite /tick h. Qed.
Lemma alive_world A (f : W -> W * res A) : alive (mworld f).
Proof. by move=> s h; rewrite /mworld; case: (f _). Qed.
Lemma alive_insert n cols vals : alive (@insert W n cols vals).
Proof.
apply: alive_bind alive_tick _ => _; apply: alive_bind => // d.
case: ifP => _; first by []. case: (lookup d n) => [t|]; last by []. by case: ifP => _.
Qed.
Lemma alive_commit : alive (@commit W).
Proof. by apply: alive_bind => [|_ s]; first exact: alive_tick. Qed.
Lemma alive_losses name d l : alive (insert_losses (W := W) name d l).
Proof.
elim: l d => [|[k v] l IH] d /=; first by move=> s.
by apply: alive_bind => [|_]; [exact: alive_insert | exact: IH].
Qed.
Lemma alive_loop sweep metrics k lg name d : alive (bott_loop (W := W) sweep metrics k lg name d).
Proof.
elim: k d => [|k IH] d /=; first by move=> s.
apply: alive_bind => [|_]; first exact: alive_world.
case: lg IH => IH; last exact: IH.
apply: alive_bind => [|d1]; first by move=> s.
apply: alive_bind => [|[[a b] c]]; first exact: alive_world.
apply: alive_bind => [|d2]; first exact: (@alive_losses name d1 [:: ("position", a); ("velocity", b); ("angle", c)]).
by apply: alive_bind => [|_]; [exact: alive_commit | exact: IH].
Qed.
Lemma alive_sweep sweep metrics b n tr sd pw dp name : alive (bott_sweep (W := W) sweep metrics b n tr sd pw dp name).
Proof. by apply: alive_bind => [|_]; [exact: alive_world | exact: alive_loop]. Qed.
End Alive.

Section Done.
Variable W : Type.
Variable reseed : int -> W -> W.
Variable simulate : W -> W * res data.
Variable build : cfg -> data -> W -> W * res unit.
Variable sweep : W -> W * res unit.
Variable metrics : W -> W * res ((val * val) * (val * val) * (val * val)).
Variables (num_iter : nat) (dyn_name exp_name : string).
Hypothesis names : dyn_name != exp_name.
Hypothesis sim : forall w, exists w' p xy, simulate w = (w', Ok (p :: xy)).
Hypothesis hb : forall c xy w e, (build c xy w).2 = Err e -> e = LinAlgErr.
Hypothesis hs : forall w e, (sweep w).2 = Err e -> e = LinAlgErr.
Hypothesis hm : forall w e, (metrics w).2 = Err e -> e = LinAlgErr.
Definition set_up (s : st W) : Prop := [/\ s_fuel s = None,
  exists2 t, lookup (s_working s) dyn_name = Some t & tcols t = dyn_cols & exists2 t, lookup (s_working s) exp_name = Some t & tcols t = bott_cols].
Definition works (m : M W unit) : Prop := forall s, set_up s -> set_up (m s).1 /\ (m s).2 = Done tt.
Lemma works_bind (m : M W unit) k : works m -> works (k tt) -> works (mbind m k).
Proof. by move=> h1 h2 s /h1; rewrite /mbind; case: (m s) => s1 o /= [h ->]; apply: h2. Qed.
Lemma works_dyn t xy sd : works (insert_dynamics_from dyn_name t xy sd).
Proof.
elim: xy t => [|[x y] xy IH] t //=; apply: works_bind (IH _) => s [f [t1 h1 c1] [t2 h2 c2]].
rewrite (insertE (t := t1)) // f /=; split=> //; split=> //=.
  by exists (insert_ignore t1 [:: sd; VNum t%:R; x; y]); [apply: lookup_update h1 | rewrite ins_cols].
by exists t2; rewrite // lookup_update_ne.
Qed.
Lemma trace_err k w e : (trace sweep metrics k w).2 = Some e -> e = LinAlgErr.
Proof.
elim: k w => //= k IH w; case h1: (sweep w) => [w1 [u|e1]] /=; last by move=> [<-]; apply: (hs (w := w)); rewrite h1.
case h2: (metrics w1) => [w2 [m|e2]] /=; last by move=> [<-]; apply: (hm (w := w1)); rewrite h2.
exact: IH.
Qed.
Lemma works_setting o c xy : works (bott_setting build sweep metrics num_iter exp_name o c xy).
Proof.
move=> s hr; have [f [t1 h1 c1] [t2 h2 c2]] := hr.
rewrite /bott_setting /exists_query /mbind /mdb h2 /mret /catch_linalg.
case: ifP => _ //.
have hf := alive_sweep sweep metrics (build c xy) num_iter (c_trans c) (c_seed c) (c_power c) (c_damp c) exp_name f.
have := sweepE sweep metrics num_iter (build c xy) (c_trans c) (c_seed c) (c_power c) (c_damp c) h2 c2.
cbv zeta; rewrite f; move: hf; case: (bott_sweep _ _ _ _ _ _ _ _ _ _) => s1 o1 /= f1.
case eb: (build c xy (s_w s)) => [w1 [[]|er]] /=; last first.
  have -> : er = LinAlgErr by apply: (hb (c := c) (xy := xy) (w := s_w s)); rewrite eb.
  by move=> [-> [hw _]]; split=> //; split=> //; rewrite hw; [exists t1 | exists t2].
move=> [ho hw _]; have R : set_up s1.
  split=> //; rewrite hw; first by exists t1; rewrite // lookup_update_ne // eq_sym.
  eexists; first exact: lookup_update h2.
  by rewrite insert_all_cols.
rewrite ho; case el: (trace _ _ _ _).2 => [e|] /=; last by split.
by rewrite (trace_err el).
Qed.
Lemma works_full o seeds trans powers damps : works (bott_full_sweep reseed simulate build sweep metrics num_iter dyn_name exp_name seeds trans powers damps o).
Proof.
elim: seeds => [|sd sds IH] //=; apply: works_bind.
  by move=> s [f h1 h2]; split.
move=> s hr; rewrite /mbind /mworld; have [w' [p [xy ->]]] := sim (s_w s).
set s1 := St _ _ _ _ _; have hr1 : set_up s1 by case: hr.
have := works_dyn 0 (p :: xy) (seed_val sd) hr1; rewrite /insert_dynamics_data; case: (insert_dynamics_from _ _ _ _ _) => s2 o2 /= [hr2 ->].
have : works (foreach (fun c => bott_setting build sweep metrics num_iter exp_name o c (p :: xy)) (product sd trans powers damps)).
  elim: (product _ _ _ _) => [|c cs IHc] //=; apply: works_bind IHc; exact: works_setting.
by move=> /(_ _ hr2); case: (foreach _ _ _) => s3 o3 /= [hr3 ->]; apply: IH.
Qed.
Lemma bott_done o seeds trans powers damps w d :
  (forall t, lookup d dyn_name = Some t -> tcols t = dyn_cols) -> (forall t, lookup d exp_name = Some t -> tcols t = bott_cols) ->
  (bott_main reseed simulate build sweep metrics num_iter dyn_name exp_name seeds trans powers damps o (start w d None)).2 = Done tt.
Proof.
move=> sch1 sch2; rewrite /bott_main /mbind /create_dynamics_table /create_bott_table /start createE /= createE /=.
set s := St _ _ _ _ _; suff hr : set_up s by have [] := works_full o seeds trans powers damps hr.
have [t1 [h1 c1]] := addt_lookup d dyn_name dyn_cols [:: "Seed"; "t"]%string.
have [t2 [h2 c2]] := addt_lookup (addt d dyn_name dyn_cols [:: "Seed"; "t"]%string) exp_name bott_cols bott_key.
split=> //=.
  exists t1; first by rewrite addt_ne // eq_sym.
  by case: c1 => [/sch1 //|[_ ->]].
exists t2 => //; case: c2 => [|[_ ->]] //; by rewrite addt_ne // => /sch2.
Qed.
End Done.
