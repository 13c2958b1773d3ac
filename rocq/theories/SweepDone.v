(** * A sweep whose only failures are numerical ones completes *)
Set Warnings "-notation-overridden,-ambiguous-paths".
From mathcomp Require Import all_ssreflect all_algebra.
From Coq Require Import String.
From Verif Require Import Base Database FullSweep SpecDb DatabaseFacts SweepFacts.
Set Implicit Arguments.
Unset Strict Implicit.
Unset Printing Implicit Defensive.
Local Open Scope string_scope.

Section Done.
Variable W : Type.
Variable reseed : int -> W -> W.
Variable simulate : W -> W * res data.
Variable build : cfg -> data -> W -> W * res unit.
Variable sweep : W -> W * res unit.
Variable metrics : W -> W * res (val * val).
Variables (num_iter : nat) (dyn_name exp_name : string).
Hypothesis names : dyn_name != exp_name.
Hypothesis sim : forall w, exists w' p xy, simulate w = (w', Ok (p :: xy)).
Hypothesis hb : forall c xy w e, (build c xy w).2 = Err e -> e = LinAlgErr.
Hypothesis hs : forall w e, (sweep w).2 = Err e -> e = LinAlgErr.
Hypothesis hm : forall w e, (metrics w).2 = Err e -> e = LinAlgErr.
Definition ready (s : st W) : Prop := [/\ s_fuel s = None,
  exists2 t, lookup (s_working s) dyn_name = Some t & tcols t = dyn_cols & exists2 t, lookup (s_working s) exp_name = Some t & tcols t = exp_cols].
Definition fine (m : M W unit) : Prop := forall s, ready s -> ready (m s).1 /\ (m s).2 = Done tt.
Lemma fine_bind (m : M W unit) k : fine m -> fine (k tt) -> fine (mbind m k).
Proof. by move=> h1 h2 s /h1; rewrite /mbind; case: (m s) => s1 o /= [h ->]; apply: h2. Qed.
Lemma fine_dyn t xy sd : fine (insert_dynamics_from dyn_name t xy sd).
Proof.
elim: xy t => [|[x y] xy IH] t //=; apply: fine_bind (IH _) => s [f [t1 h1 c1] [t2 h2 c2]].
rewrite (insertE (t := t1)) // f /=; split=> //; split=> //=.
  by exists (insert_ignore t1 [:: sd; VNum t%:R; x; y]); [apply: lookup_update h1 | rewrite ins_cols].
by exists t2; rewrite // lookup_update_ne.
Qed.
Lemma logs_err k w e : (logs sweep metrics k w).2 = Some e -> e = LinAlgErr.
Proof.
elim: k w => //= k IH w; case h1: (sweep w) => [w1 [u|e1]] /=; last by move=> [<-]; apply: (hs (w := w)); rewrite h1.
case h2: (metrics w1) => [w2 [m|e2]] /=; last by move=> [<-]; apply: (hm (w := w1)); rewrite h2.
exact: IH.
Qed.
Lemma fine_setting o c xy : fine (one_setting build sweep metrics num_iter exp_name o c xy).
Proof.
move=> s hr; have [f [t1 h1 c1] [t2 h2 c2]] := hr.
rewrite /one_setting /exists_query /mbind /mdb h2 /mret /catch_linalg.
case: ifP => _ //; rewrite /power_sweep /mbind /mworld.
case he: (build c xy (s_w s)) => [w1 [[]|er]] /=; last first.
  by have -> : er = LinAlgErr by apply: (hb (c := c) (xy := xy) (w := s_w s)); rewrite he.
set s1 := St _ _ _ _ _.
have -> : ep_iterations sweep metrics num_iter true (exp_data c) exp_name s1 =
  ep_loop sweep metrics num_iter true exp_name
    (stdd (VText (c_trans c)) (seed_val (c_seed c)) 0 (VNum (c_power c)) (VNum (c_damp c)) (VNum 0) (VNum 0) (VNum 0) (VNum 0)) s1 by [].
have hl1 : lookup (s_working s1) exp_name = Some t2 by [].
have := loop_run sweep metrics num_iter (VText (c_trans c)) (seed_val (c_seed c)) 0 (VNum (c_power c)) (VNum (c_damp c)) (VNum 0) (VNum 0) (VNum 0) (VNum 0) hl1 c2.
rewrite /logged [s_fuel s1]/= f [dead _ _]/= => ->.
have R : ready (St (after sweep metrics num_iter w1)
  (if nilp (log_rows (VText (c_trans c)) (seed_val (c_seed c)) (VNum (c_power c)) (VNum (c_damp c)) 0 (logs sweep metrics num_iter (s_w s1)).1) then s_durable s1
   else update (s_working s1) exp_name (insert_all t2 (log_rows (VText (c_trans c)) (seed_val (c_seed c)) (VNum (c_power c)) (VNum (c_damp c)) 0 (logs sweep metrics num_iter (s_w s1)).1)))
  (update (s_working s1) exp_name (insert_all t2 (log_rows (VText (c_trans c)) (seed_val (c_seed c)) (VNum (c_power c)) (VNum (c_damp c)) 0 (logs sweep metrics num_iter (s_w s1)).1)))
  (if nilp (log_rows (VText (c_trans c)) (seed_val (c_seed c)) (VNum (c_power c)) (VNum (c_damp c)) 0 (logs sweep metrics num_iter (s_w s1)).1) then s_intx s1 else false) None).
  split=> //=; first by exists t1; rewrite // lookup_update_ne // eq_sym.
  eexists; first exact: lookup_update h2.
  by rewrite insert_all_cols.
case el: (logs sweep metrics num_iter (s_w s1)).2 => [e|] /=; last by split.
by rewrite (logs_err el); split.
Qed.
Lemma fine_full o seeds trans powers damps : fine (full_sweep reseed simulate build sweep metrics num_iter dyn_name exp_name seeds trans powers damps o).
Proof.
elim: seeds => [|sd sds IH] //=; apply: fine_bind.
  by move=> s [f h1 h2]; split.
move=> s hr; rewrite /mbind /mworld; have [w' [p [xy ->]]] := sim (s_w s).
set s1 := St _ _ _ _ _; have hr1 : ready s1 by case: hr.
have := fine_dyn 0 (p :: xy) (seed_val sd) hr1; rewrite /insert_dynamics_data; case: (insert_dynamics_from _ _ _ _ _) => s2 o2 /= [hr2 ->].
have : fine (settings build sweep metrics num_iter exp_name o (product sd trans powers damps) (p :: xy)).
  elim: (product _ _ _ _) => [|c cs IHc] //=; apply: fine_bind IHc; exact: fine_setting.
by move=> /(_ _ hr2); case: (settings _ _ _ _ _ _ _ _ _) => s3 o3 /= [hr3 ->]; apply: IH.
Qed.
Lemma main_done o seeds trans powers damps w d : schema_ok dyn_name exp_name d ->
  (main reseed simulate build sweep metrics num_iter dyn_name exp_name seeds trans powers damps o (start w d None)).2 = Done tt.
Proof.
move=> [sch1 sch2]; rewrite /main /mbind /create_dynamics_table /create_experiment_table /start createE /= createE /=.
set s := St _ _ _ _ _; suff hr : ready s by have [] := fine_full o seeds trans powers damps hr.
have [t1 [h1 c1]] := addt_lookup d dyn_name dyn_cols [:: "Seed"; "t"]%string.
have [t2 [h2 c2]] := addt_lookup (addt d dyn_name dyn_cols [:: "Seed"; "t"]%string) exp_name exp_cols exp_key.
split=> //=.
  exists t1; first by rewrite addt_ne // eq_sym.
  by case: c1 => [/sch1 [] //|[_ ->]].
exists t2 => //; case: c2 => [|[_ ->]] //; by rewrite addt_ne // => /sch2 [].
Qed.
End Done.
