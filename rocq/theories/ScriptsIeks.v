(** * The IEKS sweeps as programs *)
Set Warnings "-notation-overridden,-ambiguous-paths".
From mathcomp Require Import all_ssreflect all_algebra.
From Coq Require Import String.
From Verif Require Import Base Database FullSweep SpecDb DatabaseFacts Scripts SpecScripts ScriptsFacts ScriptsRun.
Set Implicit Arguments.
Unset Strict Implicit.
Unset Printing Implicit Defensive.
Import GRing.Theory Num.Theory.

Section Each.
Variable W : Type.
Lemma outputs_cat (l1 l2 : seq (step W)) w : outputs (l1 ++ l2) w =
  let o := outputs l1 w in if o.2.1 is Some _ then o else (o.1 ++ (outputs l2 o.2.2).1, (outputs l2 o.2.2).2).
Proof.
elim: l1 w => [|[f|f] l1 IH] w /=; first by case: (outputs l2 w).
  by case: (f w) => w' [[]|e] //; rewrite IH.
by case: (f w) => w' [b|e] //; rewrite IH /=; case: (outputs l1 w').2.1.
Qed.
Variables (A : Type) (f : A -> seq (step W)) (v : A -> res (seq row)) (P : W -> Prop).
Hypothesis hf : forall a w, P w -> P (outputs (f a) w).2.2 /\
  ((outputs (f a) w).1, (outputs (f a) w).2.1) = match v a with Ok b => ([:: b], None) | Err e => ([::], Some e) end.
Lemma outputs_each l w : P w ->
  (outputs (flatten (map f l)) w).1 = (collect (map v l)).1 /\ (outputs (flatten (map f l)) w).2.1 = (collect (map v l)).2.
Proof.
elim: l w => [//|a l IH] w hw; rewrite [flatten _]/= outputs_cat /=.
case: (hf a hw) => hp; case: (v a) => [b|e] [h1 h2]; rewrite h1 h2 /=; last by rewrite h1 h2.
by have [-> ->] := IH _ hp.
Qed.
End Each.
Lemma collect_zip A B C (v : A -> res B) (g : A -> B -> C) l :
  collect [seq match v a with Ok b => Ok (g a b) | Err e => Err e end | a <- l] =
  ([seq g x.1 x.2 | x <- zip l (collect (map v l)).1], (collect (map v l)).2).
Proof. by elim: l => //= a l IH; case: (v a) => //= b; rewrite IH. Qed.
Lemma numz_inj : injective numz.
Proof. by move=> a b [] /eqP; rewrite eqr_int => /eqP. Qed.
Lemma num_inj : injective num.
Proof. by move=> a b [] /eqP; rewrite eqr_nat => /eqP. Qed.
Lemma uniq_zip (A B : eqType) (l : seq A) (m : seq B) : uniq l -> uniq (unzip1 (zip l m)).
Proof.
move=> u; have -> : unzip1 (zip l m) = take (size m) l.
  by elim: l m {u} => [|a l IH] [|b m] //=; rewrite IH.
exact: take_uniq.
Qed.

Section Ungm.
Variable W : Type.
Variables (reseed : int -> W -> W) (name : string) (n : nat).
Variables (P : W -> Prop) (d0 : db).

(** ** UNGM *)
Section U.
Variables (experiment : W -> W * res (val * val)) (seeds : seq int) (v : int -> res (val * val)).
Hypothesis hv : forall s, reproducible P (fun w => experiment (reseed s w)) (v s).
Hypothesis hd : schema name ungm_cols [:: "Seed"; "Iter"]%string d0.
Definition ungm_row (s : int) (m : val * val) : row := [:: numz s; num n; m.1; m.2].
Definition ungm_steps s := [:: Comp (fun w => (reseed s w, Ok tt)); Batch (mapw experiment (fun m => [:: ungm_row s m]))].
Definition ungm_all := flatten (map ungm_steps seeds).
Lemma ungm_script st : ieks_ungm reseed name n experiment seeds st = script name ungm_cols [:: "Seed"; "Iter"]%string ungm_all st.
Proof.
apply: eq_mbind => // _ s1; apply: foreach_prog => s s2; rewrite /ungm_steps -comp_prog; apply: eq_mbind => // _ s3.
by rewrite -batch_prog; apply: eq_mbind => // m s4; rewrite ins1.
Qed.
Definition ungm_v s := match v s with Ok m => Ok [:: ungm_row s m] | Err e => Err e end.
Lemma ungm_out w : P w -> (outputs ungm_all w).1 = (collect (map ungm_v seeds)).1 /\ (outputs ungm_all w).2.1 = (collect (map ungm_v seeds)).2.
Proof.
apply: outputs_each => s w' hw; have := hv s hw; rewrite /ungm_steps /= /mapw /ungm_v.
by case: (experiment _) => w1 [m|e] /= [hp <-].
Qed.
Lemma ungm_flat : flatten (collect (map ungm_v seeds)).1 = ungm_rows n seeds (collect (map v seeds)).1.
Proof.
rewrite collect_zip /= /ungm_rows; elim: (zip _ _) => //= x l ->; by [].
Qed.
Lemma ungm_sized : sized (size ungm_cols) ungm_all.
Proof.
by apply: sized_flatten => s; split=> //; split=> // w w' b; rewrite /mapw; case: (experiment w) => w1 [m|e] // [_ <-].
Qed.
Lemma ungm_null r : r \in flatten (collect (map ungm_v seeds)).1 -> VNull \notin keyof (Table ungm_cols [:: "Seed"; "Iter"]%string [::]) r.
Proof. by rewrite ungm_flat => /mapP [x _ ->]. Qed.
Notation main := (ieks_ungm reseed name n experiment seeds).
Lemma attempts_eq (m m' : M W unit) l d : (forall s, m s = m' s) -> attempts_of m l d = attempts_of m' l d.
Proof. by move=> h; rewrite /attempts_of; elim: l d => //= wk l IH d; rewrite h IH. Qed.
Theorem ungm_resume l w w' : all_in P l -> P w -> P w' ->
  let r := main (start w (attempts_of main l d0) None) in let r0 := main (start w' d0 None) in
  [/\ r.2 = r0.2, s_durable r.1 = s_durable r0.1 & s_working r.1 = s_working r0.1].
Proof.
move=> hl hw hw'; rewrite (attempts_eq _ _ ungm_script) !ungm_script.
exact: (@resume_script W name ungm_cols [:: "Seed"; "Iter"]%string isT P ungm_all _ _ ungm_sized ungm_out ungm_null d0 hd).
Qed.
Theorem ungm_result w : P w -> lookup d0 name = None -> uniq seeds -> let r := main (start w d0 None) in let ms := collect (map v seeds) in
  r.2 = outcome ms.2 /\ lookup (s_durable r.1) name = Some (Table ungm_cols [:: "Seed"; "Iter"]%string (ungm_rows n seeds ms.1)).
Proof.
move=> hw hl hu; rewrite ungm_script.
have := @script_result W name ungm_cols [:: "Seed"; "Iter"]%string isT P ungm_all _ _ ungm_sized ungm_out ungm_null d0 hd w hw hl.
cbv zeta; rewrite ungm_flat insert_fresh //; last first.
  rewrite /ungm_rows -map_comp (@eq_map _ _ _ ((fun s => [:: numz s; num n]) \o fst)) // map_comp map_inj_uniq ?uniq_zip //.
  by move=> a b [] /eqP; rewrite eqr_int => /eqP.
by rewrite collect_zip.
Qed.
End U.

(** ** Lorenz *)
Section L.
Variables (make : nat -> W -> W * res unit) (experiment : nat -> W -> W * res (val * val)) (dims : seq nat) (seeds : seq int).
Variable v : nat * int -> res (val * val).
Hypothesis hm : forall d, reproducible P (make d) (Ok tt).
Hypothesis hv : forall c, reproducible P (fun w => experiment c.1 (reseed c.2 w)) (v c).
Notation key := [:: "dim"; "Seed"; "Iter"]%string.
Hypothesis hd : schema name ieks_l96_cols key d0.
Notation cases := [seq (d, s) | d <- dims, s <- seeds].
Definition il96_row (c : nat * int) (m : val * val) : row := [:: num c.1; numz c.2; num n; m.1; m.2].
Definition il96_steps c := [:: Comp (make c.1); Comp (fun w => (reseed c.2 w, Ok tt)); Batch (mapw (experiment c.1) (fun m => [:: il96_row c m]))].
Definition il96_all := flatten (map il96_steps cases).
Notation main := (ieks_l96 reseed name n make experiment dims seeds).
Lemma il96_script st : main st = script name ieks_l96_cols key il96_all st.
Proof.
apply: eq_mbind => // _ s1; apply: foreach_prog => s s2; rewrite /il96_steps -comp_prog; apply: eq_mbind => // _ s3.
rewrite -comp_prog; apply: eq_mbind => // _ s4.
by rewrite -batch_prog; apply: eq_mbind => // m s5; rewrite ins1.
Qed.
Definition il96_v c := match v c with Ok m => Ok [:: il96_row c m] | Err e => Err e end.
Lemma il96_out w : P w -> (outputs il96_all w).1 = (collect (map il96_v cases)).1 /\ (outputs il96_all w).2.1 = (collect (map il96_v cases)).2.
Proof.
apply: outputs_each => c w' hw; have := hm c.1 hw; rewrite /il96_steps /=.
case: (make _ _) => w1 [[]|e] /= [hp //] _; have := hv c hp; rewrite /mapw /il96_v.
by case: (experiment _ _) => w2 [m|e] /= [hp2 <-].
Qed.
Lemma il96_flat : flatten (collect (map il96_v cases)).1 = ieks_l96_rows n cases (collect (map v cases)).1.
Proof. rewrite collect_zip /= /ieks_l96_rows; elim: (zip _ _) => //= x l ->; by []. Qed.
Lemma il96_sized : sized (size ieks_l96_cols) il96_all.
Proof.
by apply: sized_flatten => s; split=> //; split=> //; split=> // w w' b; rewrite /mapw; case: (experiment _ w) => w1 [m|e] // [_ <-].
Qed.
Lemma il96_null r : r \in flatten (collect (map il96_v cases)).1 -> VNull \notin keyof (Table ieks_l96_cols key [::]) r.
Proof. by rewrite il96_flat => /mapP [x _ ->]. Qed.
Theorem il96_resume l w w' : all_in P l -> P w -> P w' ->
  let r := main (start w (attempts_of main l d0) None) in let r0 := main (start w' d0 None) in
  [/\ r.2 = r0.2, s_durable r.1 = s_durable r0.1 & s_working r.1 = s_working r0.1].
Proof.
move=> hl hw hw'; rewrite (attempts_eq _ _ il96_script) !il96_script.
exact: (@resume_script W name ieks_l96_cols key isT P il96_all _ _ il96_sized il96_out il96_null d0 hd).
Qed.
Theorem il96_result w : P w -> lookup d0 name = None -> uniq dims -> uniq seeds -> let r := main (start w d0 None) in let ms := collect (map v cases) in
  r.2 = outcome ms.2 /\ lookup (s_durable r.1) name = Some (Table ieks_l96_cols key (ieks_l96_rows n cases ms.1)).
Proof.
move=> hw hl hu1 hu2; rewrite il96_script.
have := @script_result W name ieks_l96_cols key isT P il96_all _ _ il96_sized il96_out il96_null d0 hd w hw hl.
cbv zeta; rewrite il96_flat insert_fresh //; last first.
  rewrite /ieks_l96_rows -map_comp (@eq_map _ _ _ ((fun c => [:: num c.1; numz c.2; num n]) \o fst)) // map_comp map_inj_uniq ?uniq_zip //.
    by apply: allpairs_uniq => // -[a b] [a' b'] _ _ [-> ->].
  by move=> [a b] [a' b'] /= [] /eqP; rewrite eqr_nat => /eqP -> /eqP; rewrite eqr_int => /eqP ->.
by rewrite collect_zip.
Qed.
End L.

(** ** bearings only *)
Section B.
Variables (experiment : W -> W * res ((val * val) * (val * val) * (val * val))) (seeds : seq int).
Variable v : int -> res ((val * val) * (val * val) * (val * val)).
Hypothesis hv : forall s, reproducible P (fun w => experiment (reseed s w)) (v s).
Notation key := [:: "Quantity"; "Seed"; "Iter"]%string.
Hypothesis hd : schema name ieks_bott_cols key d0.
Definition ib_rows (s : int) (m : (val * val) * (val * val) * (val * val)) : seq row :=
  [seq [:: VText y.1; numz s; num n; y.2.1; y.2.2] | y <- zip quantities [:: m.1.1; m.1.2; m.2]].
Definition ib_steps s := [:: Comp (fun w => (reseed s w, Ok tt)); Batch (mapw experiment (ib_rows s))].
Definition ib_all := flatten (map ib_steps seeds).
Notation main := (ieks_bott reseed name n experiment seeds).
Lemma ib_script st : main st = script name ieks_bott_cols key ib_all st.
Proof.
apply: eq_mbind => // _ s1; apply: foreach_prog => s s2; rewrite /ib_steps -comp_prog; apply: eq_mbind => // _ s3.
by rewrite -batch_prog; apply: eq_mbind => // -[[pos vel] ang] s4.
Qed.
Definition ib_v s := match v s with Ok m => Ok (ib_rows s m) | Err e => Err e end.
Lemma ib_out w : P w -> (outputs ib_all w).1 = (collect (map ib_v seeds)).1 /\ (outputs ib_all w).2.1 = (collect (map ib_v seeds)).2.
Proof.
apply: outputs_each => s w' hw; have := hv s hw; rewrite /ib_steps /= /mapw /ib_v.
by case: (experiment _) => w1 [m|e] /= [hp <-].
Qed.
Lemma ib_flat : flatten (collect (map ib_v seeds)).1 = ieks_bott_rows n seeds (collect (map v seeds)).1.
Proof. by rewrite collect_zip. Qed.
Lemma ib_sized : sized (size ieks_bott_cols) ib_all.
Proof.
by apply: sized_flatten => s; split=> //; split=> // w w' b; rewrite /mapw; case: (experiment w) => w1 [m|e] // [_ <-].
Qed.
Lemma ib_null r : r \in flatten (collect (map ib_v seeds)).1 -> VNull \notin keyof (Table ieks_bott_cols key [::]) r.
Proof. by rewrite ib_flat => /flattenP [l /mapP [x _ ->]] /mapP [y _ ->]. Qed.
Theorem ib_resume l w w' : all_in P l -> P w -> P w' ->
  let r := main (start w (attempts_of main l d0) None) in let r0 := main (start w' d0 None) in
  [/\ r.2 = r0.2, s_durable r.1 = s_durable r0.1 & s_working r.1 = s_working r0.1].
Proof.
move=> hl hw hw'; rewrite (attempts_eq _ _ ib_script) !ib_script.
exact: (@resume_script W name ieks_bott_cols key isT P ib_all _ _ ib_sized ib_out ib_null d0 hd).
Qed.
Theorem ib_result w : P w -> lookup d0 name = None -> uniq seeds -> let r := main (start w d0 None) in let ms := collect (map v seeds) in
  r.2 = outcome ms.2 /\ lookup (s_durable r.1) name = Some (Table ieks_bott_cols key (ieks_bott_rows n seeds ms.1)).
Proof.
move=> hw hl hu; rewrite ib_script.
have := @script_result W name ieks_bott_cols key isT P ib_all _ _ ib_sized ib_out ib_null d0 hd w hw hl.
cbv zeta; rewrite ib_flat insert_fresh //; last first.
  have -> : [seq keyof (Table ieks_bott_cols key [::]) i | i <- ieks_bott_rows n seeds (collect (map v seeds)).1]
    = [seq [:: VText q; numz s; num n] | s <- unzip1 (zip seeds (collect (map v seeds)).1), q <- quantities].
    rewrite /ieks_bott_rows map_flatten -map_comp /unzip1 -map_comp; congr (flatten _); apply: eq_map => x /=; by rewrite -map_comp.
  apply: allpairs_uniq; rewrite ?uniq_zip // => -[a b] [a' b'] _ _ /= [] -> /eqP; rewrite eqr_int => /eqP -> //.
by rewrite collect_zip.
Qed.
End B.
End Ungm.
