(** * Properties of the printed reports (C58) *)
Set Warnings "-notation-overridden,-ambiguous-paths".
From mathcomp Require Import all_ssreflect all_algebra.
From mathcomp Require Import real_closed.realalg.
From Coq Require Import String.
From Verif Require Import Base Database FullSweep SpecDb DatabaseFacts SweepFacts Scripts SpecScripts ScriptsL96 ScriptsIeks.
From Verif Require Import Display SpecDisplay DisplayFacts DisplayReport DisplayScripts.
Set Implicit Arguments.
Unset Strict Implicit.
Unset Printing Implicit Defensive.
Import GRing.Theory Num.Theory.
Local Open Scope string_scope.
Local Open Scope ring_scope.

Section Sweep.
Variable R : rcfType.
(** the database lists the rows of a table in any order *)
Variable scan : table -> seq row.
Hypothesis scans : forall t, perm_eq (scan t) (trows t).
Variable W : Type.
Variable reseed : int -> W -> W.
Variable simulate : W -> W * res data.
Variable build : cfg -> data -> W -> W * res unit.
Variable sweep : W -> W * res unit.
Variable metrics : W -> W * res (val * val).
Variables (num_iter : nat) (dyn_name exp_name : string).
Variables (seeds : seq int) (trans : seq string) (powers damps : seq rat).
Notation run o := (main reseed simulate build sweep metrics num_iter dyn_name exp_name seeds trans powers damps o).
Notation all_runs := (all_runs reseed simulate build sweep metrics num_iter seeds trans powers damps).
Notation sample := (sample reseed simulate build sweep metrics num_iter seeds trans powers damps).

Section Complete.
Variables (override : bool) (d0 : db) (w : W).
Hypothesis names : dyn_name != exp_name.
Hypothesis seeding : forall seed w w', reseed seed w = reseed seed w'.
Hypothesis schemas : schema_ok dyn_name exp_name d0.
Hypothesis new : lookup d0 exp_name = None.
Hypothesis u1 : uniq seeds.
Hypothesis u2 : uniq trans.
Hypothesis u3 : uniq powers.
Hypothesis u4 : uniq damps.
Hypothesis done : (run override (start w d0 None)).2 = Done tt.
Let d := s_durable (run override (start w d0 None)).1.
(** with or without override, a sweep that starts without a table leaves exactly the rows of its runs *)
Theorem C58_table : lookup d exp_name = Some (Table exp_cols exp_key
  (flatten [seq log_rows (VText (c_trans cl.1)) (VNum (c_seed cl.1)%:~R) (VNum (c_power cl.1)) (VNum (c_damp cl.1)) 0 cl.2 | cl <- all_runs w])).
Proof. exact: (table_result names seeding schemas new u1 u2 u3 u4 done). Qed.
(** each setting has been run once for each seed ... *)
Theorem C58_seeds t p q : t \in trans -> p \in powers -> q \in damps ->
  [seq c_seed cl.1 | cl <- all_runs w & is_setting t p q cl.1] = seeds.
Proof. by have := simulated names seeding schemas done => h; apply: setting_seeds. Qed.
(** ... and a query for an iteration selects one value for each seed whose run got that far *)
Theorem C58_sample t p q i : (0 < i)%N ->
  (exists2 vs, select scan d exp_name "RMSE" (ep_cond [::] p q t i) = Ok vs & perm_eq vs (map fst (sample w t p q i))) /\
  (exists2 vs, select scan d exp_name "NLL" (ep_cond [::] p q t i) = Ok vs & perm_eq vs (map snd (sample w t p q i))).
Proof. by apply: (select_sample scans); apply: C58_table. Qed.
(** nothing is known about settings and iterations that were not run *)
Theorem C58_unswept t p q i : [|| t \notin trans, p \notin powers, q \notin damps | (num_iter < i)%N] -> sample w t p q i = [::].
Proof. exact: sample_unswept. Qed.
(** the report: for the smoother and each power the mean and standard deviation over the seeds, nan if there are none *)
Theorem C58_report ps q t : let es := (1, 1, 1%N) :: [seq (p, q, 50%N) | p <- ps] in
  (forall e, e \in es -> numeric (sample w t e.1.1 e.1.2 e.2)) ->
  exists2 out, sweep_report R scan d exp_name [::] ps q t = Ok out
    & List.Forall2 (fun e o => describes (sample w t e.1.1 e.1.2 e.2) o) es out.
Proof. by apply: (report_ok R scans); apply: C58_table. Qed.
(** a single nan among the values of the smoother and there is no report *)
Theorem C58_null ps q t : all (fun m => num_or_null m.1) (sample w t 1 1 1) -> VNull \in map fst (sample w t 1 1 1) ->
  sweep_report R scan d exp_name [::] ps q t = Err TypeErr.
Proof. by apply: (report_null R scans); apply: C58_table. Qed.
End Complete.

(** whatever is interrupted and repeated, values of a damping (power, transform) that is not swept are never found *)
Theorem C58_absent override d0 l p q t i col vs : dyn_name != exp_name ->
  (forall tb, lookup d0 exp_name = Some tb -> tcols tb = exp_cols /\ forall r, r \in trows tb -> ~~ holds tb r (ep_cond [::] p q t i)) ->
  [|| t \notin trans, p \notin powers | q \notin damps] ->
  select scan (attempts reseed simulate build sweep metrics num_iter dyn_name exp_name seeds trans powers damps override l d0)
    exp_name col (ep_cond [::] p q t i) = Ok vs -> vs = [::].
Proof. exact: (absent_select scans). Qed.
End Sweep.

Section Lorenz.
Variable R : rcfType.
Variable scan : table -> seq row.
Hypothesis scans : forall t, perm_eq (scan t) (trows t).
Variable W : Type.
Variables (make : nat -> W -> W * res unit) (reseed : int -> W -> W) (simulate : W -> W * res unit).
Variables (build : nat -> rat -> rat -> W -> W * res unit) (sweep : W -> W * res unit) (record : nat -> W -> W * res unit).
Variable metrics : W -> W * res (val * val).
Variables (name trans : string) (dims : seq nat) (seeds : seq int) (settings : seq (rat * rat * nat)).
Notation main := (l96_main make reseed simulate build sweep record metrics name trans dims seeds settings).
Notation work := (l96_work make reseed simulate build sweep record metrics dims seeds settings).
Notation keys := (l96_keys trans dims seeds settings).
(** the Lorenz report describes what was measured after the first and the tenth iteration ... *)
Theorem C58_l96 w d t dim p : (forall t, lookup d name = Some t -> t = Table l96_cols l96_key [::]) -> uniq keys ->
  let l := l96_sample keys (chain work w).1 t dim in
  numeric (l 0%N 1 1) -> numeric (l 9%N p 1) ->
  exists o1 o2, [/\ l96_report R scan (s_durable (main (start w d None)).1) name dim p t = Ok [:: o1; o2],
    describes (l 0%N 1 1) o1 & describes (l 9%N p 1) o2].
Proof. by move=> h1 h2; apply: l96_final. Qed.
(** ... and only nan when it asks for a transform other than the one the experiment was run with *)
Theorem C58_l96_other w d f t dim p : (forall t, lookup d name = Some t -> t = Table l96_cols l96_key [::]) -> uniq keys ->
  f <> Some 0%N -> t != trans ->
  l96_report R scan (s_durable (main (start w d f)).1) name dim p t = Ok [:: (None, None); (None, None)].
Proof. exact: (l96_final_other R scans). Qed.
End Lorenz.

Section Iterated.
Variable R : rcfType.
Variable scan : table -> seq row.
Hypothesis scans : forall t, perm_eq (scan t) (trows t).
Variable W : Type.
Variables (reseed : int -> W -> W) (name : string) (num_iter : nat) (P : W -> Prop) (d0 : db) (w : W).
Hypothesis pw : P w.
Hypothesis new : lookup d0 name = None.
Variables (seeds asked : seq int).
Hypothesis u : uniq seeds.
Hypothesis sub : {subset asked <= seeds}.
(** the iterated smoothers: one value per seed asked for, if the number of iterations is the one of the sweep; else nan *)
Theorem C58_ieks_ungm experiment v (it : nat) : (forall s, reproducible P (fun w => experiment (reseed s w)) (Ok (v s))) ->
  numeric (map v asked) ->
  let r := ieks_ungm reseed name num_iter experiment seeds (start w d0 None) in
  if it == num_iter then exists2 o, ieks_report R scan (s_durable r.1) name [::] asked it = Ok o & describes (map v asked) o
  else ieks_report R scan (s_durable r.1) name [::] asked it = Ok (None, None).
Proof. move=> h hn; exact (final_ungm R scans num_iter pw new u sub it h hn). Qed.
Theorem C58_ieks_l96 make experiment (dims : seq nat) (dim : nat) (v : nat * int -> val * val) it : (forall d, reproducible P (make d) (Ok tt)) ->
  (forall c, reproducible P (fun w => experiment c.1 (reseed c.2 w)) (Ok (v c))) -> uniq dims -> dim \in dims ->
  numeric [seq v (dim, s) | s <- asked] ->
  let r := ieks_l96 reseed name num_iter make experiment dims seeds (start w d0 None) in
  let rep := ieks_report R scan (s_durable r.1) name [:: ("dim", VNum dim%:R)] asked it in
  if it == num_iter then exists2 o, rep = Ok o & describes [seq v (dim, s) | s <- asked] o else rep = Ok (None, None).
Proof. move=> h1 h2 h3 h4 h5; exact (final_l96 R scans num_iter pw new u sub it h1 h2 h3 h4 h5). Qed.
Theorem C58_ieks_bott experiment q v (it : nat) : (forall s, reproducible P (fun w => experiment (reseed s w)) (Ok (v s))) ->
  q \in quantities -> numeric [seq part q (v s) | s <- asked] ->
  let r := ieks_bott reseed name num_iter experiment seeds (start w d0 None) in
  let rep := ieks_report R scan (s_durable r.1) name [:: ("Quantity", VText q)] asked it in
  if it == num_iter then exists2 o, rep = Ok o & describes [seq part q (v s) | s <- asked] o else rep = Ok (None, None).
Proof. move=> h1 h2 h3; exact (final_bott R scans num_iter pw new u sub it h1 h2 h3). Qed.
End Iterated.

(** ** concrete cases *)
Module Case.
(** the database may list the rows backwards *)
Definition scan (t : table) : seq row := rev (trows t).
Lemma scans t : perm_eq (scan t) (trows t). Proof. by rewrite /scan perm_rev. Qed.
(** the world is the state of the random generator; seed 2 fails in the third sweep with any power but 1, seed 3 measures nan *)
Definition W := (nat * nat * bool)%type.
Definition reseed (s : int) (w : W) : W := (absz s, 0%N, false).
Definition simulate (w : W) : W * res data := (w, Ok [:: (VNum 1, VNum 2%:R)]).
Definition build (c : cfg) (xy : data) (w : W) : W * res unit := ((w.1.1, 0%N, c_power c != 1), Ok tt).
Definition sweep (w : W) : W * res unit :=
  let w' := (w.1.1, w.1.2.+1, w.2) in
  if [&& w.1.1 == 2, w.1.2 == 2 & w.2]%N then (w', Err LinAlgErr) else (w', Ok tt).
Definition metrics (w : W) : W * res (val * val) :=
  (w, Ok (if w.1.1 == 3%N then VNull else VNum w.1.1%:R, VNum (w.1.2 == 1%N)%:R)).
Definition w0 : W := (0%N, 0%N, false).
Notation swept sds := (main reseed simulate build sweep metrics 50%N "SIM" "EXP" sds [:: "UT"] [:: 1; 2%:R^-1] [:: 1] false (start w0 [::] None)).
Notation seen sds := (sample reseed simulate build sweep metrics 50%N sds [:: "UT"] [:: 1; 2%:R^-1] [:: 1] w0).
Lemma seeding seed (w w' : W) : reseed seed w = reseed seed w'. Proof. by []. Qed.
Lemma schemas : schema_ok "SIM" "EXP" [::]. Proof. by []. Qed.
Definition ab : seq int := [:: Posz 1; Posz 2].
Lemma finished : (swept ab).2 = Done tt. Proof. by vm_compute. Qed.
Lemma finished3 : (swept (Posz 3 :: ab)).2 = Done tt. Proof. by vm_compute. Qed.
Lemma up : uniq [:: 1; 2%:R^-1 : rat]. Proof. by vm_compute. Qed.
(** both seeds for power 1, one seed for power 1/2 *)
Lemma seen1_b : seen ab "UT" 1 1 50%N == [:: (VNum 1, VNum 0); (VNum 2%:R, VNum 0)]. Proof. by vm_compute. Qed.
Example seen1 : seen ab "UT" 1 1 50%N = [:: (VNum 1, VNum 0); (VNum 2%:R, VNum 0)]. Proof. exact: (eqP seen1_b). Qed.
Lemma seen2_b : seen ab "UT" 2%:R^-1 1 50%N == [:: (VNum 1, VNum 0)]. Proof. by vm_compute. Qed.
Example seen2 : seen ab "UT" 2%:R^-1 1 50%N = [:: (VNum 1, VNum 0)]. Proof. exact: (eqP seen2_b). Qed.
Lemma seen0_b : seen ab "UT" 1 1 1%N == [:: (VNum 1, VNum 1); (VNum 2%:R, VNum 1)]. Proof. by vm_compute. Qed.
Example seen0 : seen ab "UT" 1 1 1%N = [:: (VNum 1, VNum 1); (VNum 2%:R, VNum 1)]. Proof. exact: (eqP seen0_b). Qed.
Example found : exists2 vs, select scan (s_durable (swept ab).1) "EXP" "RMSE" (ep_cond [::] 1 1 "UT" 50%N) = Ok vs & perm_eq vs [:: VNum 1; VNum 2%:R].
Proof.
have [h _] := @C58_sample scan scans W reseed simulate build sweep metrics 50%N "SIM" "EXP" ab [:: "UT"] [:: 1; 2%:R^-1] [:: 1] false [::] w0
  isT seeding schemas erefl isT isT up isT finished "UT" 1 1 50%N isT.
by move: h; rewrite seen1.
Qed.
Example both : [seq c_seed cl.1 | cl <- all_runs reseed simulate build sweep metrics 50%N ab [:: "UT"] [:: 1; 2%:R^-1] [:: 1] w0 & is_setting "UT" 1 1 cl.1] = ab.
Proof.
exact: (@C58_seeds W reseed simulate build sweep metrics 50%N "SIM" "EXP" ab [:: "UT"] [:: 1; 2%:R^-1] [:: 1] false [::] w0
  isT seeding schemas isT up isT finished "UT" 1 1 isT (mem_head _ _) (mem_head _ _)).
Qed.
Lemma seen_num e : e \in [:: (1, 1, 1%N); (1, 1, 50%N); (2%:R^-1, 1, 50%N)] -> numeric (seen ab "UT" e.1.1 e.1.2 e.2).
Proof. by rewrite !inE => /or3P[] /eqP ->; rewrite ?seen0 ?seen1 ?seen2. Qed.
Lemma f2size A B (P : A -> B -> Prop) l l' : List.Forall2 P l l' -> size l = size l'.
Proof. by elim=> //= x y k k' _ _ ->. Qed.
(** three lines *)
Example report (R : rcfType) : exists2 out, sweep_report R scan (s_durable (swept ab).1) "EXP" [::] [:: 1; 2%:R^-1] 1 "UT" = Ok out & size out = 3%N.
Proof.
have [out e h] := @C58_report R scan scans W reseed simulate build sweep metrics 50%N "SIM" "EXP" ab [:: "UT"] [:: 1; 2%:R^-1] [:: 1] false [::] w0
  isT seeding schemas erefl isT isT up isT finished [:: 1; 2%:R^-1] 1 "UT" seen_num.
exists out; [exact e | exact (esym (f2size h))].
Qed.
(** the damping of the report is not one that was swept: nan *)
Example unswept : seen ab "UT" 1 5%:R^-1 50%N = [::].
Proof. by apply: (@C58_unswept W reseed simulate build sweep metrics 50%N ab [:: "UT"] [:: 1; 2%:R^-1] [:: 1] w0 "UT" 1 5%:R^-1 50%N); vm_compute. Qed.
Example absent vs : select scan (attempts reseed simulate build sweep metrics 50%N "SIM" "EXP" ab [:: "UT"] [:: 1; 2%:R^-1] [:: 1] false
  [:: (w0, Some 30%N); (w0, None)] [::]) "EXP" "RMSE" (ep_cond [::] 1 5%:R^-1 "UT" 50%N) = Ok vs -> vs = [::].
Proof. by apply: (C58_absent scans) => //; vm_compute. Qed.
(** nan measured with seed 3 *)
Lemma seen3_b : seen (Posz 3 :: ab) "UT" 1 1 1%N == [:: (VNull, VNum 1); (VNum 1, VNum 1); (VNum 2%:R, VNum 1)]. Proof. by vm_compute. Qed.
Example seen3 : seen (Posz 3 :: ab) "UT" 1 1 1%N = [:: (VNull, VNum 1); (VNum 1, VNum 1); (VNum 2%:R, VNum 1)]. Proof. exact: (eqP seen3_b). Qed.
Example broken (R : rcfType) ps q : sweep_report R scan (s_durable (swept (Posz 3 :: ab)).1) "EXP" [::] ps q "UT" = Err TypeErr.
Proof.
apply: (@C58_null R scan scans W reseed simulate build sweep metrics 50%N "SIM" "EXP" (Posz 3 :: ab) [:: "UT"] [:: 1; 2%:R^-1] [:: 1] false [::] w0
  isT seeding schemas erefl isT isT up isT finished3); by rewrite seen3.
Qed.
(** Lorenz *)
Definition ok (w : nat) : nat * res unit := (w, Ok tt).
Definition rs (s : int) (w : nat) : nat := absz s.
Definition draw (w : nat) : nat * res (val * val) := (w.+1, Ok (VNum w%:R, VNum 2%:R)).
Notation l96 := (l96_main (fun _ => ok) rs ok (fun _ _ _ => ok) ok (fun _ => ok) draw "L96_EXP" "MCT" [:: 5%N; 10%N] [:: Posz 101; Posz 201] [:: (1, 1, 10%N)] (start 0%N [::] None)).
Notation keys := (l96_keys "MCT" [:: 5%N; 10%N] [:: Posz 101; Posz 201] [:: (1, 1, 10%N)]).
Lemma keys_uniq : uniq keys. Proof. by vm_compute. Qed.
Notation measured := ((chain (l96_work (fun _ => ok) rs ok (fun _ _ _ => ok) ok (fun _ => ok) draw [:: 5%N; 10%N] [:: Posz 101; Posz 201] [:: (1, 1, 10%N)]) 0%N).1).
Example l96_last : l96_sample keys measured "MCT" 10 9 1 1 = [:: (VNum 110%:R, VNum 2%:R); (VNum 210%:R, VNum 2%:R)]. Proof. by apply/eqP; vm_compute. Qed.
Example l96_first : numeric (l96_sample keys measured "MCT" 10 0 1 1). Proof. by vm_compute. Qed.
Example l96_lines (R : rcfType) : exists o1 o2, l96_report R scan (s_durable l96.1) "L96_EXP" 10 1 "MCT" = Ok [:: o1; o2] /\ describes [:: (VNum 110%:R, VNum 2%:R); (VNum 210%:R, VNum 2%:R)] o2.
Proof.
have nt t : lookup [::] "L96_EXP" = Some t -> t = Table l96_cols l96_key [::] by [].
have n2 : numeric (l96_sample keys measured "MCT" 10 9 1 1) by rewrite l96_last.
have := @C58_l96 R scan scans nat (fun _ => ok) rs ok (fun _ _ _ => ok) ok (fun _ => ok) draw "L96_EXP" "MCT" [:: 5%N; 10%N] [:: Posz 101; Posz 201]
  [:: (1, 1, 10%N)] 0%N [::] "MCT" 10%N 1 nt keys_uniq.
cbv zeta beta; move=> /(_ l96_first n2) [o1 [o2 [h _ h2]]].
exists o1, o2; split; first exact h.
by rewrite -l96_last.
Qed.
(** the transform of the report is not the one of the experiment *)
Example l96_nan (R : rcfType) : l96_report R scan (s_durable l96.1) "L96_EXP" 10 1 "UT" = Ok [:: (None, None); (None, None)].
Proof. by apply: (C58_l96_other R scans) => //; apply: keys_uniq. Qed.
(** the iterated smoothers *)
Definition val_of (s : int) : val * val := (VNum (absz s)%:R, VNum 2%:R).
Definition anyw (w : nat) : Prop := True.
Lemma rep s : reproducible anyw (fun w => draw (rs s w)) (Ok (val_of s)). Proof. by []. Qed.
Lemma ab_sub : {subset [:: Posz 2] <= ab}. Proof. by move=> s; rewrite !inE => ->; rewrite orbT. Qed.
Example ungm_line (R : rcfType) : exists2 o, ieks_report R scan (s_durable (ieks_ungm rs "U" 50%N draw ab (start 0%N [::] None)).1) "U" [::] [:: Posz 2] 50%N = Ok o
  & describes [:: (VNum 2%:R, VNum 2%:R)] o.
Proof. exact: (@C58_ieks_ungm R scan scans nat rs "U" 50%N anyw [::] 0%N I erefl ab [:: Posz 2] isT ab_sub draw val_of 50%N rep isT). Qed.
Example ungm_nan (R : rcfType) : ieks_report R scan (s_durable (ieks_ungm rs "U" 10%N draw ab (start 0%N [::] None)).1) "U" [::] [:: Posz 2] 50%N = Ok (None, None).
Proof. exact: (@C58_ieks_ungm R scan scans nat rs "U" 10%N anyw [::] 0%N I erefl ab [:: Posz 2] isT ab_sub draw val_of 50%N rep isT). Qed.
Example l96_line (R : rcfType) : exists2 o, ieks_report R scan (s_durable (ieks_l96 rs "L" 10%N (fun _ => ok) (fun _ => draw) [:: 5%N; 20%N] ab (start 0%N [::] None)).1) "L"
  [:: ("dim", VNum 20%:R)] [:: Posz 2] 10%N = Ok o & describes [:: (VNum 2%:R, VNum 2%:R)] o.
Proof.
exact: (@C58_ieks_l96 R scan scans nat rs "L" 10%N anyw [::] 0%N I erefl ab [:: Posz 2] isT ab_sub (fun _ => ok) (fun _ => draw) [:: 5%N; 20%N] 20%N (fun c => val_of c.2) 10%N
  (fun _ _ _ => conj I erefl) (fun c => @rep c.2) isT isT isT).
Qed.
Definition draw3 (w : nat) : nat * res ((val * val) * (val * val) * (val * val)) := (w.+1, Ok ((VNum w%:R, VNum 1), (VNum 2%:R, VNum 3%:R), (VNum 4%:R, VNum w%:R))).
Definition val3 (s : int) := ((VNum (absz s)%:R, VNum 1), (VNum 2%:R, VNum 3%:R), (VNum 4%:R, VNum (absz s)%:R)).
Lemma rep3 s : reproducible anyw (fun w => draw3 (rs s w)) (Ok (val3 s)). Proof. by []. Qed.
Example bott_line (R : rcfType) : exists2 o, ieks_report R scan (s_durable (ieks_bott rs "B" 50%N draw3 ab (start 0%N [::] None)).1) "B"
  [:: ("Quantity", VText "angle")] [:: Posz 2] 50%N = Ok o & describes [:: (VNum 4%:R, VNum 2%:R)] o.
Proof. exact: (@C58_ieks_bott R scan scans nat rs "B" 50%N anyw [::] 0%N I erefl ab [:: Posz 2] isT ab_sub draw3 "angle" val3 50%N rep3 isT isT). Qed.
End Case.

Print Assumptions C58_table.
Print Assumptions C58_seeds.
Print Assumptions C58_sample.
Print Assumptions C58_unswept.
Print Assumptions C58_report.
Print Assumptions C58_null.
Print Assumptions C58_absent.
Print Assumptions C58_l96.
Print Assumptions C58_l96_other.
Print Assumptions C58_ieks_ungm.
Print Assumptions C58_ieks_l96.
Print Assumptions C58_ieks_bott.
