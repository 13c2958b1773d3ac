(** * Properties of the result store, the iteration log and the parameter sweep (C45, C46, C47) *)
Set Warnings "-notation-overridden,-ambiguous-paths".
From mathcomp Require Import all_ssreflect all_algebra.
From Coq Require Import String.
From Verif Require Import Base Database FullSweep SpecDb DatabaseFacts SweepFacts SweepDone.
Set Implicit Arguments.
Unset Strict Implicit.
Unset Printing Implicit Defensive.
Import GRing.Theory.
Local Open Scope string_scope.

Section C45.
Variable W : Type.
(** after any sequence of insertions (failing ones included) a key without NULL is stored at most once *)
Theorem C45_unique (name : string) (ds : seq dict) (s : st W) :
  (forall n t, lookup (s_durable s) n = Some t -> unique_keys t) -> (forall n t, lookup (s_working s) n = Some t -> unique_keys t) ->
  forall n t, lookup (s_working (foldl (fun s d => (insert_experiment_data name d s).1) s ds)) n = Some t -> unique_keys t.
Proof. by move=> h1 h2; have [_ h] := exp_inserts_unique name ds h1 h2; exact: h. Qed.

(** the first write wins: a stored key makes the insertion change nothing *)
Theorem C45_first name d t (s : st W) : size d = 9 -> s_fuel s = None -> lookup (s_working s) name = Some t -> tcols t = exp_cols ->
  VNull \notin keyof t (dvalues d) -> keyof t (dvalues d) \in map (keyof t) (trows t) ->
  s_working (insert_experiment_data name d s).1 = s_working s.
Proof.
move=> h1 h2 h3 h4 h5 h6; rewrite (exp_insert h1 h2 h3 h4) /= ins_id ?update_same //.
by rewrite /present h5.
Qed.
(** any other insertion appends exactly one row *)
Theorem C45_new name d t (s : st W) : size d = 9 -> s_fuel s = None -> lookup (s_working s) name = Some t -> tcols t = exp_cols ->
  (VNull \in keyof t (dvalues d)) || (keyof t (dvalues d) \notin map (keyof t) (trows t)) ->
  lookup (s_working (insert_experiment_data name d s).1) name = Some (Table (tcols t) (tkey t) (rcons (trows t) (dvalues d))).
Proof.
move=> h1 h2 h3 h4 h5; rewrite (exp_insert h1 h2 h3 h4) /= (lookup_update _ h3) /insert_ignore has_conflict /present.
by case/orP: h5 => [->|/negbTE ->]; rewrite ?andbF.
Qed.
(** values are stored by position: each is in its own column if the dictionary has the order of the columns ... *)
Theorem C45_columns d t c : map fst d = exp_cols -> tcols t = exp_cols -> c \in exp_cols ->
  dget d c = Some (cell t (dvalues d) c).
Proof. exact: exp_cells. Qed.
(** ... and, for distinct values, only then *)
Theorem C45_columns_only d t : tcols t = exp_cols -> uniq (map fst d) -> size d = 9 -> uniq (dvalues d) ->
  (forall c, c \in exp_cols -> dget d c = Some (cell t (dvalues d) c)) -> map fst d = exp_cols.
Proof. exact: exp_cells_conv. Qed.
Theorem C45_wrong_size name d (s : st W) : size d <> 9 -> s_fuel s = None -> insert_experiment_data name d s = (s, Raised DbErr).
Proof. exact: exp_insert_wrong. Qed.
End C45.

Section C46.
Variable W : Type.
Variable sweep : W -> W * res unit.
Variable metrics : W -> W * res (val * val).
(** the loop logs one row per completed sweep; killed after [f] database operations, exactly the first [f / 2] rows survive *)
Theorem C46_log n tr sd q pw dp a b c e nodes name t (s : st W) :
  lookup (s_working s) name = Some t -> tcols t = exp_cols ->
  let r := ep_iterations sweep metrics n true (zip exp_data_fields [:: tr; sd; VNum q; pw; dp; a; b; c; e; nodes]) name s in
  let ms := logs sweep metrics n (s_w s) in
  let rows := log_rows tr sd pw dp q ms.1 in
  match s_fuel s with
  | None => [/\ r.2 = outcome ms.2, s_working r.1 = update (s_working s) name (insert_all t rows)
              & s_durable r.1 = if rows is [::] then s_durable s else s_working r.1]
  | Some f =>
      if (f < 2 * size rows)%N
      then r.2 = Died /\ s_durable r.1 = if f./2 is 0 then s_durable s else update (s_working s) name (insert_all t (take f./2 rows))
      else [/\ r.2 = outcome ms.2, s_working r.1 = update (s_working s) name (insert_all t rows)
              & s_durable r.1 = if rows is [::] then s_durable s else s_working r.1]
  end.
Proof. exact: iterations_run. Qed.
(** the rows: iterations numbered in order, each with the metrics after its sweep *)
Theorem C46_rows tr sd pw dp q ms i : (i < size ms)%N -> nth [::] (log_rows tr sd pw dp q ms) i =
  [:: tr; sd; VNum (q + (i.+1)%:R); pw; dp; (nth (VNull, VNull) ms i).1; (nth (VNull, VNull) ms i).2; empty_list; empty_list].
Proof. exact: rows_nth. Qed.
(** there are [n] of them unless an exception ended the run, and never more *)
Theorem C46_count n w : (size (logs sweep metrics n w).1 <= n)%N /\
  (size (logs sweep metrics n w).1 = n <-> (logs sweep metrics n w).2 = None).
Proof.
have [h1 h2] := logs_size sweep metrics n w; split=> //; split=> // {h1 h2}.
by elim: n w => //= n IH w; case: (sweep w) => w1 [_|e] //; case: (metrics w1) => w2 [m|e] //= h; rewrite IH.
Qed.
(** if the setting was not stored before, they are appended as they are *)
Theorem C46_appended t tr sd pw dp q ms : tcols t = exp_cols -> tkey t = exp_key ->
  (forall i, (i < size ms)%N -> [:: tr; sd; VNum (q + (i.+1)%:R); pw; dp] \notin map (keyof t) (trows t)) ->
  trows (insert_all t (log_rows tr sd pw dp q ms)) = (trows t ++ log_rows tr sd pw dp q ms)%SEQ.
Proof.
move=> hc hk h; apply: all_fresh; first exact: log_keys.
move=> r /(nthP [::]) [i]; rewrite rows_size => hi <-; rewrite rows_nth //.
have := h i hi; rewrite /present negb_and => /negbTE hn; apply/orP; right.
set r1 := (X in keyof t X).
have -> : keyof t r1 = [:: tr; sd; VNum (q + (i.+1)%:R); pw; dp] by rewrite /keyof /cell hc hk.
by rewrite hn.
Qed.
(** without a reference trajectory nothing is stored *)
Theorem C46_silent n d name (s : st W) : "Nodes" \in map fst d ->
  ep_iterations sweep metrics n false d name s =
  (St (sweeps sweep n (s_w s)).1 (s_durable s) (s_working s) (s_intx s) (s_fuel s), outcome (sweeps sweep n (s_w s)).2).
Proof. by move=> h; rewrite /ep_iterations h silent. Qed.
(** a new table survives the end of the process at once, and the other tables stay *)
Theorem C46_create name cols key (w : W) d k : dead k 1 = false ->
  let d' := s_durable (create_table name cols key (start w d k)).1 in
  lookup d' name = Some (if lookup d name is Some t then t else Table cols key [::]) /\ forall n, n != name -> lookup d' n = lookup d n.
Proof.
move=> hk; rewrite /start createE hk /=; split=> [|n hn]; last by rewrite addt_ne // eq_sym.
by have [t [-> [->|[-> ->]]]] := addt_lookup d name cols key.
Qed.
(** but one created after an INSERT that was not committed is as uncertain as this row *)
Theorem C46_create_open n c v name cols key (w : W) d k :
  s_durable (mbind (insert n c v) (fun _ => create_table name cols key) (start w d k)).1 = d.
Proof. exact: create_open. Qed.
End C46.

Section C47.
Variable W : Type.
Variable reseed : int -> W -> W.
Variable simulate : W -> W * res data.
Variable build : cfg -> data -> W -> W * res unit.
Variable sweep : W -> W * res unit.
Variable metrics : W -> W * res (val * val).
Variables (num_iter : nat) (dyn_name exp_name : string).
Variables (seeds : seq int) (trans : seq string) (powers damps : seq rat).
Notation main := (main reseed simulate build sweep metrics num_iter dyn_name exp_name seeds trans powers damps).
Notation attempts := (attempts reseed simulate build sweep metrics num_iter dyn_name exp_name seeds trans powers damps).

(** deterministic runs of at most 50 iterations (or with override, any number) can be killed and restarted any number of times *)
Theorem C47_resume (override : bool) d0 l w w' :
  deterministic reseed simulate build sweep metrics num_iter -> dyn_name != exp_name ->
  override \/ (num_iter <= 50)%N -> schema_ok dyn_name exp_name d0 ->
  let r := main override (start w (attempts override l d0) None) in
  let r0 := main override (start w' d0 None) in
  [/\ r.2 = r0.2, s_working r.1 = s_working r0.1 & lookup (s_durable r.1) exp_name = lookup (s_durable r0.1) exp_name].
Proof. exact: resume_main. Qed.
(** results that depend on the random state are reproduced as well when nothing is skipped: with override ... *)
Theorem C47_resume_random d0 l w w' :
  (forall seed w w', reseed seed w = reseed seed w') -> dyn_name != exp_name -> schema_ok dyn_name exp_name d0 ->
  let r := main true (start w (attempts true l d0) None) in
  let r0 := main true (start w' d0 None) in
  [/\ r.2 = r0.2, s_working r.1 = s_working r0.1 & lookup (s_durable r.1) exp_name = lookup (s_durable r0.1) exp_name].
Proof. exact: resume_random. Qed.
(** ... and with fewer than 50 iterations, if no 50th iteration was stored before *)
Theorem C47_resume_short d0 l w w' : dyn_name != exp_name -> (num_iter < 50)%N ->
  (forall seed w w', reseed seed w = reseed seed w') -> schema_ok dyn_name exp_name d0 ->
  (forall t, lookup d0 exp_name = Some t -> forall r, r \in trows t -> cell t r "Iter" != VNum 50%:R) ->
  let r := main false (start w (attempts false l d0) None) in
  let r0 := main false (start w' d0 None) in
  [/\ r.2 = r0.2, s_working r.1 = s_working r0.1 & lookup (s_durable r.1) exp_name = lookup (s_durable r0.1) exp_name].
Proof. by move=> h1 h2 h3 h4 h5; exact: resume_short. Qed.
(** whatever happens (override or not, death at any point, exceptions): tables only grow, stored rows are never replaced *)
Theorem C47_kept override l d : grown d (attempts override l d).
Proof. exact: attempts_grown. Qed.
(** and no key is ever stored twice *)
Theorem C47_unique override w d k : (forall n t, lookup d n = Some t -> unique_keys t) ->
  forall n t, lookup (s_durable (main override (start w d k)).1) n = Some t -> unique_keys t.
Proof. exact: uniq_main. Qed.
(** a sweep with nothing left to do commits nothing: the simulated trajectories it inserted are lost *)
Theorem C47_uncommitted w d fuel t td0 : dyn_name != exp_name -> lookup d dyn_name = Some td0 -> lookup d exp_name = Some t ->
  (forall sd c, sd \in seeds -> List.In c (product sd trans powers damps) -> has (matches t c) (trows t)) ->
  s_durable (main false (start w d fuel)).1 = d.
Proof. by move=> h1 h2 h3 h4; apply: (unsaved _ _ _ _ _ _ h1 _ _ h2 h3 h4). Qed.
(** numerical failures (LinAlgError) in any settings never end a sweep, whatever was stored before *)
Theorem C47_completes override w d : dyn_name != exp_name -> schema_ok dyn_name exp_name d ->
  (forall w, exists w' p xy, simulate w = (w', Ok (p :: xy))) ->
  (forall c xy w e, (build c xy w).2 = Err e -> e = LinAlgErr) ->
  (forall w e, (sweep w).2 = Err e -> e = LinAlgErr) -> (forall w e, (metrics w).2 = Err e -> e = LinAlgErr) ->
  (main override (start w d None)).2 = Done tt.
Proof. by move=> h1 h2 h3 h4 h5 h6; apply: main_done. Qed.
End C47.

(** ** the unrestricted resume claim fails *)
Module Wit.
Definition W := nat.
Definition reseed (s : int) (w : W) : W := absz s.
Definition simulate (w : W) : W * res data := (w, Ok [:: (VNum 7%:R, VNum 8%:R)]).
Definition build (c : cfg) (xy : data) (w : W) : W * res unit := (w, Ok tt).
Definition sweep (w : W) : W * res unit := (w, Ok tt).
Definition steady (w : W) : W * res (val * val) := (w, Ok (VNum 1, VNum 2%:R)).
(** a draw from the generator *)
Definition random (w : W) : W * res (val * val) := (w.+1, Ok (VNum w%:R, VNum 2%:R)).
Notation main m n damps d fuel := (main reseed simulate build sweep m n "D" "E" [:: Posz 5] [:: "UT"] [:: 1%R] damps false (start 0%N d fuel)).
Definition erows (d : db) : seq row := if lookup d "E" is Some t then trows t else [::].
Lemma steady_det n : deterministic reseed simulate build sweep steady n.
Proof.
split=> // c xy w w'; rewrite /setting_logs /build.
by elim: n => //= n IH; rewrite IH.
Qed.
End Wit.
(** more than 50 iterations: killed after the 50th, the rest is never computed *)
Theorem C47_resume_long_refuted : exists fuel,
  let d := s_durable (Wit.main Wit.steady 51 [:: 1%R] [::] (Some fuel)).1 in
  size (Wit.erows (s_durable (Wit.main Wit.steady 51 [:: 1%R] [::] None).1)) = 51%N /\
  size (Wit.erows (s_durable (Wit.main Wit.steady 51 [:: 1%R] d None).1)) = 50%N.
Proof. by exists 103; vm_compute. Qed.
(** random results with skipping: the second setting starts from another random state *)
Theorem C47_resume_skip_refuted : exists fuel,
  let d := s_durable (Wit.main Wit.random 50 [:: 1%R; 2%:R]%R [::] (Some fuel)).1 in
  nth [::] (Wit.erows (s_durable (Wit.main Wit.random 50 [:: 1%R; 2%:R]%R [::] None).1)) 50
    = [:: VText "UT"; VNum 5%:R; VNum 1; VNum 1; VNum 2%:R; VNum 55%:R; VNum 2%:R; empty_list; empty_list] /\
  nth [::] (Wit.erows (s_durable (Wit.main Wit.random 50 [:: 1%R; 2%:R]%R d None).1)) 50
    = [:: VText "UT"; VNum 5%:R; VNum 1; VNum 1; VNum 2%:R; VNum 5%:R; VNum 2%:R; empty_list; empty_list].
Proof. exists 103; split; apply/eqP; by vm_compute. Qed.

(** ** concrete cases *)
Module Demo.
Import Wit.
(** killed twice, then finished: the hypotheses of C47_resume hold and the table has all rows *)
Example schema_empty : schema_ok "D" "E" [::]. Proof. by []. Qed.
Definition left_behind : db := attempts reseed simulate build sweep steady 3 "D" "E" [:: Posz 5] [:: "UT"] [:: 1%R] [:: 1%R; 2%:R]%R false
  [:: (3%N, Some 6); (4%N, Some 1); (9%N, Some 10)] [::].
Example left_rows : size (erows left_behind) = 3. Proof. by vm_compute. Qed.
Example killed : size (erows (s_durable (Wit.main steady 3 [:: 1%R; 2%:R]%R left_behind None).1)) = 6. Proof. by vm_compute. Qed.
Example killed_same : erows (s_durable (Wit.main steady 3 [:: 1%R; 2%:R]%R left_behind None).1)
  = erows (s_durable (Wit.main steady 3 [:: 1%R; 2%:R]%R [::] None).1).
Proof.
have [_ _ h] := @C47_resume W reseed simulate build sweep steady 3 "D" "E" [:: Posz 5] [:: "UT"] [:: 1%R] [:: 1%R; 2%:R]%R false [::]
  [:: (3%N, Some 6); (4%N, Some 1); (9%N, Some 10)] 0%N 0%N (steady_det 3) isT (or_intror isT) schema_empty.
exact: (congr1 (fun o => if o is Some t then trows t else [::]) h).
Qed.
(** a table created after an uncommitted row: neither is there after a crash, both after a commit *)
Definition both (k : option nat) : db := s_durable (mbind (mbind (insert "D" [:: "x"] [:: VNum 1]) (fun _ => create_table "E" [:: "y"] [::])) (fun _ => @commit W) (start 0%N [:: ("D", Table [:: "x"] [::] [::])] k)).1.
Example open_lost : both (Some 2%N) = [:: ("D", Table [:: "x"] [::] [::])]. Proof. by []. Qed.
Example open_kept : map fst (both (Some 3%N)) = [:: "D"; "E"]. Proof. by []. Qed.
(** the second sweep of every setting fails, the sweep over the settings completes with one row of results for each *)
Definition weak (w : W) : W * res unit := (w.+1, if odd w then Ok tt else Err LinAlgErr).
Example weak_done : (FullSweep.main reseed simulate build weak steady 3 "D" "E" [:: Posz 5; Posz 7] [:: "UT"] [:: 1%R] [:: 1%R] false (start 0%N [::] None)).2 = Done tt.
Proof.
have hs w : exists w' p xy, simulate w = (w', Ok (p :: xy)) by exists w, (VNum 7%:R, VNum 8%:R), [::].
have hb c xy w e : (build c xy w).2 = Err e -> e = LinAlgErr by [].
have hw w e : (weak w).2 = Err e -> e = LinAlgErr by rewrite /weak; case: (odd w) => //= -[].
have hm w e : (steady w).2 = Err e -> e = LinAlgErr by [].
exact (@C47_completes W reseed simulate build weak steady 3%N "D" "E" [:: Posz 5; Posz 7] [:: "UT"] [:: 1%R] [:: 1%R] false 0%N [::] isT schema_empty hs hb hw hm).
Qed.
Example weak_rows : size (erows (s_durable (FullSweep.main reseed simulate build weak steady 3 "D" "E" [:: Posz 5; Posz 7] [:: "UT"] [:: 1%R] [:: 1%R] false (start 0%N [::] None)).1)) = 2.
Proof. by vm_compute. Qed.
(** a table with one stored row; a second write with the same key, one with a NULL key *)
Definition t1 := Table exp_cols exp_key [:: [:: VText "UT"; VNum 1; VNum 1; VNum 1; VNum 1; VNum 3%:R; VNum 4%:R; empty_list; empty_list]].
Definition d1 sd (r : rat) : dict := zip exp_cols [:: VText "UT"; sd; VNum 1; VNum 1; VNum 1; VNum r; VNum 4%:R; empty_list; empty_list].
Definition s1 : st nat := start 0%N [:: ("E", t1)] None.
Example first_wins : s_working (insert_experiment_data "E" (d1 (VNum 1) 9%:R) s1).1 = s_working s1.
Proof. by apply: (@C45_first nat "E" _ t1). Qed.
Example null_key : size (erows (s_working (foldl (fun s d => (insert_experiment_data "E" d s).1) s1 [:: d1 VNull 1%R; d1 VNull 1%R]))) = 3.
Proof. by vm_compute. Qed.
Example other_order : dget (rev (d1 (VNum 1) 9%:R)) "RMSE" <> Some (cell t1 (dvalues (rev (d1 (VNum 1) 9%:R))) "RMSE").
Proof. by move/eqP; vm_compute. Qed.
(** two sweeps logged; killed after three operations the first row survives *)
Definition ed := zip exp_data_fields [:: VText "UT"; VNum 2%:R; VNum 0; VNum 1; VNum 1; VNum 0; VNum 0; VNum 0; VNum 0; empty_list].
Example two : map (cell t1 ^~ "Iter") (drop 1 (erows (s_durable (ep_iterations sweep random 2 true ed "E" s1).1))) == [:: VNum 1; VNum 2%:R].
Proof. by vm_compute. Qed.
Example killed_log : size (erows (s_durable (ep_iterations sweep random 2 true ed "E" (start 0%N [:: ("E", t1)] (Some 3))).1)) = 2.
Proof. by vm_compute. Qed.
(** everything stored: a rerun changes nothing on disk although it inserts a trajectory *)
Definition t50 := Table exp_cols exp_key [:: [:: VText "UT"; VNum 5%:R; VNum 50%:R; VNum 1; VNum 1; VNum 3%:R; VNum 4%:R; empty_list; empty_list]].
Definition tD := Table dyn_cols [:: "Seed"; "t"] [::].
Definition stored : db := [:: ("D", tD); ("E", t50)].
Lemma all_stored sd c : sd \in [:: Posz 5] -> List.In c (product sd [:: "UT"] [:: 1%R] [:: 1%R]) -> has (matches t50 c) (trows t50).
Proof. by rewrite inE => /eqP -> [<-|[]]; vm_compute. Qed.
Example rerun : s_durable (Wit.main steady 50 [:: 1%R] stored None).1 = stored.
Proof. exact: (@C47_uncommitted nat reseed simulate build sweep steady 50 "D" "E" [:: Posz 5] [:: "UT"] [:: 1%R] [:: 1%R] 0%N stored None t50 tD isT erefl erefl all_stored). Qed.
Example rerun_lost : size (odflt [::] (omap trows (lookup (s_working (Wit.main steady 50 [:: 1%R] stored None).1) "D"))) = 1.
Proof. by vm_compute. Qed.
End Demo.

Print Assumptions C45_unique.
Print Assumptions C45_first.
Print Assumptions C45_new.
Print Assumptions C45_columns.
Print Assumptions C45_columns_only.
Print Assumptions C45_wrong_size.
Print Assumptions C46_log.
Print Assumptions C46_rows.
Print Assumptions C46_count.
Print Assumptions C46_appended.
Print Assumptions C46_silent.
Print Assumptions C46_create.
Print Assumptions C46_create_open.
Print Assumptions C47_resume.
Print Assumptions C47_resume_random.
Print Assumptions C47_resume_short.
Print Assumptions C47_kept.
Print Assumptions C47_unique.
Print Assumptions C47_uncommitted.
Print Assumptions C47_completes.
Print Assumptions C47_resume_long_refuted.
Print Assumptions C47_resume_skip_refuted.
