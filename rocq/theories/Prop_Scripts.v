(** * Properties of the experiment scripts (C54, C55, C56) *)
Set Warnings "-notation-overridden,-ambiguous-paths".
From mathcomp Require Import all_ssreflect all_algebra.
From Coq Require Import String.
From Verif Require Import Base Database FullSweep SpecDb DatabaseFacts Scripts SpecScripts ScriptsFacts ScriptsRun ScriptsL96 ScriptsIeks BottSweep BottSweepFacts BottDone.
Set Implicit Arguments.
Unset Strict Implicit.
Unset Printing Implicit Defensive.
Import GRing.Theory.
Local Open Scope string_scope.
Local Open Scope ring_scope.

Section C54.
Variable W : Type.
Variable sweep : W -> W * res unit.
Variable metrics : W -> W * res ((val * val) * (val * val) * (val * val)).
(** three rows and a commit per iteration; killed after [f] database operations, exactly the first [f / 4] iterations survive *)
Theorem C54_log n tr qt sd q pw dp a b name t (s : st W) :
  lookup (s_working s) name = Some t -> tcols t = bott_cols ->
  let r := bott_iterations sweep metrics n true (zip bott_fields [:: tr; qt; sd; VNum q; pw; dp; a; b]) name s in
  let ms := trace sweep metrics n (s_w s) in
  let rows := triples tr sd pw dp q ms.1 in
  match s_fuel s with
  | None => [/\ r.2 = outcome ms.2, s_working r.1 = update (s_working s) name (insert_all t (flatten rows))
              & s_durable r.1 = if rows is [::] then s_durable s else s_working r.1]
  | Some f =>
      if (f < 4 * size rows)%N
      then r.2 = Died /\ s_durable r.1 = if (f %/ 4)%N is 0%N then s_durable s else update (s_working s) name (insert_all t (flatten (take (f %/ 4) rows)))
      else [/\ r.2 = outcome ms.2, s_working r.1 = update (s_working s) name (insert_all t (flatten rows))
              & s_durable r.1 = if rows is [::] then s_durable s else s_working r.1]
  end.
Proof. exact: bott_run. Qed.
(** whatever happens, an iteration is stored for all three quantities or for none *)
Theorem C54_complete n tr qt sd q pw dp a b name t (s : st W) :
  lookup (s_working s) name = Some t -> tcols t = bott_cols -> tkey t = bott_key -> VNull \notin [:: tr; sd; pw; dp] ->
  complete t -> (forall t', lookup (s_durable s) name = Some t' -> complete t') ->
  let r := bott_iterations sweep metrics n true (zip bott_fields [:: tr; qt; sd; VNum q; pw; dp; a; b]) name s in
  forall t', lookup (s_durable r.1) name = Some t' -> complete t'.
Proof. exact: bott_complete. Qed.
(** without a reference trajectory nothing is stored *)
Theorem C54_silent n d name (s : st W) : bott_iterations sweep metrics n false d name s =
  (St (sweeps sweep n (s_w s)).1 (s_durable s) (s_working s) (s_intx s) (s_fuel s), outcome (sweeps sweep n (s_w s)).2).
Proof. exact: bott_silent. Qed.

(** one setting of the turn experiment: iterations 1, 2, ... under the setting's name *)
Theorem C54_power_sweep b n tr sd pw dp name w w1 d t : lookup d name = Some t -> tcols t = bott_cols -> b w = (w1, Ok tt) ->
  let r := bott_sweep sweep metrics b n tr sd pw dp name (start w d None) in
  let ms := trace sweep metrics n w1 in
  let rows := triples (VText tr) (VNum sd%:~R) (VNum pw) (VNum dp) 0 ms.1 in
  [/\ r.2 = outcome ms.2, s_working r.1 = update d name (insert_all t (flatten rows))
    & s_durable r.1 = if rows is [::] then d else s_working r.1].
Proof. by move=> h1 h2 h3 r ms rows; have := sweepE sweep metrics n b tr sd pw dp (s := start w d None) h1 h2; rewrite h3. Qed.

Section Sweep.
Variable reseed : int -> W -> W.
Variable simulate : W -> W * res data.
Variable build : cfg -> data -> W -> W * res unit.
Variables (num_iter : nat) (dyn_name name : string).
Hypothesis names : dyn_name != name.
Notation main := (bott_main reseed simulate build sweep metrics num_iter dyn_name name).
(** any number of attempts, killed or stopped by exceptions anywhere, leaves whole iterations only *)
Theorem C54_attempts seeds trans powers damps override l d :
  (forall t, lookup d name = Some t -> bott_table t) ->
  forall t, lookup (attempts_of (main seeds trans powers damps override) l d) name = Some t -> bott_table t.
Proof. exact (@main_attempts W reseed simulate build sweep metrics num_iter dyn_name name names seeds trans powers damps override l d). Qed.
(** a setting is skipped if any row of its fiftieth iteration is stored: nothing happens, and all three rows are stored *)
Theorem C54_skips c xy (s : st W) t r : lookup (s_working s) name = Some t -> bott_table t -> r \in trows t -> matches t c r ->
  bott_setting build sweep metrics num_iter name false c xy s = (s, Done tt) /\
  forall q, q \in quantities ->
  [:: VText (c_trans c); VText q; VNum (c_seed c)%:~R; VNum 50%:R; VNum (c_power c); VNum (c_damp c)] \in map (keyof t) (trows t).
Proof. by move=> h1 h2 h3 h4; split=> [|q]; [apply: setting_skip h1 h3 h4 | apply: skipped_stored h2 h3 h4]. Qed.
(** once every setting has a fiftieth iteration another run leaves the results as they are, killed or not *)
Theorem C54_rerun seeds trans powers damps w d k t : lookup d name = Some t ->
  (forall seed c, seed \in seeds -> List.In c (product seed trans powers damps) -> has (matches t c) (trows t)) ->
  lookup (s_durable (main seeds trans powers damps false (start w d k)).1) name = Some t.
Proof. by move=> h1 h2; have [] := idle_main reseed simulate build sweep metrics num_iter names h2 (s := start w d k) (conj h1 h1). Qed.
(** numerical failures (LinAlgError) never end the sweep over the settings *)
Theorem C54_completes seeds trans powers damps override w d :
  (forall t, lookup d dyn_name = Some t -> tcols t = dyn_cols) -> (forall t, lookup d name = Some t -> tcols t = bott_cols) ->
  (forall w, exists w' p xy, simulate w = (w', Ok (p :: xy))) ->
  (forall c xy w e, (build c xy w).2 = Err e -> e = LinAlgErr) ->
  (forall w e, (sweep w).2 = Err e -> e = LinAlgErr) -> (forall w e, (metrics w).2 = Err e -> e = LinAlgErr) ->
  (main seeds trans powers damps override (start w d None)).2 = Done tt.
Proof. by move=> h1 h2 h3 h4 h5 h6; apply: bott_done. Qed.
End Sweep.
End C54.

Section C55.
Variable W : Type.
Variables (make : nat -> W -> W * res unit) (reseed : int -> W -> W) (simulate : W -> W * res unit).
Variables (build : nat -> rat -> rat -> W -> W * res unit) (sweep : W -> W * res unit) (record : nat -> W -> W * res unit).
Variable metrics : W -> W * res (val * val).
Variables (name trans : string) (dims : seq nat) (seeds : seq int) (settings : seq (rat * rat * nat)).
Notation main := (l96_main make reseed simulate build sweep record metrics name trans dims seeds settings).
Notation work := (l96_work make reseed simulate build sweep record metrics dims seeds settings).
Notation keys := (l96_keys trans dims seeds settings).
(** a first run stores one row per iteration as it goes; killed after [k] operations the first [(k - 2) / 2] survive *)
Theorem C55_first w d f : (forall t, lookup d name = Some t -> t = Table l96_cols l96_key [::]) -> uniq keys ->
  let r := main (start w d f) in let ms := chain work w in let rows := l96_rows keys ms.1 in
  [/\ r.2 = (if f is Some k then if (k < 2 + 2 * size rows)%N then Died else outcome ms.2 else outcome ms.2),
      f <> Some 0%N -> lookup (s_durable r.1) name =
        Some (Table l96_cols l96_key (if f is Some k then take ((k - 2) %/ 2) rows else rows)),
      f = Some 0%N -> s_durable r.1 = d
    & forall n, n != name -> lookup (s_durable r.1) n = lookup d n].
Proof. by move=> h; apply: l96_fresh; rewrite /fresh; case: (lookup d name) h => // t; apply. Qed.
(** once the row of the first iteration is stored, no run stores anything or returns ... *)
Theorem C55_stuck w d f t k ks : lookup d name = Some t -> tcols t = l96_cols -> tkey t = l96_key ->
  keys = k :: ks -> k \in map (keyof t) (trows t) ->
  let r := main (start w d f) in s_durable r.1 = d /\ r.2 <> Done tt.
Proof. exact: l96_stuck. Qed.
(** ... and a run that is not killed ends with IntegrityError *)
Theorem C55_error w d t k ks : lookup d name = Some t -> tcols t = l96_cols -> tkey t = l96_key ->
  keys = k :: ks -> k \in map (keyof t) (trows t) ->
  (forall d, total (make d)) -> total simulate -> (forall d p q, total (build d p q)) -> total sweep -> (forall i, total (record i)) -> total metrics ->
  (main (start w d None)).2 = Raised DbErr.
Proof. exact: l96_stuck_err. Qed.
(** so after an interrupted first run with any result the rest is never computed *)
Theorem C55_once w d f t : (forall t, lookup d name = Some t -> t = Table l96_cols l96_key [::]) -> uniq keys ->
  lookup (s_durable (main (start w d f)).1) name = Some t -> trows t <> [::] ->
  forall l, attempts_of main l (s_durable (main (start w d f)).1) = s_durable (main (start w d f)).1.
Proof. by move=> h; apply: l96_once; rewrite /fresh; case: (lookup d name) h => // t'; apply. Qed.
End C55.

Section C56.
Variable W : Type.
Variables (reseed : int -> W -> W) (name : string) (num_iter : nat) (P : W -> Prop) (d0 : db).
(** killed any number of times at any point and run again, the sweep ends as one uninterrupted run: the growth model, ... *)
Theorem C56_ungm experiment seeds v l w w' : (forall s, reproducible P (fun w => experiment (reseed s w)) (v s)) ->
  schema name ungm_cols [:: "Seed"; "Iter"] d0 -> all_in P l -> P w -> P w' ->
  let main := ieks_ungm reseed name num_iter experiment seeds in
  let r := main (start w (attempts_of main l d0) None) in let r0 := main (start w' d0 None) in
  [/\ r.2 = r0.2, s_durable r.1 = s_durable r0.1 & s_working r.1 = s_working r0.1].
Proof. by move=> h1 h2; apply: ungm_resume h1 h2 _ _ _. Qed.
(** ... the Lorenz model, when its initial conditions are stored (worlds in [P]), ... *)
Theorem C56_l96 make experiment dims seeds v l w w' : (forall d, reproducible P (make d) (Ok tt)) ->
  (forall c, reproducible P (fun w => experiment c.1 (reseed c.2 w)) (v c)) ->
  schema name ieks_l96_cols [:: "dim"; "Seed"; "Iter"] d0 -> all_in P l -> P w -> P w' ->
  let main := ieks_l96 reseed name num_iter make experiment dims seeds in
  let r := main (start w (attempts_of main l d0) None) in let r0 := main (start w' d0 None) in
  [/\ r.2 = r0.2, s_durable r.1 = s_durable r0.1 & s_working r.1 = s_working r0.1].
Proof. by move=> h1 h2 h3; apply: il96_resume h1 h2 h3 _ _ _. Qed.
(** ... and bearings-only tracking *)
Theorem C56_bott experiment seeds v l w w' : (forall s, reproducible P (fun w => experiment (reseed s w)) (v s)) ->
  schema name ieks_bott_cols [:: "Quantity"; "Seed"; "Iter"] d0 -> all_in P l -> P w -> P w' ->
  let main := ieks_bott reseed name num_iter experiment seeds in
  let r := main (start w (attempts_of main l d0) None) in let r0 := main (start w' d0 None) in
  [/\ r.2 = r0.2, s_durable r.1 = s_durable r0.1 & s_working r.1 = s_working r0.1].
Proof. by move=> h1 h2; apply: ib_resume h1 h2 _ _ _. Qed.
(** what that run leaves in a new table: the results up to the first exception, in the order of the loops *)
Theorem C56_ungm_rows experiment seeds v w : (forall s, reproducible P (fun w => experiment (reseed s w)) (v s)) ->
  P w -> lookup d0 name = None -> uniq seeds ->
  let r := ieks_ungm reseed name num_iter experiment seeds (start w d0 None) in let ms := collect (map v seeds) in
  r.2 = outcome ms.2 /\ lookup (s_durable r.1) name = Some (Table ungm_cols [:: "Seed"; "Iter"] (ungm_rows num_iter seeds ms.1)).
Proof. by move=> h1 hw hl hu; apply: (ungm_result num_iter h1 _ hw hl hu) => t; rewrite hl. Qed.
Theorem C56_l96_rows make experiment dims seeds v w : (forall d, reproducible P (make d) (Ok tt)) ->
  (forall c, reproducible P (fun w => experiment c.1 (reseed c.2 w)) (v c)) ->
  P w -> lookup d0 name = None -> uniq dims -> uniq seeds ->
  let cases := [seq (d, s) | d <- dims, s <- seeds] in
  let r := ieks_l96 reseed name num_iter make experiment dims seeds (start w d0 None) in let ms := collect (map v cases) in
  r.2 = outcome ms.2 /\ lookup (s_durable r.1) name = Some (Table ieks_l96_cols [:: "dim"; "Seed"; "Iter"] (ieks_l96_rows num_iter cases ms.1)).
Proof. by move=> h1 h2 hw hl hu hv; apply: (il96_result num_iter h1 h2 _ hw hl hu hv) => t; rewrite hl. Qed.
Theorem C56_bott_rows experiment seeds v w : (forall s, reproducible P (fun w => experiment (reseed s w)) (v s)) ->
  P w -> lookup d0 name = None -> uniq seeds ->
  let r := ieks_bott reseed name num_iter experiment seeds (start w d0 None) in let ms := collect (map v seeds) in
  r.2 = outcome ms.2 /\ lookup (s_durable r.1) name = Some (Table ieks_bott_cols [:: "Quantity"; "Seed"; "Iter"] (ieks_bott_rows num_iter seeds ms.1)).
Proof. by move=> h1 hw hl hu; apply: (ib_result num_iter h1 _ hw hl hu) => t; rewrite hl. Qed.
End C56.

(** ** concrete cases *)
Module Case.
(** the world is the state of the random generator *)
Definition W := nat.
Definition reseed (s : int) (w : W) : W := absz s.
Definition ok (w : W) : W * res unit := (w, Ok tt).
Definition draw (w : W) : W * res (val * val) := (w.+1, Ok (VNum w%:R, VNum 2%:R)).
Definition draw3 (w : W) : W * res ((val * val) * (val * val) * (val * val)) :=
  (w.+1, Ok ((VNum w%:R, VNum 1), (VNum 2%:R, VNum 3%:R), (VNum 4%:R, VNum 5%:R))).
(** bearings only: two iterations; killed after seven operations one survives, complete *)
Definition t0 := Table bott_cols bott_key [::].
Definition ed := zip bott_fields [:: VText "UT"; VNull; VNum 5%:R; VNum 0; VNum 1; VNum 1; VNum 0; VNum 0].
Definition rows_of (d : db) (n : string) : seq row := if lookup d n is Some t then trows t else [::].
Example killed_bott : rows_of (s_durable (bott_iterations ok draw3 2%N true ed "E" (start 9%N [:: ("E", t0)] (Some 7%N))).1) "E" =
  [:: [:: VText "UT"; VText "position"; VNum 5%:R; VNum 1; VNum 1; VNum 1; VNum 9%:R; VNum 1];
      [:: VText "UT"; VText "velocity"; VNum 5%:R; VNum 1; VNum 1; VNum 1; VNum 2%:R; VNum 3%:R];
      [:: VText "UT"; VText "angle"; VNum 5%:R; VNum 1; VNum 1; VNum 1; VNum 4%:R; VNum 5%:R]].
Proof. by apply/eqP; vm_compute. Qed.
Lemma complete0 : complete t0. Proof. by []. Qed.
Example complete_bott t' : lookup (s_durable (bott_iterations ok draw3 2%N true ed "E" (start 9%N [:: ("E", t0)] (Some 7%N))).1) "E" = Some t' -> complete t'.
Proof.
apply: (@C54_complete W ok draw3 2%N (VText "UT") VNull (VNum 5%:R) 0 (VNum 1) (VNum 1) (VNum 0) (VNum 0) "E" t0 (start 9%N [:: ("E", t0)] (Some 7%N)) erefl erefl erefl isT complete0).
by move=> t [<-].
Qed.
Example silent_bott : s_durable (bott_iterations ok draw3 2%N false ed "E" (start 9%N [:: ("E", t0)] None)).1 = [:: ("E", t0)].
Proof. by rewrite (C54_silent ok draw3 2%N ed "E" (start 9%N [:: ("E", t0)] None)). Qed.
(** the turn experiment with fifty iterations, killed and restarted; then run again *)
Definition sim1 (w : W) : W * res data := (w.+1, Ok [:: (VBlob 1, VBlob 2)]).
Notation turn f := (bott_main reseed sim1 (fun _ _ => ok) ok draw3 50%N "BOTT_SIM" "BOTT_EXP" [:: Posz 101] [:: "UT"; "TT"] [:: 1] [:: 1] f).
Definition turns := attempts_of (turn false) [:: (0%N, Some 9%N); (3%N, None)] [::].
Example turn_rows : size (rows_of turns "BOTT_EXP") == 300%N. Proof. by vm_compute. Qed.
Definition found (d : db) (c : cfg) : bool := if lookup d "BOTT_EXP" is Some t then has (matches t c) (trows t) else false.
Lemma again d k t : found d (Cfg 101 "UT" 1 1) && found d (Cfg 101 "TT" 1 1) -> lookup d "BOTT_EXP" = Some t ->
  lookup (s_durable (turn false (start 5%N d k)).1) "BOTT_EXP" = Some t.
Proof.
move=> h0 h; move: h0; rewrite /found h => /andP [h1 h2].
by apply: C54_rerun h _ => // seed c; rewrite inE => /eqP-> [<-|[<-|//]].
Qed.
Example found_both : found turns (Cfg 101 "UT" 1 1) && found turns (Cfg 101 "TT" 1 1). Proof. by vm_compute. Qed.
Definition turn_again k t := @again turns k t found_both.
Example turn_whole t : lookup (attempts_of (turn true) [:: (0%N, Some 9%N); (3%N, Some 30%N)] [::]) "BOTT_EXP" = Some t -> bott_table t.
Proof. by apply: C54_attempts. Qed.
Example turn_one : (bott_sweep ok draw3 ok 2%N "UT" (Posz 5) 1 1 "E" (start 9%N [:: ("E", t0)] None)).2 = Done tt.
Proof. by have [] := @C54_power_sweep W ok draw3 ok 2%N "UT" (Posz 5) 1 1 "E" 9%N 9%N [:: ("E", t0)] t0 erefl erefl erefl. Qed.
(** a turn experiment that breaks down in the second iteration of every setting *)
Definition weak (w : W) : W * res unit := (w.+1, if odd w then Err LinAlgErr else Ok tt).
Notation weak_main := (bott_main reseed sim1 (fun _ _ w => (8%N, Ok tt)) weak (fun w => (w, (draw3 w).2)) 50%N "BOTT_SIM" "BOTT_EXP" [:: Posz 101] [:: "UT"; "TT"] [:: 1] [:: 1] false (start 0%N [::] None)).
Example weak_turn : weak_main.2 = Done tt.
Proof.
have h1 w : exists w' p xy, sim1 w = (w', Ok (p :: xy)) by exists w.+1, (VBlob 1, VBlob 2), [::].
have h2 w e : (weak w).2 = Err e -> e = LinAlgErr by rewrite /weak; case: (odd w) => //= -[].
have h3 (t : table) : None = Some t -> tcols t = dyn_cols by [].
have h4 (t : table) : None = Some t -> tcols t = bott_cols by [].
have h5 (c : cfg) (xy : data) (w : W) e : ((8%N, Ok tt) : W * res unit).2 = Err e -> e = LinAlgErr by [].
have h6 w e : ((w, (draw3 w).2) : W * _).2 = Err e -> e = LinAlgErr by [].
exact (@C54_completes W weak (fun w => (w, (draw3 w).2)) reseed sim1 (fun _ _ w => (8%N, Ok tt)) 50%N "BOTT_SIM" "BOTT_EXP" isT [:: Posz 101] [:: "UT"; "TT"] [:: 1] [:: 1] false 0%N [::] h3 h4 h1 h5 h2 h6).
Qed.
Example weak_turn_rows : size (rows_of (s_durable weak_main.1) "BOTT_EXP") = 6%N. Proof. by vm_compute. Qed.
(** Lorenz: two dimensions, one seed, two powers *)
Notation l96 f d := (l96_main (fun _ => ok) reseed ok (fun _ _ _ => ok) ok (fun _ => ok) draw "L96_EXP" "MCT" [:: 5%N; 10%N] [:: Posz 101] [:: (1, 1, 2%N); (0, 1, 1%N)] (start 0%N d f)).
Definition keys := l96_keys "MCT" [:: 5%N; 10%N] [:: Posz 101] [:: (1, 1, 2%N); (0, 1, 1%N)].
Example keys_distinct : uniq keys && (size keys == 6%N). Proof. by vm_compute. Qed.
Example l96_all : (l96 None [::]).2 = Done tt /\ size (rows_of (s_durable (l96 None [::]).1) "L96_EXP") = 6%N. Proof. by vm_compute. Qed.
Definition interrupted : db := s_durable (l96 (Some 7%N) [::]).1.
Example l96_killed : rows_of interrupted "L96_EXP" == [:: [:: VText "MCT"; VNum 101%:R; VNum 5%:R; VNum 0; VNum 1; VNum 1; VNum 101%:R; VNum 2%:R];
  [:: VText "MCT"; VNum 101%:R; VNum 5%:R; VNum 1; VNum 1; VNum 1; VNum 102%:R; VNum 2%:R]].
Proof. by vm_compute. Qed.
Definition left_table := odflt t0 (lookup interrupted "L96_EXP").
Definition left_key := keyof left_table (nth [::] (trows left_table) 0).
Lemma left_first : keys = left_key :: behead keys. Proof. by apply/eqP; vm_compute. Qed.
Lemma left_in : left_key \in map (keyof left_table) (trows left_table). Proof. by vm_compute. Qed.
Lemma left_lookup : lookup interrupted "L96_EXP" = Some left_table. Proof. by vm_compute. Qed.
Lemma left_cols : tcols left_table = l96_cols. Proof. by vm_compute. Qed.
Lemma left_tkey : tkey left_table = l96_key. Proof. by vm_compute. Qed.
Lemma ok_total : total ok. Proof. by move=> w; exists w, tt. Qed.
Lemma draw_total : total draw. Proof. by move=> w; do 2! eexists. Qed.
Example l96_again : s_durable (l96 None interrupted).1 = interrupted /\ (l96 None interrupted).2 = Raised DbErr.
Proof.
split.
  exact: (proj1 (@C55_stuck W (fun _ => ok) reseed ok (fun _ _ _ => ok) ok (fun _ => ok) draw "L96_EXP" "MCT" [:: 5%N; 10%N] [:: Posz 101]
    [:: (1, 1, 2%N); (0, 1, 1%N)] 0%N interrupted None left_table left_key _ left_lookup left_cols left_tkey left_first left_in)).
exact: (@C55_error W (fun _ => ok) reseed ok (fun _ _ _ => ok) ok (fun _ => ok) draw "L96_EXP" "MCT" [:: 5%N; 10%N] [:: Posz 101]
    [:: (1, 1, 2%N); (0, 1, 1%N)] 0%N interrupted left_table left_key _ left_lookup left_cols left_tkey left_first left_in
    (fun _ => ok_total) ok_total (fun _ _ _ => ok_total) ok_total (fun _ => ok_total) draw_total).
Qed.
(** the IEKS sweeps: an experiment that depends on the seed only, and fails for seed 7 *)
Definition exper (w : W) : W * res (val * val) := if w == 7%N then (0%N, Err LinAlgErr) else (w.+1, Ok (VNum w%:R, VNum 2%:R)).
Definition exper3 (w : W) : W * res ((val * val) * (val * val) * (val * val)) :=
  let: (w', r) := exper w in (w', match r with Ok m => Ok (m, m, m) | Err e => Err e end).
Definition anyw (w : W) : Prop := True.
Lemma exper_rep s : reproducible anyw (fun w => exper (reseed s w)) (exper (absz s)).2. Proof. by []. Qed.
Lemma exper3_rep s : reproducible anyw (fun w => exper3 (reseed s w)) (exper3 (absz s)).2. Proof. by []. Qed.
Definition seeds := [:: Posz 5; Posz 6; Posz 7; Posz 8].
Notation ungm := (ieks_ungm reseed "U" 10%N exper seeds).
Definition kills := [:: (3%N, Some 4%N); (4%N, Some 1%N); (9%N, Some 2%N)].
Lemma anyl : all_in anyw kills. Proof. by []. Qed.
Example ungm_left : size (rows_of (attempts_of ungm kills [::]) "U") = 1%N. Proof. by vm_compute. Qed.
Example ungm_same : s_durable (ungm (start 2%N (attempts_of ungm kills [::]) None)).1 = s_durable (ungm (start 0%N [::] None)).1.
Proof. by have [_ h _] := @C56_ungm W reseed "U" 10%N anyw [::] exper seeds _ kills 2%N 0%N exper_rep (fun t => ltac:(by [])) anyl I I. Qed.
Example ungm_stops : (ungm (start 0%N [::] None)).2 = Raised LinAlgErr /\
  rows_of (s_durable (ungm (start 0%N [::] None)).1) "U" = [:: [:: VNum 5%:R; VNum 10%:R; VNum 5%:R; VNum 2%:R]; [:: VNum 6%:R; VNum 10%:R; VNum 6%:R; VNum 2%:R]].
Proof.
have [h1 h2] := @C56_ungm_rows W reseed "U" 10%N anyw [::] exper seeds _ 0%N exper_rep I erefl isT.
split; first by rewrite h1; vm_compute.
by rewrite /rows_of h2; apply/eqP; vm_compute.
Qed.
Notation il96 := (ieks_l96 reseed "L" 10%N (fun _ => ok) (fun _ => exper) [:: 5%N; 10%N] seeds).
Example il96_same : s_durable (il96 (start 2%N (attempts_of il96 kills [::]) None)).1 = s_durable (il96 (start 0%N [::] None)).1.
Proof.
by have [_ h _] := @C56_l96 W reseed "L" 10%N anyw [::] (fun _ => ok) (fun _ => exper) [:: 5%N; 10%N] seeds (fun c => (exper (absz c.2)).2) kills 2%N 0%N
  (fun _ _ _ => conj I erefl) (fun c => @exper_rep c.2) (fun t => ltac:(by [])) anyl I I.
Qed.
Example il96_rows : lookup (s_durable (il96 (start 0%N [::] None)).1) "L" = Some (Table ieks_l96_cols [:: "dim"; "Seed"; "Iter"]
  [:: [:: VNum 5%:R; VNum 5%:R; VNum 10%:R; VNum 5%:R; VNum 2%:R]; [:: VNum 5%:R; VNum 6%:R; VNum 10%:R; VNum 6%:R; VNum 2%:R]]).
Proof.
have [_ h] := @C56_l96_rows W reseed "L" 10%N anyw [::] (fun _ => ok) (fun _ => exper) [:: 5%N; 10%N] seeds (fun c => (exper (absz c.2)).2) 0%N
  (fun _ _ _ => conj I erefl) (fun c => @exper_rep c.2) I erefl isT isT.
rewrite h; congr (Some (Table _ _ _)); by apply/eqP; vm_compute.
Qed.
Notation ib := (ieks_bott reseed "B" 10%N exper3 seeds).
Example ib_same : s_durable (ib (start 2%N (attempts_of ib kills [::]) None)).1 = s_durable (ib (start 0%N [::] None)).1.
Proof. by have [_ h _] := @C56_bott W reseed "B" 10%N anyw [::] exper3 seeds _ kills 2%N 0%N exper3_rep (fun t => ltac:(by [])) anyl I I. Qed.
Example ib_rows : size (rows_of (s_durable (ib (start 0%N [::] None)).1) "B") = 6%N.
Proof. have [_ h] := @C56_bott_rows W reseed "B" 10%N anyw [::] exper3 seeds _ 0%N exper3_rep I erefl isT; rewrite /rows_of h; by vm_compute. Qed.
End Case.

Print Assumptions C54_log.
Print Assumptions C54_complete.
Print Assumptions C54_power_sweep.
Print Assumptions C54_attempts.
Print Assumptions C54_skips.
Print Assumptions C54_rerun.
Print Assumptions C54_silent.
Print Assumptions C54_completes.
Print Assumptions C55_first.
Print Assumptions C55_stuck.
Print Assumptions C55_error.
Print Assumptions C55_once.
Print Assumptions C56_ungm.
Print Assumptions C56_l96.
Print Assumptions C56_bott.
Print Assumptions C56_ungm_rows.
Print Assumptions C56_l96_rows.
Print Assumptions C56_bott_rows.
