(** * Facts about the simulation loop *)
Set Warnings "-notation-overridden,-ambiguous-paths".
From mathcomp Require Import all_ssreflect.
From Verif Require Import Base Simulate SpecSim.
Set Implicit Arguments.
Unset Strict Implicit.
Unset Printing Implicit Defensive.

Section Heap.
Variable V : Type.
Implicit Type h : seq V.

Lemma deref_size h r v : deref h r = Some v -> r < size h.
Proof. by rewrite /deref; case: ltnP => // ?; rewrite drop_oversize. Qed.
Lemma deref_some h r : r < size h -> exists v, deref h r = Some v.
Proof.
move=> lt; case: h lt => // v h lt; exists (nth v (v :: h) r).
by rewrite /deref (drop_nth v).
Qed.
Lemma deref_rcons h v r :
  deref (rcons h v) r = if r < size h then deref h r else if r == size h then Some v else None.
Proof.
rewrite /deref -cats1 drop_cat; case: ltnP => [lt|].
  by rewrite (drop_nth v lt).
rewrite leq_eqVlt eq_sym => /orP[/eqP ->|lt]; first by rewrite eqxx subnn.
by rewrite drop_oversize ?subn_gt0 // gtn_eqF.
Qed.
Lemma deref_write h r v q : r < size h ->
  deref (take r h ++ v :: drop r.+1 h) q = if q == r then Some v else deref h q.
Proof.
move=> lt; have sz : size (take r h ++ v :: drop r.+1 h) = size h.
  by rewrite size_cat /= size_take lt size_drop subnSK // subnKC // ltnW.
case: (ltnP q (size h)) => lq; last first.
  by rewrite gtn_eqF ?(leq_trans lt lq) // /deref (drop_oversize lq) drop_oversize ?sz.
rewrite /deref (drop_nth v) ?sz // (drop_nth v lq) /= nth_cat size_take lt.
case: ltngtP => [ltq|gtq|->]; last by rewrite subnn.
  by rewrite nth_take.
have -> : q - r = (q - r.+1).+1 by rewrite subnSK.
by rewrite /= nth_drop subnKC.
Qed.
Lemma size_write h r v : r < size h -> size (take r h ++ v :: drop r.+1 h) = size h.
Proof. by move=> lt; rewrite size_cat /= size_take lt size_drop subnSK // subnKC // ltnW. Qed.

Lemma keeps_refl h : keeps h h. Proof. by []. Qed.
Lemma keeps_trans h1 h2 h3 : keeps h1 h2 -> keeps h2 h3 -> keeps h1 h3.
Proof. by move=> a b r v /a /b. Qed.
Lemma keeps_size h h' : keeps h h' -> size h <= size h'.
Proof.
case: (posnP (size h)) => [->//|lt] k.
have [|v /k/deref_size] := @deref_some h (size h).-1; first by rewrite prednK.
by rewrite prednK.
Qed.
Lemma keeps_rcons h v : keeps h (rcons h v).
Proof. by move=> r u e; rewrite deref_rcons (deref_size e). Qed.
Lemma keeps_write h0 h r v : keeps h0 h -> size h0 <= r -> r < size h ->
  keeps h0 (take r h ++ v :: drop r.+1 h).
Proof.
move=> k le lt q u e; rewrite deref_write //.
by rewrite ltn_eqF ?(leq_trans (deref_size e)) //; apply: k.
Qed.
End Heap.

Section Sim.
Variables (V C T W : Type) (mutable : V -> bool) (add iadd : V -> V -> res V).
Variables (rng : V -> C -> W -> W * res V) (tadd : T -> T -> T).
Notation system := (system V C T W).
Notation noise := (noise V C).
Notation M := (M V W).
Notation aug_add := (@aug_add V W mutable add iadd).
Notation sim_loop := (sim_loop mutable add iadd rng tadd).
Notation simulate := (simulate mutable add iadd rng tadd).
Notation nz_sample := (nz_sample rng).
Notation plus := (plus mutable add iadd).

(** ** evaluation of the parts *)
Lemma aug_addE r v h w a : deref h r = Some a ->
  aug_add r v (h, w) =
  match plus a v with
  | Ok b => if mutable a then ((take r h ++ b :: drop r.+1 h, w), Ok r) else ((rcons h b, w), Ok (size h))
  | Err e => ((h, w), Err e)
  end.
Proof.
move=> e; rewrite /aug_add /mbind /read /= e /plus; case: (mutable a) => /=.
  by rewrite /lift; case: (iadd a v).
by rewrite /lift; case: (add a v).
Qed.
(** [x += v] on an array not in [h0] *)
Lemma aug_add_spec h0 r v h w a : deref h r = Some a -> keeps h0 h -> size h0 <= r ->
  match plus a v with
  | Ok b => exists h' r', [/\ aug_add r v (h, w) = ((h', w), Ok r'), keeps h0 h', size h0 <= r',
       deref h' r' = Some b & forall q u, q != r -> deref h q = Some u -> deref h' q = Some u] /\ (r' = r \/ r' = size h)
  | Err e => aug_add r v (h, w) = ((h, w), Err e)
  end.
Proof.
move=> e k le; rewrite (aug_addE _ _ e); case: (plus a v) => // b; case: (mutable a).
  exists (take r h ++ b :: drop r.+1 h), r; split; last by left.
  have lt := deref_size e; split=> //; first exact: keeps_write.
    by rewrite deref_write // eqxx.
  by move=> q u /negbTE ne eq; rewrite deref_write // ne.
exists (rcons h b), (size h); split; last by right.
split=> //; first by move=> q u eq; apply/keeps_rcons/k.
- exact: keeps_size.
- by rewrite deref_rcons ltnn eqxx.
- by move=> q u _ eq; apply: keeps_rcons.
Qed.

Lemma mbindA A B D (m : M A) (k : A -> M B) (g : B -> M D) st :
  mbind (mbind m k) g st = mbind m (fun a => mbind (k a) g) st.
Proof. by rewrite /mbind; case: (m st) => st' []. Qed.
Lemma mbind_ext A B (m : M A) (k k' : A -> M B) st :
  (forall a st, k a st = k' a st) -> mbind m k st = mbind m k' st.
Proof. by move=> e; rewrite /mbind; case: (m st) => st' []. Qed.

Definition body (s : system) (x : ref) (t : T) : M (ref * ref) :=
  mbind (s_trans s t x) (fun x => mbind (draw (nz_sample (s_noise s))) (fun w =>
  mbind (aug_add x w) (fun x => mbind (s_meas s x) (fun y =>
  mbind (draw (nz_sample (s_mnoise s))) (fun v => mbind (aug_add y v) (fun y => @ret V W _ (x, y))))))).

Lemma sim_loopS s N x t st :
  sim_loop s N.+1 x t st =
  mbind (body s x t) (fun xy => mbind (sim_loop s N xy.1 (tadd t (s_dt s)))
    (fun rest => @ret V W _ (xy :: rest))) st.
Proof.
rewrite /body mbindA; apply: mbind_ext => {}x {}st.
rewrite mbindA; apply: mbind_ext => w {}st.
rewrite mbindA; apply: mbind_ext => {}x {}st.
rewrite mbindA; apply: mbind_ext => y {}st.
rewrite mbindA; apply: mbind_ext => v {}st.
by rewrite mbindA; apply: mbind_ext => {}y {}st.
Qed.

(** the outcome of the loop from the outcome of its first round *)
Lemma sim_loopS_ok s N x t st st' refs :
  sim_loop s N.+1 x t st = (st', Ok refs) <->
  exists st1 xy rest, [/\ body s x t st = (st1, Ok xy), refs = xy :: rest &
     sim_loop s N xy.1 (tadd t (s_dt s)) st1 = (st', Ok rest)].
Proof.
rewrite sim_loopS /mbind; split.
  case: (body _ _ _ _) => st1 [xy|//]; case e: (sim_loop _ _ _ _ _) => [st2 [rest|//]] [<- <-].
  by exists st1, xy, rest.
by move=> [st1 [xy [rest [-> -> ->]]]].
Qed.

Lemma mbind_okE A B (m : M A) (k : A -> M B) st st' b :
  mbind m k st = (st', Ok b) <-> exists st1 a, m st = (st1, Ok a) /\ k a st1 = (st', Ok b).
Proof.
rewrite /mbind; split; first by case: (m st) => st1 [a|//] e; exists st1, a.
by move=> [st1 [a [-> ->]]].
Qed.
Lemma draw_okE f (st st' : state V W) v : draw f st = (st', Ok v) <-> exists w', f st.2 = (w', Ok v) /\ st' = (st.1, w').
Proof.
rewrite /draw; case: (f st.2) => w' r; split=> [[<- /= ->]|[w2 [[<- ->] ->]] //].
by exists w'.
Qed.

Lemma mbindE A B (m : M A) (k : A -> M B) st :
  mbind m k st = match m st with (st', Ok a) => k a st' | (st', Err e) => (st', Err e) end.
Proof. by []. Qed.
Lemma drawE f (h : heap V) (w : W) : draw f (h, w) = ((h, (f w).1), (f w).2).
Proof. by []. Qed.

(** the value-level round: transition, noise, measurement, noise *)
Definition vround (s : system) (f : T -> V -> res V) (g : V -> res V) (t : T) (x : V) (w : W) : W * res (V * V) :=
  match f t x with Err e => (w, Err e) | Ok a =>
  match nz_sample (s_noise s) w with (w1, Err e) => (w1, Err e) | (w1, Ok n) =>
  match plus a n with Err e => (w1, Err e) | Ok x' =>
  match g x' with Err e => (w1, Err e) | Ok b =>
  match nz_sample (s_mnoise s) w1 with (w2, Err e) => (w2, Err e) | (w2, Ok m) =>
  match plus b m with Err e => (w2, Err e) | Ok y' => (w2, Ok (x', y')) end end end end end end.

(** the round when the measurement function hands back the state array *)
Definition vleak (s : system) (f : T -> V -> res V) (t : T) (x : V) (w : W) : W * res (V * V) :=
  match f t x with Err e => (w, Err e) | Ok a =>
  match nz_sample (s_noise s) w with (w1, Err e) => (w1, Err e) | (w1, Ok n) =>
  match plus a n with Err e => (w1, Err e) | Ok x' =>
  match nz_sample (s_mnoise s) w1 with (w2, Err e) => (w2, Err e) | (w2, Ok m) =>
  match plus x' m with Err e => (w2, Err e) | Ok y' => (w2, Ok (y', y')) end end end end end.

Lemma body_fresh s f g t x h w v :
  fresh_fun (s_trans s t) (f t) -> fresh_fun (s_meas s) g -> deref h x = Some v ->
  match vround s f g t v w with
  | (w', Ok (x', y')) => exists h' r q, [/\ body s x t (h, w) = ((h', w'), Ok (r, q)), keeps h h',
       deref h' r = Some x', deref h' q = Some y' & [/\ size h <= r, size h <= q & r != q]]
  | (w', Err e) => exists h', body s x t (h, w) = ((h', w'), Err e) /\ keeps h h'
  end.
Proof.
move=> hF hH ev; rewrite /vround /body.
have := hF x h w v ev; case: (f t v) => [a|e]; last by case=> h1 [e1 k1]; exists h1; rewrite mbindE e1.
case=> h1 [r1 [e1 k1 le1 d1]].
case es: (nz_sample (s_noise s) w) => [w1 [n|e]]; last first.
  by exists h1; rewrite mbindE e1 mbindE drawE es.
have := aug_add_spec n w1 d1 k1 le1; case: (plus a n) => [x'|e] H; last first.
  by exists h1; rewrite mbindE e1 mbindE drawE es /= mbindE H.
have [h2 [r2 [[e2 k2 le2 d2 _] _]]] := H; clear H.
have := hH r2 h2 w1 x' d2; case: (g x') => [b|e] H; last first.
  by have [h3 [e3 k3]] := H; exists h3; rewrite mbindE e1 mbindE drawE es /= mbindE e2 mbindE e3; split=> //; apply: (keeps_trans k2 k3).
have [h3 [r3 [e3 k3 le3 d3]]] := H; clear H.
case es2: (nz_sample (s_mnoise s) w1) => [w2 [m|e]]; last first.
  exists h3; rewrite mbindE e1 mbindE drawE es /= mbindE e2 mbindE e3 mbindE drawE es2.
  by split=> //; apply: (keeps_trans k2 k3).
have := aug_add_spec m w2 d3 k3 le3; case: (plus b m) => [y'|e] H; last first.
  exists h3; rewrite mbindE e1 mbindE drawE es /= mbindE e2 mbindE e3 mbindE drawE es2 /= mbindE H.
  by split=> //; apply: (keeps_trans k2 k3).
have [h4 [r4 [[e4 k4 le4 d4 _] _]]] := H; clear H.
exists h4, r2, r4; rewrite mbindE e1 mbindE drawE es /= mbindE e2 mbindE e3 mbindE drawE es2 /= mbindE e4.
split=> //; [apply: (keeps_trans k2 k4)|exact: k4|].
have lt := leq_trans (deref_size d2) le4; rewrite neq_ltn lt; split=> //.
exact: leq_trans (keeps_size k2) le4.
Qed.

Lemma body_leak s f t x h w v :
  fresh_fun (s_trans s t) (f t) -> returns_argument (s_meas s) -> deref h x = Some v ->
  (forall a, f t v = Ok a -> mutable a) -> (forall a b c, mutable a -> iadd a b = Ok c -> mutable c) ->
  match vleak s f t v w with
  | (w', Ok (x', y')) => exists h' r, [/\ body s x t (h, w) = ((h', w'), Ok (r, r)), keeps h h',
       deref h' r = Some y', x' = y' & size h <= r]
  | (w', Err e) => exists h', body s x t (h, w) = ((h', w'), Err e) /\ keeps h h'
  end.
Proof.
move=> hF hH ev mf mi; rewrite /vleak /body.
have := hF x h w v ev; case: (f t v) mf => [a|e] mf; last by case=> h1 [e1 k1]; exists h1; rewrite mbindE e1.
case=> h1 [r1 [e1 k1 le1 d1]].
case es: (nz_sample (s_noise s) w) => [w1 [n|e]]; last first.
  by exists h1; rewrite mbindE e1 mbindE drawE es.
have ma := mf a erefl; have a1 := aug_addE n w1 d1.
move: a1; rewrite /plus ma; case ei: (iadd a n) => [x'|e] a1; last first.
  by exists h1; rewrite mbindE e1 mbindE drawE es /= mbindE a1.
have lt1 := deref_size d1; set h2 := take r1 h1 ++ _ in a1.
have d2 : deref h2 r1 = Some x' by rewrite deref_write // eqxx.
have k2 : keeps h h2 by apply: keeps_write.
case es2: (nz_sample (s_mnoise s) w1) => [w2 [m|e]]; last first.
  by exists h2; rewrite mbindE e1 mbindE drawE es /= mbindE a1 mbindE hH mbindE drawE es2.
have := aug_addE m w2 d2; rewrite /plus (mi _ _ _ ma ei); case: (iadd x' m) => [y'|e] a2; last first.
  by exists h2; rewrite mbindE e1 mbindE drawE es /= mbindE a1 mbindE hH mbindE drawE es2 /= mbindE a2.
have lt2 := deref_size d2; exists (take r1 h2 ++ y' :: drop r1.+1 h2), r1.
rewrite mbindE e1 mbindE drawE es /= mbindE a1 mbindE hH mbindE drawE es2 /= mbindE a2.
split=> //; first exact: keeps_write.
by rewrite deref_write // eqxx.
Qed.

(** the loop over value-level rounds *)
Fixpoint vsim (rnd : T -> V -> W -> W * res (V * V)) (dt : T) (N : nat) (t : T) (x : V) (w : W) : W * res (seq (V * V)) :=
  if N is N'.+1 then
    match rnd t x w with (w', Err e) => (w', Err e) | (w', Ok xy) =>
    match vsim rnd dt N' (tadd t dt) xy.1 w' with (w2, Err e) => (w2, Err e) | (w2, Ok l) => (w2, Ok (xy :: l)) end end
  else (w, Ok [::]).

Lemma vsimS rnd dt N t x w : vsim rnd dt N.+1 t x w =
    match rnd t x w with (w', Err e) => (w', Err e) | (w', Ok xy) =>
    match vsim rnd dt N (tadd t dt) xy.1 w' with (w2, Err e) => (w2, Err e) | (w2, Ok l) => (w2, Ok (xy :: l)) end end.
Proof. by []. Qed.

Lemma values_keeps (h h' : heap V) refs l : keeps h h' -> values h refs = somes l -> values h' refs = somes l.
Proof.
move=> k; elim: refs l => [|[r q] refs IH] [|[a b] l] //= [/k -> /k -> /IH e].
by rewrite e.
Qed.

Lemma loop_fresh s f g N t x h w v :
  (forall t, fresh_fun (s_trans s t) (f t)) -> fresh_fun (s_meas s) g -> deref h x = Some v ->
  match vsim (vround s f g) (s_dt s) N t v w with
  | (w', Ok l) => exists h' refs, [/\ sim_loop s N x t (h, w) = ((h', w'), Ok refs), keeps h h',
       values h' refs = somes l, uniq (flat refs) & all (leq (size h)) (flat refs)]
  | (w', Err e) => exists h', sim_loop s N x t (h, w) = ((h', w'), Err e) /\ keeps h h'
  end.
Proof.
move=> hF hH; elim: N t x h w v => [|N IH] t x h w v ev; first by exists h, [::]; split.
rewrite /= -/(sim_loop s N.+1 x t (h, w)).
have := body_fresh w (hF t) hH ev; case: (vround s f g t v w) => w1 [[x' y']|e]; last first.
  by case=> h1 [e1 k1]; exists h1; rewrite -[sim_loop _ _ _ _ _]/(sim_loop s N.+1 x t (h, w)) sim_loopS mbindE e1.
case=> h1 [r [q [e1 k1 dr dq [ler leq' ne]]]].
have := IH (tadd t (s_dt s)) r h1 w1 x' dr; rewrite /fst.
case: (vsim _ _ _ _ _ _) => w2 [l|e] [h2].
  case=> refs [e2 k2 ev2 u2 a2]; exists h2, ((r, q) :: refs).
  rewrite sim_loopS mbindE e1 mbindE e2; split=> //; first apply: (keeps_trans k1 k2).
  - by rewrite /= (k2 _ _ dr) (k2 _ _ dq) ev2.
  - rewrite /= inE negb_or ne u2 andbT /=.
    by apply/andP; split; apply/negP => /(allP a2) /(leq_trans (deref_size _)) H; [move: (H _ _ dr)|move: (H _ _ dq)]; rewrite ltnn.
  - by rewrite /= ler leq' /=; apply: sub_all a2 => z; apply: leq_trans (keeps_size k1).
case=> e2 k2; exists h2; rewrite sim_loopS mbindE e1 mbindE e2; split=> //.
apply: (keeps_trans k1 k2).
Qed.

Lemma loop_leak s f N t x h w v :
  (forall t, fresh_fun (s_trans s t) (f t)) -> returns_argument (s_meas s) -> deref h x = Some v ->
  (forall t v a, f t v = Ok a -> mutable a) -> (forall a b c, mutable a -> iadd a b = Ok c -> mutable c) ->
  match vsim (vleak s f) (s_dt s) N t v w with
  | (w', Ok l) => exists h' refs, [/\ sim_loop s N x t (h, w) = ((h', w'), Ok refs), keeps h h',
       values h' refs = somes l & all (fun p => p.1 == p.2) refs]
  | (w', Err e) => exists h', sim_loop s N x t (h, w) = ((h', w'), Err e) /\ keeps h h'
  end.
Proof.
move=> hF hH ev mf mi; elim: N t x h w v ev => [|N IH] t x h w v ev; first by exists h, [::]; split.
have := body_leak w (hF t) hH ev (@mf t v) mi; rewrite vsimS.
case: (vleak s f t v w) => w1 [[x' y']|e]; last first.
  by case=> h1 [e1 k1]; exists h1; rewrite sim_loopS mbindE e1.
case=> h1 [r [e1 k1 dr -> ler]].
have := IH (tadd t (s_dt s)) r h1 w1 y' dr; rewrite /fst.
case: (vsim _ _ _ _ _ _) => w2 [l|e] [h2].
  case=> refs [e2 k2 ev2 a2]; exists h2, ((r, r) :: refs).
  rewrite sim_loopS mbindE e1 mbindE e2; split=> //; first apply: (keeps_trans k1 k2).
  - by rewrite /= (k2 _ _ dr) ev2.
  - by rewrite /= eqxx.
case=> e2 k2; exists h2; rewrite sim_loopS mbindE e1 mbindE e2; split=> //.
apply: (keeps_trans k1 k2).
Qed.


(** a transition that returns its argument: the state array is the caller's array in every round *)
Lemma loop_walk s g N t x h w v :
  (forall t, returns_argument (s_trans s t)) -> fresh_fun (s_meas s) g -> deref h x = Some v -> mutable v ->
  (forall a b c, mutable a -> iadd a b = Ok c -> mutable c) ->
  match vsim (vround s (fun _ => Ok) g) (s_dt s) N t v w with
  | (w', Ok l) => exists h' refs, [/\ sim_loop s N x t (h, w) = ((h', w'), Ok refs), all (fun p => p.1 == x) refs,
       deref h' x = Some (last v [seq p.1 | p <- l]), [seq deref h' p.2 | p <- refs] = [seq Some p.2 | p <- l] &
       forall q u, q != x -> deref h q = Some u -> deref h' q = Some u]
  | (w', Err e) => exists h', sim_loop s N x t (h, w) = ((h', w'), Err e)
  end.
Proof.
move=> hF hH ev mv mi; elim: N t h w v ev mv => [|N IH] t h w v ev mv.
  by exists h, [::]; split.
rewrite vsimS {1}/vround.
have F0 st : s_trans s t x st = (st, Ok x) by exact: hF.
case es: (nz_sample (s_noise s) w) => [w1 [n|e]]; last first.
  by exists h; rewrite sim_loopS mbindE /body mbindE F0 mbindE drawE es.
have := aug_addE n w1 ev; rewrite {1 2}/plus mv; case ei: (iadd v n) => [x'|e] a1; last first.
  by exists h; rewrite sim_loopS mbindE /body mbindE F0 mbindE drawE es /= mbindE a1.
have lt := deref_size ev; set h2 := take x h ++ _ in a1.
have d2 : deref h2 x = Some x' by rewrite deref_write // eqxx.
have o2 q u : q != x -> deref h q = Some u -> deref h2 q = Some u.
  by move=> /negbTE ne eq; rewrite deref_write // ne.
have := hH x h2 w1 x' d2; case: (g x') => [b|e] H; last first.
  by have [h3 [e3 k3]] := H; exists h3; rewrite sim_loopS mbindE /body mbindE F0 mbindE drawE es /= mbindE a1 mbindE e3.
have [h3 [r3 [e3 k3 le3 d3]]] := H; clear H.
case es2: (nz_sample (s_mnoise s) w1) => [w2 [m|e]]; last first.
  by exists h3; rewrite sim_loopS mbindE /body mbindE F0 mbindE drawE es /= mbindE a1 mbindE e3 mbindE drawE es2.
have := aug_add_spec m w2 d3 k3 le3; case: (plus b m) => [y'|e] H; last first.
  by exists h3; rewrite sim_loopS mbindE /body mbindE F0 mbindE drawE es /= mbindE a1 mbindE e3 mbindE drawE es2 /= mbindE H.
have [h4 [r4 [[e4 k4 le4 d4 _] _]]] := H; clear H.
have eb : body s x t (h, w) = ((h4, w2), Ok (x, r4)).
  by rewrite /body mbindE F0 mbindE drawE es /= mbindE a1 mbindE e3 mbindE drawE es2 /= mbindE e4.
have ne4 : r4 != x by rewrite neq_ltn (leq_trans (deref_size d2) le4) orbT.
have := IH (tadd t (s_dt s)) h4 w2 x' (k4 _ _ d2) (mi _ _ _ mv ei); rewrite /fst.
case: (vsim _ _ _ _ _ _) => w3 [l|e] [h5].
  case=> refs [e5 a5 d5 y5 o5]; exists h5, ((x, r4) :: refs).
  rewrite sim_loopS mbindE eb mbindE e5; split=> //.
  - by rewrite /= eqxx.
  - by rewrite /= (o5 _ _ ne4 d4) y5.
  - by move=> q u ne eq; apply: o5 => //; apply: k4; apply: o2.
by move=> e5; exists h5; rewrite sim_loopS mbindE eb mbindE e5.
Qed.

(** a measurement that returns its argument, on scalars: [+=] makes a new object *)
Lemma body_scalar s f t x h w v :
  fresh_fun (s_trans s t) (f t) -> returns_argument (s_meas s) -> deref h x = Some v ->
  (forall a b c, plus a b = Ok c -> mutable c = false) ->
  match vround s f (@Ok V) t v w with
  | (w', Ok (x', y')) => exists h' r q, [/\ body s x t (h, w) = ((h', w'), Ok (r, q)), keeps h h',
       deref h' r = Some x', deref h' q = Some y' & [/\ size h <= r, size h <= q & r != q]]
  | (w', Err e) => exists h', body s x t (h, w) = ((h', w'), Err e) /\ keeps h h'
  end.
Proof.
move=> hF hH ev im; rewrite /vround /body.
have := hF x h w v ev; case: (f t v) => [a|e]; last by case=> h1 [e1 k1]; exists h1; rewrite mbindE e1.
case=> h1 [r1 [e1 k1 le1 d1]].
case es: (nz_sample (s_noise s) w) => [w1 [n|e]]; last first.
  by exists h1; rewrite mbindE e1 mbindE drawE es.
have := aug_add_spec n w1 d1 k1 le1; case ep: (plus a n) => [x'|e] H; last first.
  by exists h1; rewrite mbindE e1 mbindE drawE es /= mbindE H.
have [h2 [r2 [[e2 k2 le2 d2 _] _]]] := H; clear H.
case es2: (nz_sample (s_mnoise s) w1) => [w2 [m|e]]; last first.
  by exists h2; rewrite mbindE e1 mbindE drawE es /= mbindE e2 mbindE hH mbindE drawE es2.
have := aug_addE m w2 d2; rewrite (im _ _ _ ep); case: (plus x' m) => [y'|e] a2; last first.
  by exists h2; rewrite mbindE e1 mbindE drawE es /= mbindE e2 mbindE hH mbindE drawE es2 /= mbindE a2.
exists (rcons h2 y'), r2, (size h2).
rewrite mbindE e1 mbindE drawE es /= mbindE e2 mbindE hH mbindE drawE es2 /= mbindE a2.
have lt := deref_size d2; split=> //.
- by move=> q u eq; apply/keeps_rcons/k2.
- exact: keeps_rcons.
- by rewrite deref_rcons ltnn eqxx.
- by rewrite neq_ltn lt; split=> //; apply: keeps_size.
Qed.

Lemma loop_scalar s f N t x h w v :
  (forall t, fresh_fun (s_trans s t) (f t)) -> returns_argument (s_meas s) -> deref h x = Some v ->
  (forall a b c, plus a b = Ok c -> mutable c = false) ->
  match vsim (vround s f (@Ok V)) (s_dt s) N t v w with
  | (w', Ok l) => exists h' refs, [/\ sim_loop s N x t (h, w) = ((h', w'), Ok refs), keeps h h' &
       values h' refs = somes l]
  | (w', Err e) => exists h', sim_loop s N x t (h, w) = ((h', w'), Err e) /\ keeps h h'
  end.
Proof.
move=> hF hH ev im; elim: N t x h w v ev => [|N IH] t x h w v ev; first by exists h, [::]; split.
have := body_scalar w (hF t) hH ev im; rewrite vsimS.
case: (vround s f (@Ok V) t v w) => w1 [[x' y']|e]; last first.
  by case=> h1 [e1 k1]; exists h1; rewrite sim_loopS mbindE e1.
case=> h1 [r [q [e1 k1 dr dq _]]].
have := IH (tadd t (s_dt s)) r h1 w1 x' dr; rewrite /fst.
case: (vsim _ _ _ _ _ _) => w2 [l|e] [h2].
  case=> refs [e2 k2 ev2]; exists h2, ((r, q) :: refs).
  rewrite sim_loopS mbindE e1 mbindE e2; split=> //; first apply: (keeps_trans k1 k2).
  by rewrite /= (k2 _ _ dr) (k2 _ _ dq) ev2.
case=> e2 k2; exists h2; rewrite sim_loopS mbindE e1 mbindE e2; split=> //.
apply: (keeps_trans k1 k2).
Qed.

(** ** from the value-level loop to the recurrence *)
Lemma vround_ok (s : system) f g t x w w' xy :
  vround s f g t x w = (w', Ok xy) <->
  exists w1 n m a b, [/\ nz_sample (s_noise s) w = (w1, Ok n), nz_sample (s_mnoise s) w1 = (w', Ok m),
     f t x = Ok a, plus a n = Ok xy.1 & g xy.1 = Ok b /\ plus b m = Ok xy.2].
Proof.
case: xy => x' y'; rewrite /vround; split.
  case: (f t x) => [a|//]; case es: (nz_sample _ w) => [w1 [n|//]]; case ep: (plus a n) => [z|//].
  case eg: (g z) => [b|//]; case es2: (nz_sample _ w1) => [w2 [m|//]]; case eq: (plus b m) => [z'|//] [<- <- <-].
  by exists w1, n, m, a, b.
by move=> [w1 [n [m [a [b [-> e -> /= -> [-> e']]]]]]]; rewrite e e'.
Qed.
Lemma vleak_ok (s : system) f t x w w' xy :
  vleak s f t x w = (w', Ok xy) <->
  exists w1 n m a b, [/\ nz_sample (s_noise s) w = (w1, Ok n), nz_sample (s_mnoise s) w1 = (w', Ok m),
     f t x = Ok a, plus a n = Ok b & plus b m = Ok xy.1 /\ xy.2 = xy.1].
Proof.
case: xy => x' y'; rewrite /vleak; split.
  case: (f t x) => [a|//]; case es: (nz_sample _ w) => [w1 [n|//]]; case ep: (plus a n) => [z|//].
  case es2: (nz_sample _ w1) => [w2 [m|//]]; case eq: (plus z m) => [z'|//] [<- <- <-].
  by exists w1, n, m, a, z.
by move=> [w1 [n [m [a [b [-> e -> /= -> [e' ->]]]]]]]; rewrite e e'.
Qed.

(** indexed form for any round that draws one sample from each noise *)
Lemma vsim_ok (s : system) rnd (step : T -> V -> V -> V -> V -> V -> Prop) dt N t x0 w wN l :
  (forall t x w w' xy, rnd t x w = (w', Ok xy) <-> exists w1 n m,
     [/\ nz_sample (s_noise s) w = (w1, Ok n), nz_sample (s_mnoise s) w1 = (w', Ok m) & step t x n m xy.1 xy.2]) ->
  vsim rnd dt N t x0 w = (wN, Ok l) <->
  size l = N /\ exists ws vs, draws (nz_sample (s_noise s)) (nz_sample (s_mnoise s)) N w wN ws vs /\
    forall k, k < N -> step (iter k (fun t => tadd t dt) t) (nth x0 (x0 :: [seq p.1 | p <- l]) k) (ws k) (vs k)
                            (nth x0 [seq p.1 | p <- l] k) (nth x0 [seq p.2 | p <- l] k).
Proof.
move=> hr.
have itS k t1 : iter k.+1 (fun t => tadd t dt) t1 = iter k (fun t => tadd t dt) (tadd t1 dt) by rewrite iterSr.
elim: N t x0 w l => [|N IH] t x0 w l /=; first split.
- move=> [<- <-]; split=> //; exists (fun _ => x0), (fun _ => x0); split=> //.
  by exists (fun _ => w), (fun _ => w).
- by case: l => [|p l] [] //= _ [ws [vs [[om [om' [<- <- _]]] _]]].
split.
  case er: (rnd t x0 w) => [w1 [xy|//]]; case ev: (vsim _ _ _ _ _ _) => [w2 [l'|//]] [? <-]; subst w2.
  have [w1' [n [m [es es2 st]]]] := (hr _ _ _ _ _).1 er.
  have [sz [ws [vs [[om [om' [o0 oN dr]]] rec]]]] := (IH _ _ _ _).1 ev.
  split; first by rewrite /= sz.
  exists (fun k => if k is k'.+1 then ws k' else n), (fun k => if k is k'.+1 then vs k' else m); split.
    exists (fun k => if k is k'.+1 then om k' else w), (fun k => if k is k'.+1 then om' k' else w1').
    by split=> //; case=> [_|k]; [rewrite o0|exact: dr].
  case=> [_ //|k lk]; rewrite itS /=.
  have := rec k lk; rewrite !(set_nth_default x0 xy.1) ?size_map ?sz //=.
  by rewrite size_map sz ltnS ltnW.
case: l => [|xy l] [] //= [sz] [ws [vs [[om [om' [o0 oN dr]]] rec]]].
have [d0 d0'] := dr 0 isT; have st := rec 0 isT.
have er : rnd t x0 w = (om 1, Ok xy).
  by apply/hr; exists (om' 0), (ws 0), (vs 0); rewrite -o0.
rewrite er.
have -> : vsim rnd dt N (tadd t dt) xy.1 (om 1) = (wN, Ok l) => //.
apply/IH; split=> //; exists (fun k => ws k.+1), (fun k => vs k.+1); split.
  exists (fun k => om k.+1), (fun k => om' k.+1); split=> //.
  by move=> k lk; apply: dr.
move=> k lk; have := rec k.+1 lk; rewrite itS /= !(set_nth_default xy.1 x0) ?size_map ?sz //=.
by rewrite size_map sz ltnS ltnW.
Qed.


Lemma somes_inj l l' : @somes V l = somes l' -> l = l'.
Proof. by elim: l l' => [|[a b] l IH] [|[a' b'] l'] //= [-> -> /IH ->]. Qed.

(** outcome of the loop against the outcome of the value-level loop *)
Lemma iff_of_match (m : state V W * res (seq (ref * ref))) (r : W * res (seq (V * V))) wN l :
  match r with
  | (w', Ok l) => exists h' refs, m = ((h', w'), Ok refs) /\ values h' refs = somes l
  | (w', Err e) => exists h', m = ((h', w'), Err e)
  end ->
  (exists h' refs, m = ((h', wN), Ok refs) /\ values h' refs = somes l) <-> r = (wN, Ok l).
Proof.
case: r => w' [l'|e] [h1]; last first.
  by move=> ->; split=> [[h' [refs [[]]]]|[]].
move=> [refs1 [-> v1]]; split.
  by move=> [h' [refs [[<- <- <-]]]]; rewrite v1 => /somes_inj ->.
by move=> [<- <-]; exists h1, refs1.
Qed.

Lemma fresh_recurrence s f g N t x h w v wN l :
  (forall t, fresh_fun (s_trans s t) (f t)) -> fresh_fun (s_meas s) g -> deref h x = Some v ->
  (exists h' refs, sim_loop s N x t (h, w) = ((h', wN), Ok refs) /\ values h' refs = somes l) <->
  recurrence plus (nz_sample (s_noise s)) (nz_sample (s_mnoise s)) (fun k => f (iter k (fun t => tadd t (s_dt s)) t)) g N v w wN l.
Proof.
move=> hF hH ev; have := loop_fresh N t w hF hH ev => H.
rewrite (@iff_of_match _ (vsim (vround s f g) (s_dt s) N t v w)); last first.
  by case: (vsim _ _ _ _ _ _) H => w' [l'|e] [h']; [case=> refs [? _ ? _ _]; exists h', refs|case=> ? _; exists h'].
rewrite (@vsim_ok s _ (fun t x n m x' y' => exists a b, [/\ f t x = Ok a, plus a n = Ok x', g x' = Ok b & plus b m = Ok y'])) //.
move=> t1 x1 ww w' xy; rewrite vround_ok; split.
  by move=> [w1 [n [m [a [b [? ? ? ? [? ?]]]]]]]; exists w1, n, m; split=> //; exists a, b.
by move=> [w1 [n [m [? ? [a [b [? ? ? ?]]]]]]]; exists w1, n, m, a, b.
Qed.

Lemma scalar_recurrence s f N t x h w v wN l :
  (forall t, fresh_fun (s_trans s t) (f t)) -> returns_argument (s_meas s) -> deref h x = Some v ->
  (forall a b c, plus a b = Ok c -> mutable c = false) ->
  (exists h' refs, sim_loop s N x t (h, w) = ((h', wN), Ok refs) /\ values h' refs = somes l) <->
  recurrence plus (nz_sample (s_noise s)) (nz_sample (s_mnoise s)) (fun k => f (iter k (fun t => tadd t (s_dt s)) t)) (@Ok V) N v w wN l.
Proof.
move=> hF hH ev im; have := loop_scalar N t w hF hH ev im => H.
rewrite (@iff_of_match _ (vsim (vround s f (@Ok V)) (s_dt s) N t v w)); last first.
  by case: (vsim _ _ _ _ _ _) H => w' [l'|e] [h']; [case=> refs [? _ ?]; exists h', refs|case=> ? _; exists h'].
rewrite (@vsim_ok s _ (fun t x n m x' y' => exists a b, [/\ f t x = Ok a, plus a n = Ok x', Ok x' = Ok b & plus b m = Ok y'])) //.
move=> t1 x1 ww w' xy; rewrite vround_ok; split.
  by move=> [w1 [n [m [a [b [? ? ? ? [? ?]]]]]]]; exists w1, n, m; split=> //; exists a, b.
by move=> [w1 [n [m [? ? [a [b [? ? ? ?]]]]]]]; exists w1, n, m, a, b.
Qed.

Lemma leak_recurrence s f N t x h w v wN l :
  (forall t, fresh_fun (s_trans s t) (f t)) -> returns_argument (s_meas s) -> deref h x = Some v ->
  (forall t v a, f t v = Ok a -> mutable a) -> (forall a b c, mutable a -> iadd a b = Ok c -> mutable c) ->
  (exists h' refs, sim_loop s N x t (h, w) = ((h', wN), Ok refs) /\ values h' refs = somes l) <->
  leaking plus (nz_sample (s_noise s)) (nz_sample (s_mnoise s)) (fun k => f (iter k (fun t => tadd t (s_dt s)) t)) N v w wN l.
Proof.
move=> hF hH ev mf mi; have := loop_leak N t w hF hH ev mf mi => H.
rewrite (@iff_of_match _ (vsim (vleak s f) (s_dt s) N t v w)); last first.
  by case: (vsim _ _ _ _ _ _) H => w' [l'|e] [h']; [case=> refs [? _ ? _]; exists h', refs|case=> ? _; exists h'].
rewrite (@vsim_ok s _ (fun t x n m x' y' => exists a b, [/\ f t x = Ok a, plus a n = Ok b, plus b m = Ok x' & y' = x'])) //.
move=> t1 x1 ww w' xy; rewrite vleak_ok; split.
  by move=> [w1 [n [m [a [b [? ? ? ? [? ?]]]]]]]; exists w1, n, m; split=> //; exists a, b.
by move=> [w1 [n [m [? ? [a [b [? ? ? ?]]]]]]]; exists w1, n, m, a, b.
Qed.

Lemma fresh_keeps s f g N t x h w v : 
  (forall t, fresh_fun (s_trans s t) (f t)) -> fresh_fun (s_meas s) g -> deref h x = Some v ->
  keeps h (sim_loop s N x t (h, w)).1.1 /\
  forall refs, (sim_loop s N x t (h, w)).2 = Ok refs -> uniq (flat refs) /\ all (leq (size h)) (flat refs).
Proof.
move=> hF hH ev; have := loop_fresh N t w hF hH ev.
case: (vsim _ _ _ _ _ _) => w' [l|e] [h'].
  by case=> refs [-> k _ u a]; split=> //= refs' [<-].
by case=> -> k; split.
Qed.

Lemma walk s g N t x h w v h' w' refs :
  (forall t, returns_argument (s_trans s t)) -> fresh_fun (s_meas s) g -> deref h x = Some v -> mutable v ->
  (forall a b c, mutable a -> iadd a b = Ok c -> mutable c) ->
  sim_loop s N x t (h, w) = ((h', w'), Ok refs) ->
  all (fun p => p.1 == x) refs /\
  exists l, [/\ recurrence plus (nz_sample (s_noise s)) (nz_sample (s_mnoise s)) (fun _ => @Ok V) g N v w w' l,
    deref h' x = Some (last v [seq p.1 | p <- l]) & [seq deref h' p.2 | p <- refs] = [seq Some p.2 | p <- l]].
Proof.
move=> hF hH ev mv mi; have := loop_walk N t w hF hH ev mv mi.
case el: (vsim _ _ _ _ _ _) => [w1 [l|e]] [h1]; last by move=> -> [].
case=> refs1 [-> aa dd yy _] [<- <- <-]; split=> //; exists l; split=> //.
move: el; rewrite (@vsim_ok s _ (fun t x n m x' y' => exists a b, [/\ Ok x = Ok a, plus a n = Ok x', g x' = Ok b & plus b m = Ok y'])) //.
move=> t1 x1 ww w2 xy; rewrite vround_ok; split.
  by move=> [w3 [n [m [a [b [? ? ? ? [? ?]]]]]]]; exists w3, n, m; split=> //; exists a, b.
by move=> [w3 [n [m [? ? [a [b [? ? ? ?]]]]]]]; exists w3, n, m, a, b.
Qed.

End Sim.
