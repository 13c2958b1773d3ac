(** * Proofs about the factor-graph nodes and sweeps (structure layer) *)
Set Warnings "-notation-overridden,-ambiguous-paths".
From mathcomp Require Import all_ssreflect.
From Verif Require Import Base Nodes.
Set Implicit Arguments.
Unset Strict Implicit.
Unset Printing Implicit Defensive.

Section Facts.
Variables (G Sc Fn Hn Y W : Type).
Variable gmul gdiv : G -> G -> res G.
Variable gpow : G -> Sc -> res G.
Variable gvalid : G -> res unit.
Variable one_over : Sc -> res Sc.
Variable one_minus : Sc -> res Sc.
Variable sdiv : Sc -> Sc -> res Sc.
Variable as_factor as_marginal : nat -> G.
Variable s_one : Sc.
Variables (Kw T Y0 : Type).
Variable t_zero : T.
Variable tadd : T -> T -> T.
Variable kw_tu0 : T -> Kw.
Variable squeeze : Y0 -> Y.

Notation node := (node G Sc Fn Hn Y W).
Notation heap := (heap G Sc Fn Hn Y W).
Notation state := (state G Sc Fn Hn Y W).
Notation M := (M G Sc Fn Hn Y W).
Notation fwd_update := (@fwd_update G Sc Fn Hn Y W gmul gdiv gpow gvalid one_over one_minus).
Notation meas_update := (@meas_update G Sc Fn Hn Y W gmul gdiv gpow gvalid sdiv).
Notation back_update := (@back_update G Sc Fn Hn Y W gmul gdiv gpow gvalid one_over sdiv).
Notation call_fwd := (@call_fwd G Sc Fn Hn Y W gmul gdiv gpow gvalid one_over one_minus).
Notation call_meas := (@call_meas G Sc Fn Hn Y W gmul gdiv gpow gvalid sdiv).
Notation call_back := (@call_back G Sc Fn Hn Y W gmul gdiv gpow gvalid one_over sdiv).
Notation ep_sweep := (@ep_fwd_back_updates G Sc Fn Hn Y W gmul gdiv gpow gvalid one_over one_minus sdiv).
Notation kfilter := (@kalman_filter G Sc Fn Hn Y W gmul gdiv gpow gvalid one_over one_minus sdiv).
Notation ksmoother := (@kalman_smoother G Sc Fn Hn Y W gmul gdiv gpow gvalid one_over sdiv).
Notation estimator := (estimator G Sc Fn Hn Y W).
Notation system := (system G Fn Hn Kw T).
Notation node_estimator := (@node_estimator G Sc Fn Hn Y W s_one).
Notation node_system := (@node_system G Sc Fn Hn Y W Kw T Y0 t_zero tadd kw_tu0 squeeze).
Notation build_nodes := (@build_nodes G Sc Fn Hn Y W as_factor as_marginal s_one Kw T).

(** ** heap *)
Lemma ohead_drop A (s : seq A) i : ohead (drop i s) = nth None [seq Some x | x <- s] i.
Proof. by elim: s i => [|x s IH] [|i] //=; rewrite ?IH // drop0. Qed.

Lemma lookupE (h : heap) i : lookup h i = nth None [seq Some x | x <- h] i.
Proof. exact: ohead_drop. Qed.

Lemma lookup_some (h : heap) i n : lookup h i = Some n -> i < size h.
Proof.
rewrite lookupE; case: (ltnP i (size h)) => // hi.
by rewrite nth_default // size_map.
Qed.
Lemma lookup_lt (h : heap) i : i < size h -> exists n, lookup h i = Some n.
Proof.
rewrite /lookup => hi; case E: (drop i h) => [|n s] /=; last by exists n.
by have := size_drop i h; rewrite E /= => /esym/eqP; rewrite subn_eq0 leqNgt hi.
Qed.
Lemma lookup_ge (h : heap) i : size h <= i -> lookup h i = None.
Proof. by move=> hi; rewrite /lookup drop_oversize. Qed.

Lemma size_update (h : heap) i f : size (update h i f) = size h.
Proof.
rewrite /update; case E: (lookup h i) => [n|] //.
have hi := lookup_some E; rewrite size_cat /= size_takel ?(ltnW hi) // size_drop.
by rewrite subnSK // subnKC // ltnW.
Qed.

Lemma lookup_update (h : heap) i f j :
  lookup (update h i f) j = if j == i then omap f (lookup h i) else lookup h j.
Proof.
rewrite /update; case E: (lookup h i) => [n|]; last by case: eqP => [->|].
have hi := lookup_some E.
rewrite !lookupE map_cat /= map_take map_drop.
set s := [seq Some x | x <- h]; have ss : size s = size h by rewrite size_map.
rewrite nth_cat size_takel ?ss ?(ltnW hi) //.
case: ltngtP => hj.
- by rewrite nth_take.
- by rewrite -(subnSK hj) /= nth_drop subnKC.
- by rewrite hj subnn.
Qed.

Lemma heap_eq (h h' : heap) : size h = size h' -> (forall i, lookup h i = lookup h' i) -> h = h'.
Proof.
move=> hs hl; suff : [seq Some x | x <- h] = [seq Some x | x <- h'].
  by apply: inj_map => x y [].
apply: (@eq_from_nth _ None); first by rewrite !size_map.
by move=> i _; rewrite -!lookupE.
Qed.

Lemma update_update (h : heap) i f g : update (update h i f) i g = update h i (g \o f).
Proof.
apply: heap_eq => [|j]; first by rewrite !size_update.
by rewrite !lookup_update eqxx; case: eqP => // _; case: (lookup h i).
Qed.

(** ** outcome of single updates *)

(** what a committed forward update has computed: factor [f] and marginal [m] for node [n];
    [Q] holds of the projected state *)
Definition fwd_commit (Q : G -> Prop) (n : node) (f m : G) : Prop :=
  exists st dm pw om ip f1 f2 q qp,
  [/\ [/\ Q st, gvalid st = Ok tt & gvalid m = Ok tt], n_damp n = Some dm /\ n_power n = Some pw,
      one_minus dm = Ok om /\ one_over pw = Ok ip,
      [/\ gpow (n_fwd n) om = Ok f1, gpow st dm = Ok f2 & gmul f1 f2 = Ok f] &
      [/\ gdiv f (n_fwd n) = Ok q, gpow q ip = Ok qp & gmul (n_marg n) qp = Ok m]].
(** a committed measurement or backward update, [fac] being the old factor *)
Definition pow_commit (Q : G -> Prop) (n : node) (fac : G) (f m : G) : Prop :=
  exists st dm pw dp r rd rp,
  [/\ [/\ Q st, gvalid st = Ok tt & gvalid m = Ok tt], n_damp n = Some dm /\ n_power n = Some pw,
      sdiv dm pw = Ok dp,
      [/\ gdiv st (n_marg n) = Ok r, gpow r dm = Ok rd & gmul fac rd = Ok f] &
      gpow r dp = Ok rp /\ gmul (n_marg n) rp = Ok m].

Definition outcome (set : G -> G -> node -> node) (P : node -> G -> G -> Prop) i (st : state)
    (out : state * res unit) : Prop :=
  out.1.1 = st.1 \/
  exists n f m, [/\ lookup st.1 i = Some n, out.2 = Ok tt, out.1.1 = update st.1 i (set f m) & P n f m].

Lemma fwd_commit_mono (Q Q' : G -> Prop) n f m : (forall s, Q s -> Q' s) ->
  fwd_commit Q n f m -> fwd_commit Q' n f m.
Proof.
move=> h [st [dm [pw [om [ip [f1 [f2 [q [qp [[hq h0 h1] h2 h3 h4 h5]]]]]]]]]].
by exists st, dm, pw, om, ip, f1, f2, q, qp; split=> //; split=> //; apply: h.
Qed.

Lemma fwd_cavity_pure n st : (@fwd_cavity G Sc Fn Hn Y W gdiv gpow one_over n st).1 = st.
Proof.
rewrite /fwd_cavity /mtry /mbind /lift /get.
case: (n_prev n) => [pi|] /=; last by [].
case: (lookup st.1 pi) => [pn|] /=; last by [].
case: (n_power n) => [pw|] /=; last by [].
case: (one_over pw) => [ip|e] /=; last by case: (e == _).
case: (gpow (n_back pn) ip) => [bf|e] /=; last by case: (e == _).
by case: (gdiv (n_marg pn) bf) => [c|e] /=; last by case: (e == _).
Qed.

Lemma fwd_project_spec n p c st :
  let out := @fwd_project G Sc Fn Hn Y W gmul gdiv gpow gvalid one_over one_minus n p c st in
  out.1.1 = st.1 /\ forall f m, out.2 = Ok (Some (f, m)) ->
    fwd_commit (fun s => exists w w', p (n_trans n) c w = (w', Ok s)) n f m.
Proof.
rewrite /fwd_project /mbind /mtry /mworld /lift /ret /=.
case E0: (p (n_trans n) c st.2) => [w [s0|e]] /=; last by case: (e == _).
case E1: (gvalid s0) => [[]|e] /=; last by case: (e == _).
case E2: (n_damp n) => [dm|] /=; last by [].
case E3: (one_minus dm) => [om|e] /=; last by case: (e == _).
case E4: (gpow (n_fwd n) om) => [f1|e] /=; last by case: (e == _).
case E5: (gpow s0 dm) => [f2|e] /=; last by case: (e == _).
case E6: (gmul f1 f2) => [f|e] /=; last by case: (e == _).
case E7: (gdiv f (n_fwd n)) => [q|e] /=; last by case: (e == _).
case E8: (n_power n) => [pw|] /=; last by [].
case E9: (one_over pw) => [ip|e] /=; last by case: (e == _).
case E10: (gpow q ip) => [qp|e] /=; last by case: (e == _).
case E11: (gmul (n_marg n) qp) => [m|e] /=; last by case: (e == _).
case E12: (gvalid m) => [[]|e] /=; last by case: (e == _).
by split=> // f' m' [<- <-]; exists s0, dm, pw, om, ip, f1, f2, q, qp; split=> //; split=> //; exists st.2, w.
Qed.

(** the forward cavity: the previous node's marginal without its backward factor, or the prior *)
Definition fwd_cav (h : heap) (n : node) (c : G) : Prop :=
  (exists p pn pw ip bf, [/\ n_prev n = Some p /\ lookup h p = Some pn, n_power n = Some pw, one_over pw = Ok ip,
     gpow (n_back pn) ip = Ok bf & gdiv (n_marg pn) bf = Ok c]) \/ n_prior n = Some c.
(** the next node and its marginal without its forward factor *)
Definition back_cav (h : heap) (n pn : node) (c : G) : Prop :=
  exists p pw ip ff, [/\ n_next n = Some p /\ lookup h p = Some pn, n_power n = Some pw, one_over pw = Ok ip,
     gpow (n_fwd pn) ip = Ok ff & gdiv (n_marg pn) ff = Ok c].

Lemma fwd_cavity_cav n st st' c : @fwd_cavity G Sc Fn Hn Y W gdiv gpow one_over n st = (st', Ok c) -> fwd_cav st.1 n c.
Proof.
have pr st1 st2 : (st1, getattr (n_prior n)) = (st2, Ok c) -> fwd_cav st.1 n c.
  by case E: (n_prior n) => [g|] //= [_ <-]; right.
rewrite /fwd_cavity /mtry /mbind /lift /get.
case E1: (n_prev n) => [pi|] /=; last exact: pr.
case E2: (lookup st.1 pi) => [pn|] //=.
case E3: (n_power n) => [pw|] /=; last exact: pr.
case E4: (one_over pw) => [ip|e] /=; last by case: ifP => // _; exact: pr.
case E5: (gpow (n_back pn) ip) => [bf|e] /=; last by case: ifP => // _; exact: pr.
case E6: (gdiv (n_marg pn) bf) => [c'|e] /=; last by case: ifP => // _; exact: pr.
by case=> _ <-; left; exists pi, pn, pw, ip, bf.
Qed.

Lemma fwd_outcome i p st :
  outcome (@set_fwd G Sc Fn Hn Y W)
    (fun n => fwd_commit (fun s => exists c w w', fwd_cav st.1 n c /\ p (n_trans n) c w = (w', Ok s)) n) i st (fwd_update i p st).
Proof.
rewrite /fwd_update /mbind /get; case E: (lookup st.1 i) => [n|]; last by left.
have := fwd_cavity_pure n st; case Ec: fwd_cavity => [st1 [c|e]] /= e1; last by rewrite e1; left.
have hc := fwd_cavity_cav Ec; rewrite e1 {e1 Ec}.
have /= := fwd_project_spec n p c st; case: fwd_project => st2 [[[f m]|]|e] /= [e2 h]; last by left.
  right; exists n, f, m; rewrite /= e2; split=> //; apply: fwd_commit_mono (h _ _ erefl) => s [w [w' e']].
  by exists c, w, w'.
by left.
Qed.

Lemma power_update_pure n s0 fac m c st :
  (@power_update G Sc Fn Hn Y W gmul gdiv gpow gvalid sdiv n s0 fac m c st).1 = st.
Proof.
rewrite /power_update /mbind /lift /ret.
case: (n_damp n) => //= dm; case: (n_power n) => //= pw; case: (gdiv s0 m) => //= r.
case: (gpow r dm) => //= rd; case: (gmul fac rd) => //= f; case: (sdiv dm pw) => //= dp.
by case: (gpow r dp) => //= rp; case: (gmul m rp) => //= m'; case: (gvalid m') => [[]|].
Qed.

Lemma power_update_ok n s0 fac c st f m st' :
  (@power_update G Sc Fn Hn Y W gmul gdiv gpow gvalid sdiv n s0 fac (n_marg n) c st) = (st', Ok (f, m)) ->
  gvalid s0 = Ok tt -> forall Q : G -> Prop, Q s0 -> pow_commit Q n fac f m.
Proof.
rewrite /power_update /mbind /lift /ret.
case E1: (n_damp n) => //= [dm]; case E2: (n_power n) => //= [pw]; case E3: (gdiv s0 (n_marg n)) => //= [r].
case E4: (gpow r dm) => //= [rd]; case E5: (gmul fac rd) => //= [f']; case E6: (sdiv dm pw) => //= [dp].
case E7: (gpow r dp) => //= [rp]; case E8: (gmul (n_marg n) rp) => //= [m'].
case E9: (gvalid m') => [[]|] //= [_ <- <-] gv Q hQ.
by exists s0, dm, pw, dp, r, rd, rp; split.
Qed.

Lemma meas_outcome i p st :
  outcome (@set_meas G Sc Fn Hn Y W) 
    (fun n => pow_commit (fun s => exists c y w w', [/\ n_y n = Some y, gdiv (n_marg n) (n_meas n) = Ok c &
                                                    p (n_measf n) c y w = (w', Ok s)]) n (n_meas n))
    i st (meas_update i p st).
Proof.
rewrite /meas_update /mbind /get; case E: (lookup st.1 i) => [n|]; last by left.
rewrite ?/lift; case Eg: (gdiv (n_marg n) (n_meas n)) => [c|e]; last by left.
rewrite ?/mtry ?/lift; case Ey: (n_y n) => [y|] /=; last by left.
rewrite ?/mworld; case E0: (p (n_measf n) c y st.2) => [w [s0|e]] /=; last by left; case: (e == _).
rewrite ?/lift; case E1: (gvalid s0) => [[]|e] /=; last by left; case: (e == _).
case E2: (power_update _ _ _ _ _ _ _ _ _ _ _) => [st' [[f m]|e]] /=; last first.
  by have := power_update_pure n s0 (n_meas n) (n_marg n) c (st.1, w);
     rewrite E2 /= => ->; left; case: (e == _).
have := power_update_pure n s0 (n_meas n) (n_marg n) c (st.1, w); rewrite E2 /= => ->.
right; exists n, f, m; split=> //; apply: (power_update_ok E2 E1).
by exists c, y, st.2, w.
Qed.

Lemma back_outcome i p st :
  outcome (@set_back G Sc Fn Hn Y W) 
    (fun n => pow_commit (fun s => exists pn c c' w w', [/\ gdiv (n_marg n) (n_back n) = Ok c, back_cav st.1 n pn c' &
                                                    p (n_trans pn) c c' (Some (n_marg pn)) w = (w', Ok s)]) n (n_back n))
    i st (back_update i p st).
Proof.
rewrite /back_update /mbind /get; case E: (lookup st.1 i) => [n|]; last by left.
rewrite ?/lift; case Eg: (gdiv (n_marg n) (n_back n)) => [c|e]; last by left.
rewrite /mtry ?/lift; case En: (n_next n) => [pi|] /=; last by left.
case El: (lookup st.1 pi) => [pn|] /=; last by left.
rewrite ?/lift; case Ep: (n_power n) => [pw|] /=; last by left.
rewrite ?/lift; case Eo: (one_over pw) => [ip|e] /=; last by left; case: (e == _).
rewrite ?/lift; case Ef: (gpow (n_fwd pn) ip) => [ff|e] /=; last by left; case: (e == _).
rewrite ?/lift; case Em: (gdiv (n_marg pn) ff) => [nf|e] /=; last by left; case: (e == _).
rewrite ?/mtry ?/mworld; case E0: (p _ c nf _ st.2) => [w [s0|e]] /=; last by left; case: (e == _).
rewrite ?/lift; case E1: (gvalid s0) => [[]|e] /=; last by left; case: (e == _).
case E2: (power_update _ _ _ _ _ _ _ _ _ _ _) => [st' [[f m]|e]] /=; last first.
  by have := power_update_pure n s0 (n_back n) (n_marg n) c (st.1, w);
     rewrite E2 /= => ->; left; case: (e == _).
have := power_update_pure n s0 (n_back n) (n_marg n) c (st.1, w); rewrite E2 /= => ->.
right; exists n, f, m; split=> //; apply: (power_update_ok E2 E1).
by exists pn, c, nf, st.2, w; split=> //; exists pi, pw, ip, ff.
Qed.

(** ** events *)
Inductive ev := Fwd of nat | Meas of nat | Back of nat.
Definition ev_node e := match e with Fwd i | Meas i | Back i => i end.
Definition do_ev e : M unit :=
  match e with Fwd i => call_fwd i | Meas i => call_meas i | Back i => call_back i end.
Definition ev_set e : G -> G -> node -> node :=
  match e with Fwd _ => @set_fwd _ _ _ _ _ _ | Meas _ => @set_meas _ _ _ _ _ _ | Back _ => @set_back _ _ _ _ _ _ end.
(** [s] is a state returned by the projection that event [e] calls on node [n] of graph [h] with the
    cavities of that graph *)
Definition produced (h : heap) e (n : node) (s : G) : Prop :=
  match e with
  | Fwd _ => exists p c w w', [/\ kwval (n_ufwd n) None = Some p, fwd_cav h n c & p (n_trans n) c w = (w', Ok s)]
  | Meas _ => exists p c y w w', [/\ kwval (n_umeas n) None = Some p, n_y n = Some y,
                                  gdiv (n_marg n) (n_meas n) = Ok c & p (n_measf n) c y w = (w', Ok s)]
  | Back _ => exists p pn c c' w w', [/\ kwval (n_uback n) None = Some p, gdiv (n_marg n) (n_back n) = Ok c,
                                  back_cav h n pn c' & p (n_trans pn) c c' (Some (n_marg pn)) w = (w', Ok s)]
  end.
Definition ev_commit h e (n : node) : G -> G -> Prop :=
  match e with
  | Fwd _ => fwd_commit (produced h e n) n
  | Meas _ => pow_commit (produced h e n) n (n_meas n)
  | Back _ => pow_commit (produced h e n) n (n_back n)
  end.

Lemma pow_commit_mono (Q Q' : G -> Prop) n fac f m : (forall s, Q s -> Q' s) ->
  pow_commit Q n fac f m -> pow_commit Q' n fac f m.
Proof.
move=> h [st [dm [pw [dp [r [rd [rp [[hq h0 h1] h2 h3 h4 h5]]]]]]]].
by exists st, dm, pw, dp, r, rd, rp; split=> //; split=> //; apply: h.
Qed.

Lemma outcome_mono set (P Q : node -> G -> G -> Prop) i st out :
  (forall n f m, lookup st.1 i = Some n -> P n f m -> Q n f m) -> outcome set P i st out -> outcome set Q i st out.
Proof.
move=> h [e|[n [f [m [h1 h2 h3 h4]]]]]; first by left.
by right; exists n, f, m; split=> //; apply: h.
Qed.

Lemma ev_outcome e st : outcome (ev_set e) (ev_commit st.1 e) (ev_node e) st (do_ev e st).
Proof.
case: e => i /=.
- rewrite /call_fwd {1}/mbind {1}/get; case E: (lookup st.1 i) => [n|]; last by left.
  case Ek: kwval => [p|]; last by left.
  apply: outcome_mono (fwd_outcome i p st) => n' f m; rewrite E => -[<-].
  by apply: fwd_commit_mono => s [c [w [w' [h h']]]]; exists p, c, w, w'.
- rewrite /call_meas {1}/mbind {1}/get; case E: (lookup st.1 i) => [n|]; last by left.
  case Ek: kwval => [p|]; last by left.
  apply: outcome_mono (meas_outcome i p st) => n' f m; rewrite E => -[<-].
  by apply: pow_commit_mono => s [c [y [w [w' [h h' h'']]]]]; exists p, c, y, w, w'.
- rewrite /call_back {1}/mbind {1}/get; case E: (lookup st.1 i) => [n|]; last by left.
  case Ek: kwval => [p|]; last by left.
  apply: outcome_mono (back_outcome i p st) => n' f m; rewrite E => -[<-].
  by apply: pow_commit_mono => s [pn [c [c' [w [w' [h h' h'']]]]]]; exists p, pn, c, c', w, w'.
Qed.

Lemma commit_valid h e n f m : ev_commit h e n f m ->
  gvalid m = Ok tt /\ exists2 s, produced h e n s & gvalid s = Ok tt.
Proof.
case: e => i /=.
- by move=> [s [? [? [? [? [? [? [? [? [[h1 h2 ->] _ _ _ _]]]]]]]]]]; split=> //; exists s.
- by move=> [s [? [? [? [? [? [? [[h1 h2 ->] _ _ _ _]]]]]]]]; split=> //; exists s.
- by move=> [s [? [? [? [? [? [? [[h1 h2 ->] _ _ _ _]]]]]]]]; split=> //; exists s.
Qed.

(** ** C23 *)
(** [n'] differs from [n] at most in the marginal and in the factor that event [e] updates *)
Definition only_changes e (n n' : node) : Prop :=
  [/\ n_index n' = n_index n /\ n_dim n' = n_dim n, n_prev n' = n_prev n /\ n_next n' = n_next n,
      [/\ n_trans n' = n_trans n, n_measf n' = n_measf n, n_y n' = n_y n & n_prior n' = n_prior n],
      [/\ n_power n' = n_power n, n_damp n' = n_damp n, n_ufwd n' = n_ufwd n, n_umeas n' = n_umeas n &
          n_uback n' = n_uback n] &
      match e with
      | Fwd _ => n_meas n' = n_meas n /\ n_back n' = n_back n
      | Meas _ => n_fwd n' = n_fwd n /\ n_back n' = n_back n
      | Back _ => n_fwd n' = n_fwd n /\ n_meas n' = n_meas n
      end].

Theorem update_atomic e st :
  let out := do_ev e st in
  (out.2 <> Ok tt -> out.1.1 = st.1) /\
  (out.1.1 = st.1 \/
   exists n n', [/\ lookup st.1 (ev_node e) = Some n, lookup out.1.1 (ev_node e) = Some n',
     only_changes e n n', (forall j, j != ev_node e -> lookup out.1.1 j = lookup st.1 j) &
     gvalid (n_marg n') = Ok tt /\ exists2 s, produced st.1 e n s & gvalid s = Ok tt]).
Proof.
have /= := ev_outcome e st; case=> [h|[n [f [m [h1 h2 h3 h4]]]]]; first by split=> //; left.
split; first by rewrite h2.
right; exists n, (ev_set e f m n); rewrite h3 lookup_update eqxx h1; split=> //.
- by case: (e).
- by move=> j /negbTE hj; rewrite lookup_update hj.
- have [g s] := commit_valid h4; split=> //.
  by move: g; case: (e).
Qed.

(** ** schedules *)
Inductive op :=
| OpEv of ev
| OpEst of seq nat & estimator
| OpSys of seq nat & system & seq Y0 & option (seq Kw).

(** one operation of a caller that catches every exception *)
Definition do_op (o : op) (st : state) : state :=
  match o with
  | OpEv e => (do_ev e st).1
  | OpEst ns e => (node_estimator ns e st).1
  | OpSys ns sy ys fa => (node_system ns sy ys fa st).1
  end.
Definition do_ops (l : seq op) (st : state) : state := foldl (fun st o => do_op o st) st l.

(** belief content of a node is kept by an update function *)
Definition keeps_belief (f : node -> node) : Prop := forall n,
  [/\ n_marg (f n) = n_marg n, n_fwd (f n) = n_fwd n, n_meas (f n) = n_meas n, n_back (f n) = n_back n &
      n_dim (f n) = n_dim n].

Lemma lookup_mfor_put A (l : seq A) (g : A -> nat) (f : A -> node -> node) st (P : nat -> node -> Prop) :
  (forall a j n, P j n -> P j (f a n)) ->
  (forall j n, lookup st.1 j = Some n -> P j n) ->
  forall j n, lookup (mfor l (fun a => put (g a) (f a)) st).1.1 j = Some n -> P j n.
Proof.
move=> hf; elim: l st => [|a l IH] st h //=.
rewrite /mbind /put /=; apply: IH => j n /=; rewrite lookup_update.
case: eqP => [->|_]; last exact: h.
by case E: (lookup st.1 (g a)) => [n'|] //= [<-]; apply: hf; apply: h.
Qed.

Lemma mfor_put_ok A (l : seq A) (g : A -> nat) (f : A -> node -> node) st :
  (mfor l (fun a => put (g a) (f a)) st).2 = Ok tt.
Proof. by elim: l st => //= a l IH st; rewrite /mbind /put /= IH. Qed.

(** ** C24 *)
Definition marg_ok (n : node) : Prop := n_marg n = as_marginal (n_dim n) \/ gvalid (n_marg n) = Ok tt.
Definition all_marg_ok (h : heap) : Prop := forall j n, lookup h j = Some n -> marg_ok n.

Lemma do_op_marg o st : all_marg_ok st.1 -> all_marg_ok (do_op o st).1.
Proof.
case: o => [e|ns e|ns sy ys fa] h /=.
- have [_ [-> //|[n [n' [h1 h2 h3 h4 [h5 _]]]]]] := update_atomic e st.
  move=> j x; case: (eqVneq j (ev_node e)) => [->|/h4 ->]; last exact: h.
  by rewrite h2 => -[<-]; right.
- rewrite /node_estimator /mbind /ret.
  have := @lookup_mfor_put _ ns id (fun _ => equip s_one e) st (fun _ n => marg_ok n).
  have := mfor_put_ok ns id (fun _ => equip s_one e) st.
  by case: mfor => st' [u|er] //= _; apply.
- rewrite /node_system; set fl := if fa is Some l then l else _; set z := zip3 _ _ _.
  have h1 := @lookup_mfor_put _ z (fun a => a.1.1) (fun a => assign squeeze sy a.2 a.1.2) st (fun _ n => marg_ok n).
  have h2 := mfor_put_ok z (fun a => a.1.1) (fun a => assign squeeze sy a.2 a.1.2) st.
  rewrite /mbind; case: mfor h1 h2 => st' [u|er] //= h1 _.
  have {}h1 : all_marg_ok st'.1 by move=> j n; apply: h1.
  case: [seq _ | _ <- z] => [|i r] //= j n; rewrite lookup_update.
  case: eqP => [_|_]; last exact: h1.
  by case E: (lookup st'.1 i) => [n'|] //= [<-]; have := h1 _ _ E.
Qed.

Theorem committed_valid l st : all_marg_ok st.1 -> all_marg_ok (do_ops l st).1.
Proof. by elim: l st => //= o l IH st h; apply: IH; exact: do_op_marg. Qed.

(** ** C20 *)
Lemma lookup_cat (h1 h2 : heap) j :
  lookup (h1 ++ h2) j = if j < size h1 then lookup h1 j else lookup h2 (j - size h1).
Proof. by rewrite !lookupE map_cat nth_cat size_map. Qed.

Lemma lookup_new dim N j :
  lookup [seq new_node Sc Fn Hn Y W as_factor as_marginal dim i | i <- iota 0 N] j =
  if j < N then Some (new_node Sc Fn Hn Y W as_factor as_marginal dim j) else None.
Proof.
rewrite lookupE -map_comp; case: ltnP => hj; last by rewrite nth_default // size_map size_iota.
by rewrite (nth_map 0) ?size_iota // nth_iota.
Qed.

(** node [j] of a chain of [N] nodes whose references start at [base] *)
Definition chain_node base N dim (j : nat) : node :=
  set_links (if j == 0 then None else Some (base + j.-1))
            (if j == N.-1 then None else Some (base + j.+1))
            (new_node Sc Fn Hn Y W as_factor as_marginal dim j).


Lemma mfor_put A (a0 : A) (l : seq A) (g : A -> nat) (f : A -> node -> node) st : uniq [seq g a | a <- l] ->
  let out := mfor l (fun a => put (g a) (f a)) st in
  [/\ out.2 = Ok tt, out.1.2 = st.2, size out.1.1 = size st.1,
      forall i, i < size l -> lookup out.1.1 (g (nth a0 l i)) = omap (f (nth a0 l i)) (lookup st.1 (g (nth a0 l i))) &
      forall j, j \notin [seq g a | a <- l] -> lookup out.1.1 j = lookup st.1 j].
Proof.
elim: l st => [|a l IH] st //= /andP [na ul].
rewrite !/mbind !/put /=; have /= [h1 h2 h0 h3 h4] := IH (update st.1 (g a) (f a), st.2) ul.
split=> //; first by rewrite h0 size_update.
  move=> [|i] /= hi; first by rewrite h4 // lookup_update eqxx.
  rewrite h3 // lookup_update; case: eqP => // e.
  by move: na; rewrite -e -[g _](nth_map a0 0 g hi) mem_nth // size_map.
by move=> j; rewrite inE negb_or => /andP [/negbTE ja jl]; rewrite h4 // lookup_update ja.
Qed.

Lemma index_iota base N j st : (@index_of G Sc Fn Hn Y W (iota base N) j st) =
  (st, if j < N then Ok (base + j) else Err IndexErr).
Proof.
rewrite /index_of /lift ohead_drop; case: ltnP => hj; last by rewrite nth_default // size_map size_iota.
by rewrite (nth_map 0) ?size_iota // nth_iota.
Qed.

Definition bn_body (N base : nat) (ir : nat * nat) : M unit :=
  let: (i, r) := ir in
  let nodes := iota base N in
     if i == 0 then mbind (@index_of G Sc Fn Hn Y W nodes i.+1) (fun nx => put r (set_links None (Some nx)))
     else if i == N.-1 then mbind (@index_of G Sc Fn Hn Y W nodes i.-1) (fun pv => put r (set_links (Some pv) None))
     else mbind (@index_of G Sc Fn Hn Y W nodes i.+1) (fun nx => mbind (@index_of G Sc Fn Hn Y W nodes i.-1) (fun pv =>
           put r (set_links (Some pv) (Some nx)))).

Arguments bn_body : simpl never.

Lemma bn_bodyE N base i st : 1 < N -> i < N ->
  bn_body N base (i, base + i) st =
  ((update st.1 (base + i) (set_links (if i == 0 then None else Some (base + i.-1))
                                      (if i == N.-1 then None else Some (base + i.+1))), st.2), Ok tt).
Proof.
move=> hN hi; rewrite /bn_body; case: eqP => [->|/eqP i0].
  rewrite {1}/mbind index_iota hN /=; case: eqP => // h.
  by case: N hN hi h => [|[|]].
case: (eqVneq i N.-1) => [->|i1]; rewrite {1}/mbind index_iota.
  have -> : N.-1.-1 < N by case: N hN {hi i0} => [|[|N]] //= _; rewrite ltnS leqW.
  by rewrite /put.
have iN : i.+1 < N.
  by rewrite ltn_neqAle hi andbT; apply: contraNN i1 => /eqP <-.
rewrite iN /mbind index_iota.
have -> : i.-1 < N by exact: leq_ltn_trans (leq_pred _) hi.
by [].
Qed.

Lemma zip_iota_shift k base n : zip (iota k n) (iota (base + k) n) = [seq (i, base + i) | i <- iota k n].
Proof. by elim: n k => //= n IH k; rewrite -IH addnS. Qed.

Lemma bn_loop N base k n st : 1 < N -> k + n = N ->
  let out := mfor (zip (iota k n) (iota (base + k) n)) (bn_body N base) st in
  [/\ out.2 = Ok tt, out.1.2 = st.2 & forall j, lookup out.1.1 j =
      if (base + k <= j) && (j < base + N) then
        omap (set_links (if j - base == 0 then None else Some (base + (j - base).-1))
                        (if j - base == N.-1 then None else Some (base + (j - base).+1))) (lookup st.1 j)
      else lookup st.1 j].
Proof.
move=> hN; elim: n k st => [|n IH] k st hk /=.
  split=> // j; rewrite -hk addn0; case: andP => // -[h1 h2].
  by have := leq_ltn_trans h1 h2; rewrite ltnn.
have kN : k < N by rewrite -hk addnS ltnS leq_addr.
rewrite !/mbind !bn_bodyE //=.
have := IH k.+1 (update st.1 (base + k) (set_links (if k == 0 then None else Some (base + k.-1))
                                      (if k == N.-1 then None else Some (base + k.+1))), st.2).
rewrite addSnnS hk => /(_ erefl) /=; rewrite addnS; case=> h1 h2 h3; split=> // j.
rewrite h3 lookup_update; case: (eqVneq j (base + k)) => [->|ne].
  by rewrite ltnn leqnn /= ltn_add2l kN addKn addnS.
by rewrite ltn_neqAle eq_sym ne.
Qed.

Theorem build_nodes_spec N dim e (sy : option system) (h0 : heap) w : 1 < N ->
  let: (h, w', r) := build_nodes N dim e sy (h0, w) in
  let base := size h0 in
  [/\ w' = w, size h = base + N, forall j, j < base -> lookup h j = lookup h0 j,
      r = (if sy is Some _ then Err TypeErr else Ok (iota base N)) &
      forall i, i < N -> lookup h (base + i) =
        Some (if e is Some e then equip s_one e (chain_node base N dim i) else chain_node base N dim i)].
Proof.
move=> hN; rewrite /build_nodes /=; set st0 := (_ ++ _, _); set base := size h0.
rewrite -/(bn_body N base) {1}/mbind.
have := @bn_loop N base 0 N st0 hN erefl; rewrite addn0.
case: mfor => -[h1 w1] r1 /= [-> -> hl].
have hl' j : lookup h1 j = if j < base then lookup h0 j
    else if j < base + N then Some (chain_node base N dim (j - base)) else None.
  rewrite hl lookup_cat lookup_new -/base; case: (leqP base j) => bj //=.
  by rewrite ltn_subLR //; case: (ltnP j (base + N)) => hj.
have sz : size h1 = base + N.
  apply/eqP; rewrite eqn_leq; apply/andP; split; rewrite leqNgt; apply/negP => lt.
    by have [n] := lookup_lt lt; rewrite hl' ltnn ltnNge leq_addr.
  have := hl' (size h1); rewrite lookup_ge // lt; case: ltnP => // lt' e'.
  by have [n] := lookup_lt lt'; rewrite -e'.
case: e => [e|] /=; last first.
  have e1 i : i < N -> lookup h1 (base + i) = Some (chain_node base N dim i).
    by move=> hi; rewrite hl' ltnNge leq_addr /= ltn_add2l hi addKn.
  by case: sy => [sy|]; split=> // j hj; rewrite hl' hj.
rewrite /mbind /node_estimator /mbind.
have := @mfor_put _ 0 (iota base N) id (fun _ => equip s_one e) (h1, w); rewrite map_id => /(_ (iota_uniq _ _)) /=.
case: mfor => -[h2 w2] r2 /= [-> -> sz2 hi2 hj2].
have e1 i : i < N -> lookup h2 (base + i) = Some (equip s_one e (chain_node base N dim i)).
  move=> hi; have := hi2 i; rewrite size_iota => /(_ hi); rewrite nth_iota // => ->.
  by rewrite hl' ltnNge leq_addr /= ltn_add2l hi addKn.
have e2 j : j < base -> lookup h2 j = lookup h0 j.
  by move=> hj; rewrite hj2 ?hl' ?hj // mem_iota leqNgt hj.
by case: sy => [sy|]; split=> //; rewrite sz2.
Qed.

Theorem build_nodes_small dim e (sy : option system) st :
  (build_nodes 1 dim e sy st).2 = Err IndexErr /\
  build_nodes 0 dim e sy st = (st, if sy is Some _ then Err TypeErr else Ok [::]).
Proof.
case: st => h w; split; first by [].
by rewrite /build_nodes /= cats0 /mbind /=; case: e => [e|] /=; case: sy.
Qed.

(** ** C21 *)
Lemma size_zip3 A B C (a : seq A) (b : seq B) (c : seq C) :
  size (zip3 a b c) = minn (size a) (minn (size b) (size c)).
Proof. by elim: a b c => [|x a IH] [|y b] [|z c] //=; rewrite ?minn0 ?min0n // IH !minnSS. Qed.

Lemma zip3_take A B C (a : seq A) (b : seq B) (c : seq C) :
  [seq x.1.1 | x <- zip3 a b c] = take (minn (size b) (size c)) a.
Proof. by elim: a b c => [|x a IH] [|y b] [|z c] //=; rewrite ?minn0 ?min0n // minnSS IH. Qed.

Lemma nth_zip3 A B C (x : A) (y : B) (z : C) a b c i : i < size (zip3 a b c) ->
  nth (x, y, z) (zip3 a b c) i = (nth x a i, nth y b i, nth z c i).
Proof. by elim: a b c i => [|x' a IH] [|y' b] [|z' c] [|i] //= hi; rewrite IH. Qed.

Lemma size_default n t dt : size (default_fargs tadd kw_tu0 n t dt) = n.
Proof. by elim: n t => //= n IH t; rewrite IH. Qed.

Lemma nth_default_fargs k0 n t dt i : i < n ->
  nth k0 (default_fargs tadd kw_tu0 n t dt) i = kw_tu0 (iter i (tadd^~ dt) t).
Proof. by elim: n t i => //= n IH t [|i] //= hi; rewrite IH // -iterSr. Qed.

(** the keyword set the i-th node receives *)
Definition kw_at (fa : option (seq Kw)) (dt : T) (i : nat) : option Kw :=
  if fa is Some l then ohead (drop i l) else Some (kw_tu0 (iter i (tadd^~ dt) t_zero)).

Theorem node_system_spec nodes sy (ys : seq Y0) fa st : uniq nodes -> all (fun j => j < size st.1) nodes ->
  let: (h, w, r) := node_system nodes sy ys fa st in
  let n := minn (size nodes) (minn (size ys) (if fa is Some l then size l else size ys)) in
  [/\ w = st.2, size h = size st.1, r = (if n == 0 then Err IndexErr else Ok (take n nodes)),
      forall i x y k, i < n -> lookup st.1 (nth 0 nodes i) = Some x -> ohead (drop i ys) = Some y ->
        kw_at fa (sy_dt sy) i = Some k ->
        let x' := assign squeeze sy k y x in
        lookup h (nth 0 nodes i) = Some (if i == 0 then set_prior (sy_init sy) x' else x') &
      forall j, j \notin take n nodes -> lookup h j = lookup st.1 j].
Proof.
move=> un hn; rewrite /node_system; set fl := if fa is Some l then l else _.
set n := minn _ _; set z := zip3 nodes ys fl.
have sfl : size fl = if fa is Some l then size l else size ys by rewrite /fl; case: (fa) => // ; rewrite size_default.
have sz : size z = n by rewrite size_zip3 sfl.
have mz : [seq x.1.1 | x <- z] = take n nodes.
  rewrite zip3_take sfl /n; case: (leqP (size nodes) (minn (size ys) (if fa is Some l then size l else size ys))) => h.
    by rewrite !take_oversize.
  by [].
have uz : uniq [seq x.1.1 | x <- z] by rewrite mz take_uniq.
have [n0|n0] := posnP n.
  have -> : z = [::] by apply: size0nil; rewrite sz.
  by case: (st) => h w; rewrite /mbind /= n0; split.
have [a0 [z' ez]] : exists a0 z', z = a0 :: z' by move: sz n0; case: (z) => [<-|a l] //; exists a, l.
have := @mfor_put _ a0 z (fun a => a.1.1) (fun a => assign squeeze sy a.2 a.1.2) st uz.
rewrite /mbind; case: mfor => -[h1 w1] r1 /= [-> -> sz1 hi1 hj1].
rewrite mz; case Et: (take n nodes) => [|i0 tl] /=.
  by move: sz n0; rewrite -(size_map (fun x => x.1.1) z) mz Et => <-.
split=> //; first by rewrite size_update.
- move=> i x y k hi hx hy hk.
  have iz : i < size z by rewrite sz.
  case: a0 ez hi1 => -[a1 a2] a3 ez hi1.
  have ent : nth (a1, a2, a3) z i = (nth 0 nodes i, y, k).
    rewrite nth_zip3 //; congr (_, _, _).
    + apply: set_nth_default; move: iz; rewrite size_zip3 => /leq_trans; apply; exact: geq_minl.
    + have : i < size ys by move: iz; rewrite size_zip3 !leq_min => /and3P [].
      by move=> lt; move: hy; rewrite ohead_drop (nth_map a2) // => -[].
    + have lt : i < size fl by move: iz; rewrite size_zip3 !leq_min => /and3P [].
      move: hk; rewrite /kw_at /fl; move: (lt); rewrite {1}/fl; case: (fa) => [l|] lt'.
        by rewrite ohead_drop (nth_map a3) // => -[].
      by rewrite size_default in lt'; rewrite nth_default_fargs // => -[].
  have := hi1 i iz; rewrite ent /= hx /= => hh.
  have hi0 : nth 0 nodes 0 = i0.
    by have := nth_take 0 n0 nodes; rewrite Et /= => <-.
  have sn : n <= size nodes by exact: geq_minl.
  rewrite lookup_update -hi0 nth_uniq ?(leq_trans hi sn) ?(leq_trans n0 sn) //.
  case: eqP => [i00|_]; last by rewrite hh.
  by move: hh; rewrite i00 => ->.
- move=> j; rewrite inE negb_or => /andP [/negbTE ji jt]; rewrite lookup_update ji hj1 //.
  by rewrite mz Et inE negb_or ji.
Qed.

(** ** C22 *)
(** [node_estimator(nodes, e)] for each [e] in turn *)
Definition estimators (nodes : seq nat) (es : seq estimator) : M unit :=
  mfor es (fun e => mbind (node_estimator nodes e) (fun _ => ret tt)).

(** everything but the estimator attributes *)
Definition same_data (n n' : node) : Prop :=
  [/\ n_index n' = n_index n /\ n_dim n' = n_dim n, n_prev n' = n_prev n /\ n_next n' = n_next n,
      [/\ n_trans n' = n_trans n, n_measf n' = n_measf n, n_y n' = n_y n & n_prior n' = n_prior n] &
      [/\ n_marg n' = n_marg n, n_fwd n' = n_fwd n, n_meas n' = n_meas n & n_back n' = n_back n]].

Lemma kwval_partial P (f : pfun P) p : kwval (Partial f p) None = Some p.
Proof.
rewrite /=; suff: forall q, kwval f (Some q) = Some q by [].
by elim: f => //= f IH q q'; apply: IH.
Qed.

Theorem last_estimator_wins nodes es e st : uniq nodes ->
  let: (h, w, r) := estimators nodes (rcons es e) st in
  [/\ r = Ok tt, w = st.2, size h = size st.1, forall j, j \notin nodes -> lookup h j = lookup st.1 j &
      forall j n, j \in nodes -> lookup st.1 j = Some n -> exists n', [/\ lookup h j = Some n', same_data n n',
         n_power n' = Some (if e_power e is Some p then p else s_one),
         n_damp n' = Some (if e_damp e is Some p then p else s_one) &
         [/\ kwval (n_ufwd n') None = Some (e_trans e), kwval (n_umeas n') None = Some (e_meas e) &
             kwval (n_uback n') None = Some (e_back e)]]].
Proof.
move=> un; elim: es st => [|e' es IH] st.
  rewrite /estimators /= /mbind /node_estimator /mbind.
  have := @mfor_put _ 0 nodes id (fun _ => equip s_one e) st; rewrite map_id => /(_ un).
  case: mfor => -[h w] r /= [-> -> hs hi hj]; split=> // j n /(nthP 0) [i ji <-] hn.
  by rewrite hi // hn; eexists; split; first reflexivity; split=> //; rewrite ?kwval_partial.
rewrite /estimators rcons_cons /= -/(estimators nodes (rcons es e)) {1}/mbind {1}/mbind {1}/node_estimator {1}/mbind.
have := @mfor_put _ 0 nodes id (fun _ => equip s_one e') st; rewrite map_id => /(_ un).
case: mfor => -[h1 w1] r1 /= [-> -> hs hi hj].
rewrite ![ret _ _]/ret /=; have := IH (h1, st.2); case: estimators => -[h w] r /= [-> -> hs' hj' hi'].
split=> //; first by rewrite hs'.
  by move=> j jn; rewrite hj' // hj.
move=> j n jn hn; move: (jn) => /(nthP 0) [i ji ei].
have := hi i ji; rewrite ei hn /= => /(hi' _ _ jn) [n' [h1' h2' h3' h4' h5']].
by exists n'.
Qed.

(** ** C27 *)
(** run a list of events until one raises *)
Fixpoint run (l : seq ev) : M unit :=
  if l is e :: l' then mbind (do_ev e) (fun _ => run l') else ret tt.

Lemma mbindA A B C (m : M A) (k : A -> M B) (k' : B -> M C) st :
  mbind (mbind m k) k' st = mbind m (fun a => mbind (k a) k') st.
Proof. by rewrite /mbind; case: (m st) => st' [a|e]. Qed.
Lemma mbind_ext A B (m : M A) (k k' : A -> M B) st : (forall a st, k a st = k' a st) -> mbind m k st = mbind m k' st.
Proof. by rewrite /mbind; case: (m st) => st' [a|e] //. Qed.

Lemma run_cat l l' st : run (l ++ l') st = mbind (run l) (fun _ => run l') st.
Proof.
elim: l st => [|e l IH] st //=.
by rewrite mbindA; apply: mbind_ext => _ st'; exact: IH.
Qed.

Definition filter_events nodes := flatten [seq [:: Fwd i; Meas i] | i <- nodes].
Definition smooth_events nodes := [seq Back i | i <- rev nodes].

Lemma kfilter_run nodes st : kfilter nodes st = run (filter_events nodes) st.
Proof.
rewrite /kalman_filter /filter_events; elim: nodes st => //= i l IH st.
by rewrite mbindA; do 2!(apply: mbind_ext => _ ?); exact: IH.
Qed.
Lemma ksmoother_run nodes st : ksmoother nodes st = run (smooth_events nodes) st.
Proof.
rewrite /kalman_smoother /smooth_events; elim: (rev nodes) st => //= i l IH st.
by apply: mbind_ext => _ ?; exact: IH.
Qed.

Theorem sweep_run nodes st :
  ep_sweep nodes st = mbind (kfilter nodes) (fun _ => ksmoother nodes) st /\
  ep_sweep nodes st = run (filter_events nodes ++ smooth_events nodes) st.
Proof.
split=> //; rewrite run_cat /ep_fwd_back_updates.
rewrite -/(kfilter nodes) {1}/mbind {1}/mbind kfilter_run; case: run => st' [[]|e] //.
exact: ksmoother_run.
Qed.

(** how a run ends *)
Theorem run_prefix l st :
  let out := run l st in
  out.2 = Ok tt \/ exists l1 e l2 st' er, [/\ l = l1 ++ e :: l2, run l1 st = (st', Ok tt),
     do_ev e st' = (out.1, Err er), out.2 = Err er & out.1.1 = st'.1].
Proof.
elim: l st => [|e l IH] st /=; first by left.
rewrite ![mbind (do_ev e) _ _]/mbind; have /= [hat _] := update_atomic e st.
case E: (do_ev e st) hat => [st1 [[]|er]] /= hat; last first.
  right; exists [::], e, l, st, er; split=> //=; exact: hat.
have /= [h|[l1 [e' [l2 [st' [er [h1 h2 h3 h4 h5]]]]]]] := IH st1; first by left.
right; exists (e :: l1), e', l2, st', er; split=> //=; first by rewrite h1.
by rewrite /mbind E.
Qed.

(** a node without a successor: its backward update changes nothing *)
Theorem last_back_noop i st n : lookup st.1 i = Some n -> n_next n = None ->
  (do_ev (Back i) st).1 = st.
Proof.
move=> h hn; rewrite /= /call_back /mbind /get h; case: kwval => [p|] //.
rewrite /back_update /mbind /get h ?/lift; case: (gdiv (n_marg n) (n_back n)) => // c.
by rewrite hn.
Qed.

End Facts.
