(** * Properties C20-C24, C27 (ExpectationPropagation/Nodes.py, Iterations.py)

    Gaussians, numbers, projections and their failures are arbitrary. *)
Set Warnings "-notation-overridden,-ambiguous-paths".
From mathcomp Require Import all_ssreflect.
From Verif Require Import Base Nodes NodesFacts.
Set Implicit Arguments.
Unset Strict Implicit.
Unset Printing Implicit Defensive.

Section Props.
Variables (G Sc Fn Hn Y W : Type).
Variable gmul gdiv : G -> G -> res G.
Variable gpow : G -> Sc -> res G.
Variable gvalid : G -> res unit.
Variable one_over : Sc -> res Sc.
Variable one_minus : Sc -> res Sc.
Variable sdiv : Sc -> Sc -> res Sc.
Variable as_factor as_marginal : nat -> G.
Variable s_one : Sc.
Variables (Kw T Y0 : Type).
Variable t_zero : T.
Variable tadd : T -> T -> T.
Variable kw_tu0 : T -> Kw.
Variable squeeze : Y0 -> Y.

Notation node := (node G Sc Fn Hn Y W).
Notation heap := (heap G Sc Fn Hn Y W).
Notation state := (state G Sc Fn Hn Y W).
Notation estimator := (estimator G Sc Fn Hn Y W).
Notation system := (system G Fn Hn Kw T).
Notation node_estimator := (@node_estimator G Sc Fn Hn Y W s_one).
Notation node_system := (@node_system G Sc Fn Hn Y W Kw T Y0 t_zero tadd kw_tu0 squeeze).
Notation build_nodes := (@build_nodes G Sc Fn Hn Y W as_factor as_marginal s_one Kw T).
Notation do_ev := (@do_ev G Sc Fn Hn Y W gmul gdiv gpow gvalid one_over one_minus sdiv).
Notation do_ops := (@do_ops G Sc Fn Hn Y W gmul gdiv gpow gvalid one_over one_minus sdiv s_one Kw T Y0
  t_zero tadd kw_tu0 squeeze).
Notation run := (@run G Sc Fn Hn Y W gmul gdiv gpow gvalid one_over one_minus sdiv).
Notation ep_sweep := (@ep_fwd_back_updates G Sc Fn Hn Y W gmul gdiv gpow gvalid one_over one_minus sdiv).
Notation kfilter := (@kalman_filter G Sc Fn Hn Y W gmul gdiv gpow gvalid one_over one_minus sdiv).
Notation ksmoother := (@kalman_smoother G Sc Fn Hn Y W gmul gdiv gpow gvalid one_over sdiv).

(** the attributes that [node_estimator] sets *)
Definition equipped (e : option estimator) (n : node) : Prop :=
  if e is Some e then
    [/\ n_power n = Some (if e_power e is Some p then p else s_one),
        n_damp n = Some (if e_damp e is Some d then d else s_one) &
        [/\ kwval (n_ufwd n) None = Some (e_trans e), kwval (n_umeas n) None = Some (e_meas e) &
            kwval (n_uback n) None = Some (e_back e)]]
  else [/\ n_power n = None, n_damp n = None & [/\ n_ufwd n = Bound, n_umeas n = Bound & n_uback n = Bound]].

(** C20: for two or more nodes; references of the new nodes are [size h0 + i] *)
Theorem C20_build N dim e (sy : option system) (h0 : heap) w : 1 < N ->
  let: (h, w', r) := build_nodes N dim e sy (h0, w) in
  let ref i := size h0 + i in
  [/\ w' = w, size h = size h0 + N, forall j, j < size h0 -> lookup h j = lookup h0 j,
      r = (if sy is Some _ then Err TypeErr else Ok [seq ref i | i <- iota 0 N]) &
      forall i, i < N -> exists n, [/\ lookup h (ref i) = Some n, n_index n = i /\ n_dim n = dim,
        [/\ n_marg n = as_marginal dim, n_fwd n = as_factor dim, n_meas n = as_factor dim &
            n_back n = as_factor dim],
        n_prev n = (if i == 0 then None else Some (ref i.-1)) /\
        n_next n = (if i.+1 == N then None else Some (ref i.+1)) &
        [/\ n_trans n = None, n_measf n = None, n_y n = None & n_prior n = None] /\ equipped e n]].
Proof.
move=> hN; have := @build_nodes_spec G Sc Fn Hn Y W as_factor as_marginal s_one Kw T N dim e sy h0 w hN.
case: build_nodes => -[h w'] r [h1 h2 h3 h4 h5]; split=> //.
  by rewrite h4; case: (sy) => //; rewrite -iotaDl addn0.
move=> i hi; have := h5 i hi.
have -> : (i.+1 == N) = (i == N.-1) by case: (N) hN => //.
by case: e {h5 h4} => [e|] h5; eexists; split; try exact: h5; split=> //; split=> //; split=> //;
   exact: kwval_partial.
Qed.
(** C20: one node or none *)
Theorem C20_small dim e (sy : option system) st :
  (build_nodes 1 dim e sy st).2 = Err IndexErr /\
  build_nodes 0 dim e sy st = (st, if sy is Some _ then Err TypeErr else Ok [::]).
Proof. exact: build_nodes_small. Qed.

(** C21: [n] nodes receive data; the i-th default time is dt added i times to 0.0 *)
Theorem C21_assign nodes sy (ys : seq Y0) fa st : uniq nodes -> all (fun j => j < size st.1) nodes ->
  let: (h, w, r) := node_system nodes sy ys fa st in
  let n := minn (size nodes) (minn (size ys) (if fa is Some l then size l else size ys)) in
  [/\ w = st.2, size h = size st.1, r = (if n == 0 then Err IndexErr else Ok (take n nodes)),
      forall i x y k, i < n -> lookup st.1 (nth 0 nodes i) = Some x -> ohead (drop i ys) = Some y ->
        (if fa is Some l then ohead (drop i l) else Some (kw_tu0 (iter i (tadd^~ (sy_dt sy)) t_zero))) = Some k ->
        exists x', [/\ lookup h (nth 0 nodes i) = Some x',
          [/\ n_trans x' = Some (sy_trans sy k), n_measf x' = Some (sy_meas sy) & n_y x' = Some (squeeze y)],
          n_prior x' = (if i == 0 then Some (sy_init sy) else n_prior x),
          [/\ n_index x' = n_index x, n_dim x' = n_dim x, n_prev x' = n_prev x & n_next x' = n_next x] /\
          [/\ n_marg x' = n_marg x, n_fwd x' = n_fwd x, n_meas x' = n_meas x & n_back x' = n_back x] &
          [/\ n_power x' = n_power x, n_damp x' = n_damp x, n_ufwd x' = n_ufwd x, n_umeas x' = n_umeas x &
              n_uback x' = n_uback x]] &
      forall j, j \notin take n nodes -> lookup h j = lookup st.1 j].
Proof.
move=> un hn; have := @node_system_spec G Sc Fn Hn Y W Kw T Y0 t_zero tadd kw_tu0 squeeze nodes sy ys fa st un hn.
case: node_system => -[h w] r [h1 h2 h3 h4 h5]; split=> // i x y k hi hx hy hk.
by rewrite (h4 i x y k hi hx hy hk); eexists; split; first reflexivity; case: eqP.
Qed.

(** C22: [node_estimator] for a non-empty sequence of estimators ending in [e] *)
Theorem C22_last_wins nodes es e st : uniq nodes ->
  let: (h, w, r) := @estimators G Sc Fn Hn Y W s_one nodes (rcons es e) st in
  [/\ r = Ok tt, w = st.2, size h = size st.1, forall j, j \notin nodes -> lookup h j = lookup st.1 j &
      forall j n, j \in nodes -> lookup st.1 j = Some n ->
        exists n', [/\ lookup h j = Some n', same_data n n' & equipped (Some e) n']].
Proof.
move=> un; have := @last_estimator_wins G Sc Fn Hn Y W s_one nodes es e st un.
case: estimators => -[h w] r [h1 h2 h3 h4 h5]; split=> // j n hj hn.
by have [n' [a b c d f]] := h5 j n hj hn; exists n'.
Qed.

(** C23: one update call on any node in any state *)
Theorem C23_atomic e (st : state) :
  let out := do_ev e st in
  (out.2 <> Ok tt -> out.1.1 = st.1) /\
  (out.1.1 = st.1 \/
   exists n n', [/\ lookup st.1 (ev_node e) = Some n, lookup out.1.1 (ev_node e) = Some n',
     only_changes e n n', (forall j, j != ev_node e -> lookup out.1.1 j = lookup st.1 j) &
     gvalid (n_marg n') = Ok tt /\
     exists2 s, produced gdiv gpow one_over st.1 e n s & gvalid s = Ok tt]).
Proof. exact: update_atomic. Qed.

(** C24: any schedule of update calls, re-equipping and re-assigning data, every exception caught *)
Theorem C24_validated l (st : state) :
  let ok (h : heap) := forall j n, lookup h j = Some n -> n_marg n = as_marginal (n_dim n) \/ gvalid (n_marg n) = Ok tt in
  ok st.1 -> ok (do_ops l st).1.
Proof. exact: committed_valid. Qed.
(** C24: in particular on a freshly built chain *)
Theorem C24_fresh N dim e l w : 1 < N ->
  forall j n, lookup (do_ops l (build_nodes N dim e None ([::], w)).1).1 j = Some n ->
  n_marg n = as_marginal (n_dim n) \/ gvalid (n_marg n) = Ok tt.
Proof.
move=> hN; apply: (C24_validated _).
have := @C20_build N dim e None [::] w hN; case: build_nodes => -[h w'] r /= [_ hs _ _ hi] j n hj.
have jN : j < N by have := lookup_some hj; rewrite hs add0n.
by have [n' [e1 [_ e2] [e3 _ _ _] _ _]] := hi j jN; move: hj; rewrite -[j]add0n e1 => -[<-]; left; rewrite e3 e2.
Qed.

(** C27: shape of a sweep *)
Theorem C27_sweep nodes (st : state) :
  ep_sweep nodes st = mbind (kfilter nodes) (fun _ => ksmoother nodes) st /\
  ep_sweep nodes st = run (flatten [seq [:: Fwd i; Meas i] | i <- nodes] ++ [seq Back i | i <- rev nodes]) st.
Proof. exact: sweep_run. Qed.
(** C27: a run either completes or stops at the first raising update with the earlier ones applied *)
Theorem C27_prefix l (st : state) :
  let out := run l st in
  out.2 = Ok tt \/ exists l1 e l2 st' er, [/\ l = l1 ++ e :: l2, run l1 st = (st', Ok tt),
     do_ev e st' = (out.1, Err er), out.2 = Err er & out.1.1 = st'.1].
Proof. exact: run_prefix. Qed.
(** C27: a node without successor *)
Theorem C27_last_back i (st : state) n : lookup st.1 i = Some n -> n_next n = None ->
  (do_ev (Back i) st).1 = st.
Proof. exact: last_back_noop. Qed.
End Props.
Print Assumptions C20_build. Print Assumptions C20_small. Print Assumptions C21_assign.
Print Assumptions C22_last_wins. Print Assumptions C23_atomic. Print Assumptions C24_validated.
Print Assumptions C24_fresh. Print Assumptions C27_sweep. Print Assumptions C27_prefix. Print Assumptions C27_last_back.

(** ** Non-vacuity: a toy instance that runs.  Gaussians and numbers are naturals, the world is
    a counter; projecting doubles the state and counts; 13 is not a valid Gaussian. *)
Section Examples.
Let add2 (a b : nat) : res nat := Ok (a + b).
Let sub2 (a b : nat) : res nat := Ok (a - b).
Let mul2 (a b : nat) : res nat := Ok (a * b).
Let valid (a : nat) : res unit := if a == 13 then Err LinAlgErr else Ok tt.
Let over (a : nat) : res nat := if a == 0 then Err ZeroDivErr else Ok (1 %/ a).
Let minus (a : nat) : res nat := Ok (1 - a).
Let dv (a b : nat) : res nat := if b == 0 then Err ZeroDivErr else Ok (a %/ b).
Let est : estimator nat nat nat nat nat nat :=
  Estimator (fun f x w => (w.+1, if f is Some f then Ok (x + f) else Err TypeErr))
            (fun h x y w => (w.+1, if h is Some h then Ok (x + h * y) else Err TypeErr))
            (fun f x c g w => (w.+1, if f is Some f then Ok (x + f + c) else Err TypeErr)) None None.
Let sy : system nat nat nat nat nat := System id 2 10 5.
Let bld N := @build_nodes nat nat nat nat nat nat (fun _ => 0) (fun _ => 7) 1 nat nat N 1 (Some est) None ([::], 0).
Let sys l := @node_system nat nat nat nat nat nat nat nat nat 0 addn id id [:: 0; 1; 2] sy l None (bld 3).1.
Let sweep := @ep_fwd_back_updates nat nat nat nat nat nat add2 sub2 mul2 valid over minus dv.
Let margs (st : state nat nat nat nat nat nat) := [seq n_marg n | n <- st.1].

Example C20_example : 1 < 3 /\ (bld 3).2 = Ok [:: 0; 1; 2] /\ [seq n_next n | n <- (bld 3).1.1] = [:: Some 1; Some 2; None].
Proof. by vm_compute. Qed.
Example C21_example : (sys [:: 4; 5]).2 = Ok [:: 0; 1] /\
  [seq n_trans n | n <- (sys [:: 4; 5]).1.1] = [:: Some 0; Some 10; None].
Proof. by vm_compute. Qed.
Example C22_example : uniq [:: 0; 1; 2] /\ 1 \in [:: 0; 1; 2] /\ isSome (lookup (bld 3).1.1 1).
Proof. by vm_compute. Qed.
(** an update that commits, and one whose new marginal is rejected *)
Example C23_example :
  let ev := @do_ev nat nat nat nat nat nat add2 sub2 mul2 valid over minus dv in
  margs (ev (Fwd 0) (sys [:: 4; 5; 6]).1).1 = [:: 12; 7; 7] /\
  margs (ev (Meas 1) (sys [:: 4; 3; 6]).1).1 = [:: 7; 7; 7] /\
  (ev (Meas 1) (sys [:: 4; 3; 6]).1).2 = Ok tt.
Proof. by vm_compute. Qed.
(** a full sweep that completes and changes every marginal, and one that raises at the unassigned node *)
Example C27_example :
  (sweep [:: 0; 1; 2] (sys [:: 4; 5; 6]).1).2 = Ok tt /\
  (sweep [:: 0; 1; 2] (sys [:: 4; 5]).1).2 = Err TypeErr /\
  margs (sweep [:: 0; 1; 2] (sys [:: 4; 5]).1).1 != [:: 7; 7; 7].
Proof. by vm_compute. Qed.
Example C24_example : 1 < 3 /\ all (fun n => n_marg n != 7) (sweep [:: 0; 1; 2] (sys [:: 4; 5; 6]).1).1.1.
Proof. by vm_compute. Qed.
End Examples.
