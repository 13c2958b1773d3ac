(** * Properties C25, C26: the EP chain with the shipped Gaussians, transforms and estimator *)
Set Warnings "-notation-overridden,-ambiguous-paths".
From mathcomp Require Import all_ssreflect all_algebra.
From mathcomp Require Import real_closed.realalg.
From Verif Require Import Base ND NDFacts PosDef LinAlg LinAlgFacts Gauss GaussFacts Nodes NodesFacts EPInv EPGauss
  Transforms TransformFacts Estimator EstimatorFacts EPEst EPCase Prop_Transforms.
Set Implicit Arguments.
Unset Strict Implicit.
Unset Printing Implicit Defensive.
Import GRing.Theory Num.Theory Order.Theory.
Local Open Scope ring_scope.

Section Props.
Variable R : rcfType.
Variable illcond : forall n, 'M[R]_n -> bool.
Variable W : Type.
Variable d : nat.
Notation nd := (nd R).
Notation gauss := (gauss R).
Notation dfun := (dfun R).
Notation transform := (transform R W).
Notation estimator := (estimator gauss R dfun dfun nd W).
Notation natv := (natv illcond (d := d)).
Variables (Kw T Y0 : Type) (t_zero : T) (tadd : T -> T -> T) (kw_tu0 : T -> Kw) (squeeze : Y0 -> nd).
Notation system := (system gauss dfun dfun Kw T).

(** [node_system(build_nodes(N, d, estimator), sys, ys, fargs)] on an empty heap, and any list of
    single-node update calls, raising ones included, afterwards *)
Definition setup N (e : estimator) (sy : system) (ys : seq Y0) fa w : state gauss R dfun dfun nd W :=
  (node_system t_zero tadd kw_tu0 squeeze (iota 0 N) sy ys fa
    (@build_nodes gauss R dfun dfun nd W (@as_factor R) (@as_marginal R) 1 Kw T N d (Some e) None ([::], w)).1).1.
Definition after l st := @gschedule R illcond dfun dfun nd W l st.
Definition update_call e st := @do_ev gauss R dfun dfun nd W (gmul illcond) (gdiv illcond) (gpow illcond)
  (gvalidate illcond) (@r_one_over R) (@r_one_minus R) (@r_sdiv R) e st.

(** the functions of a system are of the kind a transform expects *)
Definition system_ok (tm mm : transform) (sy : system) : Prop :=
  [/\ forall kw, trans_shape illcond d tm (sy_trans sy kw), meas_shape illcond d mm (sy_meas sy) &
      exists u, natv (sy_init sy) u].
Definition unset_ok (tm mm : transform) : Prop := trans_shape illcond d tm (@unset_fun R) /\ meas_shape illcond d mm (@unset_fun R).

(** C25: the invariant, in natural parameters (precision, shift); the base is the initial marginal *)
Theorem C25_invariant N (tm mm : transform) Q Rm power damping sy ys fa w l j n :
  ~~ illcond (large_num R *: 1%:M : 'M[R]_d) -> (1 < N)%N -> power != 0 ->
  system_ok tm mm sy -> unset_ok tm mm ->
  lookup (after l (setup N (mk_estimator illcond tm mm Q Rm power damping) sy ys fa w)).1 j = Some n ->
  exists m f z b, [/\ natv (n_marg n) m, natv (n_fwd n) f, natv (n_meas n) z, natv (n_back n) b &
    m = (trace_min R *: 1%:M, 0) + power^-1 *: (f + z + b)].
Proof.
move=> ic hN p0 [s1 s2 s3] [u1 u2].
pose okf (f : option dfun) := trans_shape illcond d tm (fun_of f).
pose okh (f : option dfun) := meas_shape illcond d mm (fun_of f).
set e := mk_estimator _ _ _ _ _ _ _.
have ge : good_estimator illcond d okf okh (fun _ => True) e by exact: mk_good.
rewrite /after; case E: (setup N e sy ys fa w) => [h w'].
have fc : fresh_chain d e h by rewrite -[h]/((h, w').1) -E; exact: setup_fresh.
apply: (@ep_chain R illcond dfun dfun nd W d okf okh (fun _ => True) e h w' ic ge p0 fc).
move=> i x; rewrite -[h]/((h, w').1) -E; exact: setup_data.
Qed.
(** C25: unscented transform, functions acting on batches of rows *)
Theorem C25_unscented N a1 b1 k1 a2 b2 k2 Q Rm power damping sy ys fa w l j n :
  let tm := pure_transform (W := W) (ut_transform illcond d a1 b1 k1) in
  let mm := pure_transform (W := W) (ut_transform illcond d a2 b2 k2) in
  ~~ illcond (large_num R *: 1%:M : 'M[R]_d) -> (1 < N)%N -> power != 0 ->
  (forall kw, exists f : 'cV[R]_d -> 'cV[R]_d, rowwise (sy_trans sy kw) f) -> (exists u, natv (sy_init sy) u) ->
  lookup (after l (setup N (mk_estimator illcond tm mm Q Rm power damping) sy ys fa w)).1 j = Some n ->
  exists m f z b, [/\ natv (n_marg n) m, natv (n_fwd n) f, natv (n_meas n) z, natv (n_back n) b &
    m = (trace_min R *: 1%:M, 0) + power^-1 *: (f + z + b)].
Proof.
move=> tm mm ic hN p0 hf hp; apply: C25_invariant => //.
  by split=> // [kw|]; [have [f hr] := hf kw; apply: ut_trans_shape; exact: rowwise_batch hr|exact: ut_meas_shape].
by split; [exact/ut_trans_shape/unset_batch|exact: ut_meas_shape].
Qed.
(** C25: Taylor transform, functions of a single state vector *)
Theorem C25_taylor N k Q Rm power damping sy ys fa w l j n :
  let tt := pure_transform (W := W) (tt_transform illcond) in
  ~~ illcond (large_num R *: 1%:M : 'M[R]_d) -> (1 < N)%N -> power != 0 ->
  (forall kw, single_shape d d (sy_trans sy kw)) -> single_shape d k (sy_meas sy) -> (exists u, natv (sy_init sy) u) ->
  lookup (after l (setup N (mk_estimator illcond tt tt Q Rm power damping) sy ys fa w)).1 j = Some n ->
  exists m f z b, [/\ natv (n_marg n) m, natv (n_fwd n) f, natv (n_meas n) z, natv (n_back n) b &
    m = (trace_min R *: 1%:M, 0) + power^-1 *: (f + z + b)].
Proof.
move=> tt ic hN p0 hf hh hp; apply: C25_invariant => //.
  by split=> // [kw|]; [exact: tt_trans_shape|exact: tt_meas_shape hh].
by split; [apply: tt_trans_shape|apply: (tt_meas_shape (k := k))].
Qed.

(** C26: a measurement or backward update with power 1 and damping g either changes no node or moves
    the natural parameters of the node's marginal to (1-g)*old + g*projected, where the projected
    state [s] is what the estimator returned for the node's cavity *)
Theorem C26_damped N (tm mm : transform) Q Rm g sy ys fa w l e n um :
  let st := after l (setup N (mk_estimator illcond tm mm Q Rm 1 g) sy ys fa w) in
  ~~ illcond (large_num R *: 1%:M : 'M[R]_d) -> (1 < N)%N -> system_ok tm mm sy -> unset_ok tm mm ->
  (if e is Fwd _ then False else True) -> lookup st.1 (ev_node e) = Some n -> natv (n_marg n) um ->
  (update_call e st).1.1 = st.1 \/
  exists n' s us, [/\ lookup (update_call e st).1.1 (ev_node e) = Some n',
    produced (gdiv illcond) (gpow illcond) (@r_one_over R) st.1 e n s, natv s us &
    natv (n_marg n') ((1 - g) *: um + g *: us)].
Proof.
move=> st ic hN [s1 s2 s3] [u1 u2] hev; rewrite {}/st.
pose okf (f : option dfun) := trans_shape illcond d tm (fun_of f).
pose okh (f : option dfun) := meas_shape illcond d mm (fun_of f).
set es := mk_estimator _ _ _ _ _ _ _.
have ge : good_estimator illcond d okf okh (fun _ => True) es by exact: mk_good.
case E: (setup N es sy ys fa w) => [h w'] hn hu.
have fc : fresh_chain d es h by rewrite -[h]/((h, w').1) -E; exact: setup_fresh.
have ok : forall j x, lookup h j = Some x -> data_ok (Fn := dfun) (Hn := dfun) (W := W) illcond d okf okh (fun _ => True) x.
  move=> i x; rewrite -[h]/((h, w').1) -E; exact: setup_data.
have := @ep_damped_chain R illcond dfun dfun nd W d okf okh (fun _ => True) es h w' l e n um ic ge (oner_neq0 _) fc ok hev hn hu.
case=> [h1|[n' [s [us [h1 h2 h3 h4]]]]]; [by left|right; exists n', s, us; split=> //].
move: h4; rewrite /= divr1; congr natv; rewrite scalerBl scale1r scalerBr addrA addrAC; by [].
Qed.
(** C26: damped mixes of positive-definite precisions *)
Theorem C26_posdef (A B : 'M[R]_d) g : 0 <= g <= 1 -> posdef A -> posdef B -> posdef ((1 - g) *: A + g *: B).
Proof. exact: posdef_mix. Qed.
End Props.

(** the hypotheses of C25 and C26 are met by the scalar random walk with two nodes, unscented transform, power 1/2 (C25)
    or 1 (C26), damping 4/5 *)
Section Case.
Variable R : rcfType.
Definition walk_start (p : R) := setup 1 tt (fun _ _ => tt) (fun=> tt) (@nsqueeze R) 2
  (mk_estimator (@never R) (@walk_ut R) (@walk_ut R) (Nd2 (1%:M : 'M[R]_1)) (Nd2 (1%:M : 'M[R]_1)) p (4%:R / 5%:R)) (@walk_sys R) (@walk_ys R) None tt.
Lemma walk_prior : exists u, natv (@never R) (sy_init (@walk_sys R)) (u : 'M[R]_1 * 'M[R]_1).
Proof. by eexists; apply: natv_mom; [exact: posdef1|]. Qed.
Lemma walk_there p : exists n, lookup (walk_start p).1 1 = Some n.
Proof. by eexists; reflexivity. Qed.
Lemma walk_invariant l j n : lookup (after (@never R) l (walk_start 2%:R^-1)).1 j = Some n ->
  exists m f z b, [/\ natv (@never R) (n_marg n) m, natv (@never R) (n_fwd n) f, natv (@never R) (n_meas n) z, natv (@never R) (n_back n) b &
    m = (trace_min R *: 1%:M, 0) + 2%:R^-1^-1 *: (f + z + b) :> 'M[R]_1 * 'M[R]_1].
Proof.
apply: C25_unscented => //; [by rewrite invr_eq0 pnatr_eq0|by move=> kw; eexists; exact: idf_rowwise|exact: walk_prior].
Qed.
Lemma walk_shapes : system_ok (@never R) 1 (@walk_ut R) (@walk_ut R) (@walk_sys R) /\ unset_ok (@never R) 1 (@walk_ut R) (@walk_ut R).
Proof.
split; first by split; [move=> kw; exact: (ut_trans_shape (rowwise_batch (@idf_rowwise R)))|exact: ut_meas_shape|exact: walk_prior].
by split; [exact/ut_trans_shape/unset_batch|exact: ut_meas_shape].
Qed.
Lemma walk_damped e : (if e is Fwd _ then False else True) -> ev_node e = 1%N -> exists n um,
  [/\ lookup (walk_start 1).1 1 = Some n, natv (@never R) (n_marg n) (um : 'M[R]_1 * 'M[R]_1) &
  (update_call (@never R) e (walk_start 1)).1.1 = (walk_start 1).1 \/ exists n' us,
    lookup (update_call (@never R) e (walk_start 1)).1.1 1 = Some n' /\
    natv (@never R) (n_marg n') ((1 - 4%:R / 5%:R) *: um + (4%:R / 5%:R) *: us)].
Proof.
move=> he hn; have [n ln] := walk_there 1; have [so uo] := walk_shapes.
have ic0 : ~~ @never R 1 (large_num R *: 1%:M : 'M[R]_1) by [].
have [m [f [z [b [h _ _ _ _]]]]] := C25_invariant (N := 2) (l := [::]) ic0 isT (oner_neq0 R) so uo ln.
exists n, m; split=> //; have := C26_damped (N := 2) (l := [::]) (e := e) ic0 isT so uo he; rewrite hn => /(_ _ _ _ _ _ _ _ _ _ _ _ n m ln h).
by case=> [|[n' [s [us [h1 _ _ h4]]]]]; [left|right; exists n', us].
Qed.
End Case.
Example C25_case := @walk_invariant [rcfType of realalg].
Example C26_case := @walk_damped [rcfType of realalg].
Print Assumptions C25_invariant. Print Assumptions C25_unscented. Print Assumptions C25_taylor.
Print Assumptions C26_damped. Print Assumptions C26_posdef.
