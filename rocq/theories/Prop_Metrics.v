(** * Property C48 (Utils/Metrics.py, StateModel/Gaussian.py:223-238, Experiments/EP_Sweep_BearingsOnly.py:85-109) *)
Set Warnings "-notation-overridden,-ambiguous-paths".
From mathcomp Require Import all_ssreflect all_algebra.
From mathcomp Require Import real_closed.realalg.
From Verif Require Import Base ND PosDef LinAlg Gauss Metrics SpecMetrics MetricsFacts.
Set Implicit Arguments.
Unset Strict Implicit.
Unset Printing Implicit Defensive.
Import GRing.Theory Num.Theory Order.Theory.
Local Open Scope ring_scope.

Section Metrics.
Variables (R : rcfType) (illcond : forall n, 'M[R]_n -> bool) (logpdf : nd R -> nd R -> nd R -> res R).
Notation tells := (@tells R illcond).
Notation tells2 := (@tells2 R illcond).
Notation tells3 := (@tells3 R illcond).

(** rmse is the root of the mean squared distance over the common prefix of the two lists; the truths may be of
    shape (n,) or (1, n), in any mix *)
Theorem C48_rmse n gs xs (ms vs : seq 'cV[R]_n) : forall2 (@tells n) gs ms -> forall2 (@holds R n) xs vs -> gs <> [::] -> xs <> [::] ->
  rmse illcond gs xs = Ok (Num.sqrt (average (errors ms vs))).
Proof.
move=> h1 h2 n1 n2; rewrite (rmse_value h1 h2).
have : errors ms vs <> [::] by move: h1 h2 n1 n2 => [|a b l l' _ _] [|c d k k' _ _].
by case: (errors ms vs).
Qed.
(** it vanishes exactly if every compared mean is the truth *)
Theorem C48_zero n gs xs (ms vs : seq 'cV[R]_n) : forall2 (@tells n) gs ms -> forall2 (@holds R n) xs vs -> gs <> [::] -> xs <> [::] ->
  (rmse illcond gs xs = Ok 0 <-> all (fun p => p.1 == p.2) (zip ms vs)).
Proof. exact: rmse_zero. Qed.
(** surplus states or truths are silently ignored, whatever they contain *)
Theorem C48_prefix gs gs' xs xs' : size gs = size xs -> gs' = [::] \/ xs' = [::] ->
  rmse illcond (gs ++ gs') (xs ++ xs') = rmse illcond gs xs.
Proof. exact: rmse_surplus. Qed.
(** without a compared pair there is no number (numpy: nan with a warning) *)
Theorem C48_empty gs xs : gs = [::] \/ xs = [::] ->
  rmse illcond gs xs = Err Unsupported /\ nll illcond logpdf gs xs = Err Unsupported.
Proof. by case=> ->; [case: xs | case: gs]. Qed.
(** a truth of shape (n, 1) does not raise: the error compares every component of the mean with every component
    of the truth, and is zero only if all components of both are one number *)
Theorem C48_column n g (m v : 'cV[R]_n) : tells g m ->
  g_squared_error illcond g (Nd2 v) = Ok (\sum_i \sum_j (m j 0 - v i 0) ^+ 2) /\
  (g_squared_error illcond g (Nd2 v) = Ok 0 <-> forall i j, m j 0 = v i 0).
Proof.
move=> h; rewrite (sqerr_col v h); split=> //; split=> [/Ok_inj /eqP|hj].
  by rewrite sqerr_col_zero => /forallP hi i j; apply/eqP; have /forallP := hi i; apply.
by congr Ok; apply/eqP; rewrite sqerr_col_zero; apply/forallP => i; apply/forallP => j; rewrite (hj i j).
Qed.
(** nll is the mean of the negated log-densities of the truths *)
Theorem C48_nll n (lp : 'cV[R]_n -> 'cV[R]_n -> 'M[R]_n -> R) gs xs (mcs : seq ('cV[R]_n * 'M[R]_n)) (vs : seq 'cV[R]_n) :
  (forall v m c x, posdef c -> holds x v -> logpdf x (Nd1 m) (Nd2 c) = Ok (lp v m c)) ->
  forall2 (@tells3 n) gs mcs -> forall2 (@holds R n) xs vs -> zip mcs vs <> [::] ->
  nll illcond logpdf gs xs = Ok (average [seq - lp p.2 p.1.1 p.1.2 | p <- zip mcs vs]).
Proof. by move=> hl h1 h2; rewrite (nll_value hl h1 h2); case: (zip mcs vs). Qed.
(** node_metrics returns (rmse, nll) *)
Theorem C48_node_metrics gs xs r l : node_metrics illcond logpdf gs xs = Ok (r, l) <->
  rmse illcond gs xs = Ok r /\ nll illcond logpdf gs xs = Ok l.
Proof.
rewrite /node_metrics; case: (rmse illcond gs xs) => [a|e]; rewrite bindE; last by split=> // -[].
case: (nll illcond logpdf gs xs) => [b|e]; rewrite bindE; last by split=> // -[].
by split=> [/Ok_inj [-> ->]|[/Ok_inj -> /Ok_inj ->]].
Qed.
(** the tracker's position, velocity and turn-rate errors split the full squared error *)
Theorem C48_parts gs xs (mcs : seq ('cV[R]_5 * 'M[R]_5)) (vs : seq 'cV[R]_5) b :
  forall2 (@tells2 5) gs mcs -> forall2 (fun x (v : 'cV[R]_5) => x = Nd2 v^T) xs vs ->
  bott_metrics illcond logpdf gs xs = Ok b ->
  exists2 r, rmse illcond gs xs = Ok r & pos_rmse b ^+ 2 + vel_rmse b ^+ 2 + ang_rmse b ^+ 2 = r ^+ 2.
Proof. exact: bott_parts. Qed.
(** they are the metrics of the marginal distributions of the components: for positive-definite covariances the
    densities are only evaluated at positive-definite blocks *)
Theorem C48_components (lp1 : 'cV[R]_1 -> 'cV[R]_1 -> 'M[R]_1 -> R) (lp2 : 'cV[R]_2 -> 'cV[R]_2 -> 'M[R]_2 -> R)
    gs xs (mcs : seq ('cV[R]_5 * 'M[R]_5)) (vs : seq 'cV[R]_5) :
  (forall v m c x, posdef c -> holds x v -> logpdf x (Nd1 m) (Nd2 c) = Ok (lp1 v m c)) ->
  (forall v m c x, posdef c -> holds x v -> logpdf x (Nd1 m) (Nd2 c) = Ok (lp2 v m c)) ->
  forall2 (@tells3 5) gs mcs -> forall2 (fun x (v : 'cV[R]_5) => x = Nd2 v^T) xs vs -> zip mcs vs <> [::] ->
  bott_metrics illcond logpdf gs xs = Ok
    (Bott (Num.sqrt (average [seq dist2 (pick positions p.1.1) (pick positions p.2) | p <- zip mcs vs]))
          (average [seq - lp2 (pick positions p.2) (pick positions p.1.1) (block positions p.1.2) | p <- zip mcs vs])
          (Num.sqrt (average [seq dist2 (pick velocities p.1.1) (pick velocities p.2) | p <- zip mcs vs]))
          (average [seq - lp2 (pick velocities p.2) (pick velocities p.1.1) (block velocities p.1.2) | p <- zip mcs vs])
          (Num.sqrt (average [seq dist2 (pick turn_rate p.1.1) (pick turn_rate p.2) | p <- zip mcs vs]))
          (average [seq - lp1 (pick turn_rate p.2) (pick turn_rate p.1.1) (block turn_rate p.1.2) | p <- zip mcs vs])).
Proof. exact: bott_value. Qed.
(** truths of shape (5,) make it raise: the code indexes them by pairs *)
Theorem C48_flat_truth n gs xs (mcs : seq ('cV[R]_5 * 'M[R]_5)) (v : 'cV[R]_n) :
  forall2 (@tells2 5) gs mcs -> bott_metrics illcond logpdf gs (Nd1 v :: xs) = Err IndexErr.
Proof. exact: bott_flat. Qed.
End Metrics.

(** ** Examples *)
Section Examples.
Variables (R : rcfType) (illcond : forall n, 'M[R]_n -> bool).
Let g n (m : 'cV[R]_n) : gauss R := gaussian (Nd1 m) (Nd2 (1%:M : 'M[R]_n)).
(** two states three and four away from the truths, which are stored in both layouts; a surplus state *)
Let gs := [:: g (const_mx 3%:R : 'cV_1); g (const_mx (- 3%:R) : 'cV_1); g (0 : 'cV_4)].
Let xs := [:: Nd1 (0 : 'cV[R]_1); Nd2 (0 : 'cV[R]_1)^T].
Example C48_example : rmse illcond gs xs = Ok 3%:R.
Proof.
rewrite -(cat_take_drop 2 gs) -[xs]cats0 (@C48_prefix _ _ (take 2 gs)) //; last by right.
have h1 : forall2 (tells illcond (n := 1)) (take 2 gs) [:: const_mx 3%:R; const_mx (- 3%:R)] by do !constructor.
have h2 : forall2 (@holds R 1) xs [:: 0; 0].
  by constructor; [left|constructor; [right|constructor]].
rewrite (C48_rmse h1 h2) //; congr Ok.
rewrite /errors /average /= !big_cons big_nil addr0 /dist2 !big_ord1 !mxE !subr0 sqrrN -[X in X / _]mulr2n -[X in X / _]mulr_natr mulfK ?pnatr_eq0 //.
by rewrite sqrtr_sqr ger0_norm ?ler0n.
Qed.
Definition flatpdf (x m c : nd R) : res R := Ok 0.
Example C48_parts_example : exists b, bott_metrics illcond flatpdf [:: g (const_mx 1 : 'cV_5)] [:: Nd2 (0 : 'cV[R]_5)^T] = Ok b.
Proof.
have h1 : forall2 (tells3 illcond (n := 5)) [:: g (const_mx 1 : 'cV_5)] [:: (const_mx 1, 1%:M)].
  by constructor; [split=> //; apply: posdef1 | constructor].
have h2 : forall2 (fun x (v : 'cV[R]_5) => x = Nd2 v^T) [:: Nd2 (0 : 'cV[R]_5)^T] [:: 0] by constructor; constructor.
eexists; apply: (C48_components (lp1 := fun _ _ _ => 0) (lp2 := fun _ _ _ => 0) (logpdf := flatpdf) _ _ h1 h2) => //.
Qed.
End Examples.
(** the field of the examples exists *)
Example C48_real : rmse (fun n _ => false) [:: gaussian (Nd1 (const_mx 3%:R : 'cV_1)) (Nd2 (1%:M : 'M_1)); gaussian (Nd1 (const_mx (- 3%:R) : 'cV_1)) (Nd2 (1%:M : 'M_1));
  gaussian (Nd1 (0 : 'cV_4)) (Nd2 (1%:M : 'M_4))] [:: Nd1 (0 : 'cV_1); Nd2 (0 : 'cV_1)^T] = Ok (3%:R : [rcfType of realalg]).
Proof. exact: C48_example. Qed.

Print Assumptions C48_rmse.
Print Assumptions C48_zero.
Print Assumptions C48_prefix.
Print Assumptions C48_empty.
Print Assumptions C48_column.
Print Assumptions C48_nll.
Print Assumptions C48_node_metrics.
Print Assumptions C48_parts.
Print Assumptions C48_components.
Print Assumptions C48_flat_truth.
