(** * C43: the Lorenz-96 system *)
Set Warnings "-notation-overridden,-ambiguous-paths".
From mathcomp Require Import all_ssreflect all_algebra.
From mathcomp Require Import real_closed.realalg.
From Verif Require Import Base ND NDFacts L96 SpecL96 L96Facts.
Set Implicit Arguments.
Unset Strict Implicit.
Unset Printing Implicit Defensive.
Import GRing.Theory Num.Theory.
Local Open Scope ring_scope.

Section C43.
Variable R : rcfType.
Notation nd := (nd R).

(** One step of the shipped transition is one Runge-Kutta step of the documented model run on the
    mirrored components, for every batch of rows. *)
Theorem C43_mirror m n dt F (X : 'M[R]_(m, n.+1)) :
  l96_f dt F (Nd2 X) = Ok (Nd2 (matf (fun i => mirror (rk4 dt (readme F) (mirror (rowf X i)))))).
Proof. by rewrite fE step_readme. Qed.

(** A 1-d state is treated as one row; the result is 2-d. *)
Theorem C43_vector n dt F (v : 'cV[R]_n.+1) :
  l96_f dt F (Nd1 v) = Ok (Nd2 (matf (fun _ : 'I_1 => mirror (rk4 dt (readme F) (mirror (fun j => v j 0)))))).
Proof.
rewrite fvE step_readme; congr (Ok (Nd2 _)); apply/matrixP=> i j; rewrite !mxE /mirror.
by rewrite [i]ord1 /rk4 /readme /rowf !mxE.
Qed.

(** The shipped tendency is the documented one exactly when there are at most three components. *)
Theorem C43_differs n F :
  (forall v : 'cV[R]_n.+1, l96_model (Nd1 v) F = Ok (Nd2 (matf (fun _ : 'I_1 => readme F (fun j => v j 0))))) <->
  (n.+1 <= 3)%N.
Proof.
rewrite -(agree_iff n F); split=> h v.
  have := h v; rewrite modelvE => /Ok_inj /Nd2_inj ->; apply/matrixP=> i j; rewrite !mxE /readme /rowf !mxE.
  by rewrite !ord1.
rewrite modelvE h; congr (Ok (Nd2 _)); apply/matrixP=> i j; rewrite !mxE /readme /rowf !mxE.
by rewrite !ord1.
Qed.

(** Renumbering the components cyclically commutes with the transition. *)
Theorem C43_shift m n dt F (X : 'M[R]_(m, n.+1)) s :
  (do y <- l96_f dt F (Nd2 X); nroll y s) = (do x <- nroll (Nd2 X) s; l96_f dt F x).
Proof. exact: roll_commutes. Qed.

(** Rows of a batch do not interact. *)
Theorem C43_rows m n dt F (X : 'M[R]_(m, n.+1)) Y : l96_f dt F (Nd2 X) = Ok (Nd2 Y) ->
  forall i, l96_f dt F (Nd2 (row i X)) = Ok (Nd2 (row i (Y : 'M[R]_(m, n.+1)))).
Proof. by rewrite fE => /Ok_inj /Nd2_inj <- i; rewrite fE row_step. Qed.

(** The quadratic terms do no work: d/dt |x|^2/2 = F sum x_j - |x|^2. *)
Theorem C43_energy m n F (X : 'M[R]_(m, n.+1)) : exists D : 'M[R]_(m, n.+1), l96_model (Nd2 X) F = Ok (Nd2 D) /\
  forall i, \sum_j X i j * D i j = F * (\sum_j X i j) - \sum_j X i j ^+ 2.
Proof. by exists (tend F X); rewrite modelE; split=> // i; exact: energy. Qed.

(** All components equal to F is a fixed point of the transition for every step size. *)
Theorem C43_fixed m n dt F :
  l96_f dt F (Nd2 (const_mx F : 'M[R]_(m, n.+1))) = Ok (Nd2 (const_mx F : 'M[R]_(m, n.+1))).
Proof. by rewrite fE fixed. Qed.

Theorem C43_measure m n (X : 'M[R]_(m, n)) : l96_h (Nd2 X) = Ok (Nd2 (\matrix_(i, j) (X i j ^+ 2))).
Proof. by rewrite /l96_h /nmul bop_mm; congr (Ok (Nd2 _)); apply/matrixP=> i j; rewrite !mxE expr2. Qed.

(** Without a stored initial condition no system of more than one component can be built.
    [array_last] is [np.array(xs)[-1]]: with arrays of different leading length it raises ValueError
    (numpy >= 1.24) or makes an object array, whose last element is the last array (before). *)
Section Init.
Variable array_last : seq nd -> res nd.
Hypothesis mixed : forall a xs b, shape0 a <> shape0 b ->
  array_last (a :: rcons xs b) = Err ValueErr \/ array_last (a :: rcons xs b) = Ok b.
Variable path : eqType.
Notation fs := (fs R path).
Variable log_path : R -> nat -> path.
Variable save : path -> nd -> fs -> res fs.
Notation l96_init := (l96_init array_last log_path save).

Theorem C43_never_built q r dim F p (files : fs) : dim <> 1%N ->
  (if p is Some p then files p = None else True) ->
  isOk (l96_init q r dim F p files).2 = false.
Proof.
move=> n1 hp.
have -> : l96_init q r dim F p files = l96_init q r dim F None files.
  by case: p hp => // p hp; rewrite /L96.l96_init hp.
rewrite /L96.l96_init /generate_and_save; have := generate_shape mixed F n1.
case: (l96_generate _ _ _) => [x|e] // sx; case: (save _ _ _) => [fs'|e] //=.
by rewrite bindE (shape0_of sx) bindE; case: eqP => // e; case: n1.
Qed.

(** With an older numpy the attempt leaves a file of the wrong shape behind, so that later attempts that
    point at this file fail as well. *)
Theorem C43_poisoned q r dim F (files : fs) : dim <> 1%N -> dim <> 0%N ->
  (forall a xs b, shape0 a <> shape0 b -> array_last (a :: rcons xs b) = Ok b) ->
  (forall p x f, exists f', save p x f = Ok f' /\ f' p = Some x) ->
  let '(files', res) := l96_init q r dim F None files in
  res = Err AssertErr /\ forall q' r', (l96_init q' r' dim F (Some (log_path F dim)) files').2 = Err AssertErr.
Proof.
move=> n1 n0 hl hs; rewrite /L96.l96_init /generate_and_save; have := generate_shape mixed F n1.
have ok : exists x, l96_generate array_last dim F = Ok x.
  case: dim n1 n0 => [|n] n1 n0; first by [].
  rewrite /l96_generate; case: (iter_start 998 (perturbed n F)) => xs [b [e sb]].
  rewrite -[l96_iter 999 _ _]/(l96_iter 998.+1 _ _) e bindE; exists b; apply: hl.
  by case: b sb {e} => // m1 n2 B /= [-> _] [h]; apply: n1; rewrite h.
case: ok => x -> /shape0_of sx.
case: (hs (log_path F dim) x files) => f' [-> hf] /=.
have ne : (1%N == dim) = false by apply/eqP=> e; case: n1.
split=> [|q' r']; first by rewrite bindE sx bindE ne.
by rewrite hf /= bindE sx bindE ne.
Qed.

(** A stored 1-d array of the right length is used as it is. *)
Theorem C43_loaded q r dim F p (files : fs) (v : 'cV[R]_dim) : files p = Some (Nd1 v) ->
  l96_init q r dim F (Some p) files =
  (files, Ok (L96Sys (Nd1 v) (Nd2 (1%:M : 'M_dim)) (Nd2 (q *: (1%:M : 'M_dim))) (Nd2 (r *: (1%:M : 'M_dim))) dim)).
Proof. by move=> h; rewrite /L96.l96_init h /= !bindE eqxx. Qed.
End Init.
End C43.

(** ** concrete cases *)
Module Demo.
Definition RA := [rcfType of realalg].
(** both numpy behaviours satisfy the hypothesis *)
Definition strict (xs : seq (nd RA)) : res (nd RA) :=
  if constant (map (@shape RA) xs) then Ok (last (Nd0 0) xs) else Err ValueErr.
Definition legacy (xs : seq (nd RA)) : res (nd RA) := Ok (last (Nd0 0) xs).
Lemma shape0_shape (R : rcfType) (a b : nd R) : shape0 a <> shape0 b -> shape a <> shape b.
Proof. by case: a => [x|n v|m n A]; case: b => [y|n' w|m' n' B] //= h e; apply: h; move: e => [] -> // . Qed.
Lemma const_last (T : eqType) (a b : T) xs : a <> b -> constant (a :: rcons xs b) = false.
Proof. by move=> ne; rewrite /= all_rcons /=; apply/negbTE/negP => /andP [/eqP e _]; apply: ne. Qed.
Example strict_mixed a xs b : shape0 a <> shape0 b -> strict (a :: rcons xs b) = Err ValueErr.
Proof. by move=> h; rewrite /strict map_cons map_rcons (const_last _ (shape0_shape h)). Qed.
Example legacy_mixed a xs b : shape0 a <> shape0 b -> legacy (a :: rcons xs b) = Ok b.
Proof. by move=> _; rewrite /legacy /= last_rcons. Qed.
(** four components: the shipped tendency of (0, 1, 1, 0) in component 0 is F - 1, the documented one F *)
Example four (R : rcfType) (F : R) :
  ~ (forall v : 'cV[R]_4, l96_model (Nd1 v) F = Ok (Nd2 (matf (fun _ : 'I_1 => readme F (fun j => v j 0))))).
Proof. by move/C43_differs. Qed.
Example save_ok (R : rcfType) (path : eqType) (p : path) (x : nd R) (f : fs R path) :
  exists f', (fun p x f => Ok (fun p' => if p' == p then Some x else f p')) p x f = Ok f' /\ f' p = Some x.
Proof. by eexists; split; first reflexivity; rewrite /= eqxx. Qed.
End Demo.

Print Assumptions C43_mirror.
Print Assumptions C43_vector.
Print Assumptions C43_differs.
Print Assumptions C43_shift.
Print Assumptions C43_rows.
Print Assumptions C43_energy.
Print Assumptions C43_fixed.
Print Assumptions C43_measure.
Print Assumptions C43_never_built.
Print Assumptions C43_poisoned.
Print Assumptions C43_loaded.
