(** * Properties C11-C14, C50 (MomentMatching transforms), exact arithmetic *)
Set Warnings "-notation-overridden,-ambiguous-paths".
From mathcomp Require Import all_ssreflect all_algebra.
From mathcomp Require Import real_closed.realalg.
From Verif Require Import Base ND NDFacts PosDef LinAlg LinAlgFacts Gauss GaussFacts Transforms TransformFacts UTPsd Nodes Estimator MonteCarlo.
Set Implicit Arguments.
Unset Strict Implicit.
Unset Printing Implicit Defensive.
Import GRing.Theory Num.Theory Order.Theory.
Local Open Scope ring_scope.

Section Props.
Variable R : rcfType.
Variable illcond : forall n, 'M[R]_n -> bool.
Notation nd := (nd R).
Notation gauss := (gauss R).
Notation dfun := (dfun R).

(** weighted mean and covariance of the rows of [S] *)
Definition wmean k d (w : 'cV[R]_k) (S : 'M[R]_(k, d)) : 'cV[R]_d := \sum_i w i 0 *: (row i S)^T.
Definition wcov k d (w : 'cV[R]_k) (S : 'M[R]_(k, d)) (v : 'cV[R]_d) : 'M[R]_d :=
  \sum_i w i 0 *: (((row i S)^T - v) *m ((row i S)^T - v)^T).

(** C11: [n+lambda = alpha^2 (n+kappa) > 0]; mean of shape (n,) or (1,n) *)
Theorem C11_points n (alpha beta kappa : R) a (v : 'cV[R]_n) (P : 'M[R]_n) :
  0 < alpha ^+ 2 * (n%:R + kappa) -> is_vec a v -> P^T = P ->
  let reproduces (T : 'M[R]_n) := exists (w : 'cV[R]_(1 + n + n)) W S,
    [/\ ut_weights n alpha beta kappa = Ok (Nd1 w, W), ut_sigma_points n alpha kappa a (Nd2 P) = Ok (Nd2 S),
        \sum_i w i 0 = 1, wmean w S = v & wcov w S v = T] in
  [/\ posdef P -> reproduces P,
      ~ posdef P -> posdef (P + jit *: 1%:M) -> reproduces (P + jit *: 1%:M) &
      ~ posdef (P + jit *: 1%:M) -> ut_sigma_points n alpha kappa a (Nd2 P) = Err LinAlgErr].
Proof.
rewrite -nplE => h ha sP rep.
have h0 : ut_npl n alpha kappa != 0 by exact: lt0r_neq0.
have go (L T : 'M[R]_n) : catch_any (sp_cholesky false (Nd2 P)) (jittered_chol false (Nd2 P)) = Ok (Nd2 L) ->
    L^T *m L = T -> rep T.
  move=> hL eT; exists (ut_wm n alpha kappa), (Nd2 (Wm n alpha beta kappa)), (spts alpha kappa v L); split.
  - exact: ut_weightsE.
  - exact: (sigma_of h ha hL (sympart_id sP)).
  - exact: wm_sum.
  - rewrite -[RHS](spts_mean h0 v L); apply/colP=> k; rewrite /wmean summxE !mxE; apply: eq_bigr => i _.
    by rewrite !mxE mulrC.
  - by rewrite -eT -(spts_cov_wm h h0 v L).
case: (ut_factor sP) => [[pP [L hL eL]]|[nP pJ [L hL eL]]|[nJ hE]]; split=> //.
- by move=> _; exact: go hL eL.
- by move=> nJ; case: nJ; exact: posdef_jit.
- by move=> _ _; exact: go hL eL.
- by move=> pP; case: nJ; exact: posdef_jit.
- by move=> _; rewrite /ut_sigma_points ltNge (ltW h) /= symmetrize_sym // bindE hE.
Qed.
(** C11: the constructor divides by zero when n + lambda = 0 *)
Theorem C11_zero n (alpha beta kappa : R) : alpha ^+ 2 * (n%:R + kappa) = 0 ->
  ut_weights n alpha beta kappa = Err ZeroDivErr.
Proof. by rewrite -nplE /ut_weights => ->; rewrite eqxx. Qed.

(** C12: affine functions *)
Theorem C12_affine n m (alpha beta kappa : R) (F : dfun) (A : 'M[R]_(m, n)) b g a v (P : 'M[R]_n) :
  0 < alpha ^+ 2 * (n%:R + kappa) -> rowwise F (fun x => A *m x + b) ->
  g_mean illcond g = Ok a -> is_vec a v -> g_cov illcond g = Ok (Nd2 P) -> posdef P ->
  ut_transform illcond n alpha beta kappa F g =
  Ok (Nd1 (A *m v + b), Nd2 (A *m P *m A^T), Nd2 (P *m A^T)).
Proof.
rewrite -nplE => h hF hm ha hP pP.
case: (ut_factor pP.1) => [[_ [L hL eL]]|[nP _ _]|[nJ _]] //; last by case: nJ; exact: posdef_jit.
by rewrite (ut_affine beta h hF hm ha hP (sympart_id pP.1) hL) eL.
Qed.
(** C12: for any function the result is the quadrature over the 2n+1 points mean, mean +- sqrt(n+lambda) L_j,
    where [L^T L] is the covariance *)
Theorem C12_quadrature n m (alpha beta kappa : R) (F : dfun) (Phi : 'cV[R]_n -> 'cV[R]_m) g a v (P : 'M[R]_n) :
  let k := alpha ^+ 2 * (n%:R + kappa) in
  0 < k -> rowwise F Phi -> g_mean illcond g = Ok a -> is_vec a v -> g_cov illcond g = Ok (Nd2 P) -> posdef P ->
  exists L : 'M[R]_n, L^T *m L = P /\
  let c := (2%:R * k)^-1 in
  let lam := k - n%:R in
  let w0 := lam / k in
  let w0c := w0 + (1 - alpha ^+ 2 + beta) in
  let xp j := v + Num.sqrt k *: (row j L)^T in
  let xm j := v - Num.sqrt k *: (row j L)^T in
  let mu := w0 *: Phi v + c *: \sum_j (Phi (xp j) + Phi (xm j)) in
  let o d e (x : 'cV[R]_d) (y : 'cV[R]_e) := x *m y^T in
  let dev x := Phi x - mu in
  ut_transform illcond n alpha beta kappa F g =
  Ok (Nd1 mu,
      Nd2 (w0c *: o _ _ (dev v) (dev v) + c *: \sum_j (o _ _ (dev (xp j)) (dev (xp j)) + o _ _ (dev (xm j)) (dev (xm j)))),
      Nd2 (c *: \sum_j (o _ _ (xp j - v) (dev (xp j)) + o _ _ (xm j - v) (dev (xm j))))).
Proof.
move=> k hk hF hm ha hP pP.
have ek : k = ut_npl n alpha kappa by rewrite nplE.
have h : 0 < ut_npl n alpha kappa by rewrite -ek.
case: (ut_factor pP.1) => [[_ [L hL eL]]|[nP _ _]|[nJ _]] //; last by case: nJ; exact: posdef_jit.
exists L; split; first exact: eL.
move=> c lam w0 w0c xp xm mu o dev.
have [r0 rp rm] := row_spts alpha kappa v L.
have e0 : (row (ic n) (spts alpha kappa v L))^T = v by rewrite r0 trmxK.
have ep j : (row (ip j) (spts alpha kappa v L))^T = xp j by rewrite rp linearD linearZ /= trmxK -ek.
have em j : (row (im j) (spts alpha kappa v L))^T = xm j by rewrite rm linearB linearZ /= trmxK -ek.
have elam : lam = ut_lambda n alpha kappa by rewrite /lam ek /ut_npl addrC addKr.
rewrite (ut_sums beta h hF hm ha hP (sympart_id pP.1) hL).
have emu : \sum_i ut_wm n alpha kappa i 0 *: Phi (row i (spts alpha kappa v L))^T = mu.
  rewrite sum_pts e0 wm_c /mu -elam -ek; congr (_ + _); rewrite scaler_sumr; apply: eq_bigr => j _.
  by rewrite ep em wm_p wm_m scalerDr -ek.
rewrite emu; congr (Ok _); congr (_, _); first congr (_, _); congr Nd2; rewrite sum_pts e0.
- rewrite [in ut_wc _ _ _ _ _ _]mxE /= -/(ut_npl n alpha kappa) -elam -ek -expr2; congr (_ + _).
  by rewrite scaler_sumr; apply: eq_bigr => j _; rewrite ep em wc_p wc_m scalerDr -ek.
- rewrite subrr mul0mx scaler0 add0r scaler_sumr.
  by apply: eq_bigr => j _; rewrite ep em wc_p wc_m scalerDr -ek.
Qed.

(** C50: the unscented covariance of every function is positive semidefinite iff [alpha^2 kappa + n beta >= 0] *)
Theorem C50_psd n (alpha beta kappa : R) g a (v : 'cV[R]_n) (P : 'M[R]_n) :
  0 < alpha ^+ 2 * (n%:R + kappa) -> (0 < n)%N ->
  g_mean illcond g = Ok a -> is_vec a v -> g_cov illcond g = Ok (Nd2 P) -> posdef P ->
  (forall m (F : dfun) (Phi : 'cV[R]_n -> 'cV[R]_m) mu C X, rowwise F Phi ->
     ut_transform illcond n alpha beta kappa F g = Ok (mu, Nd2 (C : 'M[R]_m), X) -> possemi C)
  <-> 0 <= alpha ^+ 2 * kappa + n%:R * beta.
Proof.
rewrite -nplE => h n0 hm ha hP pP.
case: (ut_factor pP.1) => [[_ [L hL eL]]|[nP _ _]|[nJ _]] //; last by case: nJ; exact: posdef_jit.
split=> [hall|hk m F Phi mu C X hF].
  rewrite leNgt; apply/negP => hn.
  pose F := DFun (fun x : nd => match x with
    | @Nd2 _ k n' X => Ok (Nd2 (rowmap (mahal v P) (conform_mx (0 : 'M_(k, n)) X))) | _ => Err ValueErr end) (fun=> Err TypeErr).
  have hF : rowwise F (mahal v P) by move=> k X; rewrite /F /= conform_mx_id.
  have e := ut_sums beta h hF hm ha hP (sympart_id pP.1) hL.
  have := hall _ _ _ _ _ _ hF e; case=> _ /(_ (const_mx 1)).
  have lt := mahal_neg h (posdef_unit pP) eL n0 hn erefl erefl; move: {lt}(lt v) => lt.
  rewrite /qf /bf; set M := \sum_i _ in lt *.
  clearbody M; have -> : ((const_mx 1 : 'cV[R]_1)^T *m M *m (const_mx 1 : 'cV[R]_1)) 0 0 = M 0 0.
    by rewrite !mxE big_ord_recl big_ord0 addr0 !mxE big_ord_recl big_ord0 addr0 !mxE mul1r mulr1.
  by rewrite leNgt lt.
rewrite (ut_sums beta h hF hm ha hP (sympart_id pP.1) hL) => /Ok_inj e.
have /Nd2_inj <- := f_equal (fun t => t.1.2) e.
exact: ut_psd.
Qed.

(** C13: the Taylor transform from the function value [y] and Jacobian [J] at the mean *)
Theorem C13_moments m n (F : dfun) x (y : 'cV[R]_m) (J : 'M[R]_(m, n)) g P : style F x y J ->
  g_mean illcond g = Ok (Nd1 x) -> g_cov illcond g = Ok (Nd2 P) ->
  exists2 a, tt_transform illcond F g = Ok (a, Nd2 (J *m P *m J^T), Nd2 (P *m J^T)) & natleast1 a = Nd1 y.
Proof. exact: tt_style. Qed.
Theorem C13_psd m n (P : 'M[R]_n) (J : 'M[R]_(m, n)) : possemi P -> possemi (J *m P *m J^T).
Proof. exact: possemi_congr. Qed.
(** C13: functions returning a batch of one row fail for one-dimensional states and lose the matrix shape
    for a single output *)
Theorem C13_batch_single_input m F (x : 'cV[R]_1) (y : 'cV[R]_m) (J : 'M[R]_(m, 1)) g (P : 'M[R]_1) : row_style F x y J ->
  g_mean illcond g = Ok (Nd1 x) -> g_cov illcond g = Ok (Nd2 P) -> tt_transform illcond F g = Err ValueErr.
Proof. exact: tt_row_single_in. Qed.
Theorem C13_batch_single_output n F (x : 'cV[R]_n) (y : 'cV[R]_1) (J : 'M[R]_(1, n)) g P : row_style F x y J -> n != 1%N ->
  g_mean illcond g = Ok (Nd1 x) -> g_cov illcond g = Ok (Nd2 P) ->
  tt_transform illcond F g = Ok (Nd0 (y 0 0), Nd0 ((J *m P *m J^T) 0 0), Nd1 (P *m J^T)).
Proof. exact: tt_row_single_out. Qed.

(** C14: sample moments; [samples] is any set of at least two draws *)
Definition sample_mean k d (X : 'I_k -> 'cV[R]_d) : 'cV[R]_d := (k%:R)^-1 *: \sum_i X i.
Definition sample_cov k d e (X : 'I_k -> 'cV[R]_d) (Y : 'I_k -> 'cV[R]_e) : 'M[R]_(d, e) :=
  ((k - 1)%:R)^-1 *: \sum_i (X i - sample_mean X) *m (Y i - sample_mean Y)^T.
Lemma smeanE k d (X : 'M[R]_(k, d)) : smean X = sample_mean (fun i => (row i X)^T). Proof. by []. Qed.
Lemma scrossE k d e (X : 'M[R]_(k, d)) (Y : 'M[R]_(k, e)) :
  scross X Y = sample_cov (fun i => (row i X)^T) (fun i => (row i Y)^T).
Proof. by rewrite /sample_cov subn1. Qed.
Theorem C14_moments n m k F (Phi : 'cV[R]_n -> 'cV[R]_m) (X : 'M[R]_(k, n)) : (1 < k)%N -> rowwise F Phi ->
  let x i := (row i X)^T in let y i := Phi (x i) in
  exists M C D, [/\ mc_transform (Nd2 X) F = Ok (Nd1 M, Nd2 C, Nd2 D), M = sample_mean y, C = sample_cov y y,
    D = sample_cov x y & possemi C].
Proof.
move=> k1 hF x y; rewrite (mc_moments X k1 hF); do 3!eexists; split; first reflexivity; rewrite ?smeanE ?scrossE.
- by congr (_ *: _); apply: eq_bigr => i _; rewrite row_rowmap trmxK.
- congr (_ *: _); have e : sample_mean (fun i => (row i (rowmap Phi X))^T) = sample_mean y.
    by congr (_ *: _); apply: eq_bigr => i _; rewrite row_rowmap trmxK.
  by apply: eq_bigr => i _; rewrite e row_rowmap trmxK.
- congr (_ *: _); have e : sample_mean (fun i => (row i (rowmap Phi X))^T) = sample_mean y.
    by congr (_ *: _); apply: eq_bigr => i _; rewrite row_rowmap trmxK.
  by apply: eq_bigr => i _; rewrite e row_rowmap trmxK.
- by rewrite -scrossE; exact: scross_psd.
Qed.
Theorem C14_affine n m k F (A : 'M[R]_(m, n)) b (X : 'M[R]_(k, n)) : (1 < k)%N -> rowwise F (fun x => A *m x + b) ->
  let x i := (row i X)^T in
  mc_transform (Nd2 X) F =
  Ok (Nd1 (A *m sample_mean x + b), Nd2 (A *m sample_cov x x *m A^T), Nd2 (sample_cov x x *m A^T)).
Proof.
move=> k1 hF x; have k0 := ltnW k1; rewrite (mc_moments X k1 hF) (smean_aff A b X k0).
by have [-> ->] := scross_aff A b X k0; rewrite scrossE smeanE.
Qed.
(** C14: each conversion takes one fresh set of draws and leaves the generator after them; without a
    number of samples it takes 10000 *)
Theorem C14_draws W (draw : forall size n, 'cV[R]_n -> 'M[R]_n -> W -> W * 'M[R]_(size, n)) n m k F (A : 'M[R]_(m, n)) b
    g mu (P : 'M[R]_n) s w : k = (if s is Some k' then k' else 10 ^ 4)%N -> (1 < k)%N -> rowwise F (fun x => A *m x + b) ->
  g_mean illcond g = Ok (Nd1 mu) -> g_cov illcond g = Ok (Nd2 P) ->
  let x i := (row i (draw k n mu P w).2)^T in
  mc_map illcond draw s F g w = ((draw k n mu P w).1,
    Ok (Nd1 (A *m sample_mean x + b), Nd2 (A *m sample_cov x x *m A^T), Nd2 (sample_cov x x *m A^T))).
Proof.
move=> hk k1 hF e1 e2 x; have ek : (if s is Some s0 then s0 else mc_default) = k by rewrite hk; case: (s).
rewrite /mc_map ek /g_sample e1 bindE e2 bindE !eqxx /= conform_mx_id; have := C14_affine (draw k n mu P w).2 k1 hF.
by rewrite -/x; case: (draw k n mu P w) x => w' X x /= ->.
Qed.
End Props.
Print Assumptions C14_draws. Print Assumptions C11_points. Print Assumptions C11_zero. Print Assumptions C12_affine. Print Assumptions C12_quadrature.
Print Assumptions C50_psd. Print Assumptions C13_moments. Print Assumptions C13_psd.
Print Assumptions C13_batch_single_input. Print Assumptions C13_batch_single_output.
Print Assumptions C14_moments. Print Assumptions C14_affine.

(** ** Non-vacuity *)
Section Examples.
Let R := [rcfType of realalg].
Let ill (n : nat) (A : 'M[R]_n) := false.
Let P2 := (2%:R *: 1%:M : 'M[R]_2).
Let g := gaussian (Nd1 (const_mx 1 : 'cV[R]_2)) (Nd2 P2).
(** x -> A x + b on rows *)
Definition affine_fun (S : rcfType) m n (A : 'M[S]_(m, n)) (b : 'cV[S]_m) : dfun S :=
  DFun (fun x => match x with
    | Nd1 n' v => Ok (Nd1 (A *m conform_mx 0 v + b))
    | @Nd2 _ k n' X => Ok (Nd2 (rowmap (aff A b) (conform_mx (0 : 'M_(k, n)) X))) | _ => Err ValueErr end)
    (fun x => Ok (JLow (Nd2 A))).
Lemma affine_fun_rows (S : rcfType) m n (A : 'M[S]_(m, n)) b : rowwise (affine_fun A b) (fun x => A *m x + b).
Proof. by move=> k X; rewrite /affine_fun /= conform_mx_id. Qed.
Lemma affine_fun_vec (S : rcfType) m n (A : 'M[S]_(m, n)) b x : style (affine_fun A b) x (A *m x + b) A.
Proof. by left; split=> //=; rewrite conform_mx_id. Qed.
Let A : 'M[R]_(3, 2) := const_mx 1.
Let pd2 : posdef P2. Proof. by apply: posdefZ1; rewrite ltr0n. Qed.

(** default parameters alpha = 1, beta = 2, kappa = 1 in dimension 2, and the indefinite setting kappa = -1, beta = 0 *)
Example C11_example : 0 < 1 ^+ 2 * (2%:R + 1) :> R /\ is_vec (Nd1 (const_mx 1 : 'cV[R]_2)) (const_mx 1 : 'cV[R]_2) /\ P2^T = P2 /\
  1 ^+ 2 * (2%:R + - 2%:R) = 0 :> R.
Proof.
split; first by rewrite expr1n mul1r addr_gt0 ?ltr0n ?ltr01.
by split; [left|split; [exact: pd2.1|rewrite subrr mulr0]].
Qed.
Example C12_example : rowwise (affine_fun A 0) (fun x => A *m x + 0) /\
  g_mean ill g = Ok (Nd1 (const_mx 1 : 'cV[R]_2)) /\ g_cov ill g = Ok (Nd2 P2) /\ posdef P2.
Proof. by split; [exact: affine_fun_rows|split; [|split]]. Qed.
Example C50_example : 0 <= 1 ^+ 2 * 1 + 2%:R * 2%:R :> R /\ 0 < 1 ^+ 2 * (5%:R + - 2%:R) :> R /\ ~~ (0 <= 1 ^+ 2 * - 2%:R + 5%:R * 0 :> R).
Proof.
split; first by rewrite expr1n mul1r addr_ge0 ?ler01 ?mulr_ge0 ?ler0n.
split; first by rewrite expr1n mul1r subr_gt0 ltr_nat.
by rewrite mulr0 addr0 expr1n mul1r oppr_ge0 -ltNge ltr0n.
Qed.
Example C13_example : style (affine_fun A 0) (const_mx 1 : 'cV[R]_2) (A *m const_mx 1 + 0) A.
Proof. exact: affine_fun_vec. Qed.
Example C13_batch_example :
  let F := DFun (fun x : nd R => Ok (Nd2 (const_mx 1 : 'M_(1, 3)))) (fun x => Ok (JHigh [:: 1; 3; 2]%N (flat A))) in
  row_style F (const_mx 0) (const_mx 1) A.
Proof. by split=> //=; congr (Ok (Nd2 _)); apply/rowP=> i; rewrite !mxE. Qed.
Example C14_example : (1 < 3)%N /\ rowwise (affine_fun A 0) (fun x => A *m x + 0).
Proof. by split=> //; exact: affine_fun_rows. Qed.
Definition count_draws size n (m : 'cV[R]_n) (C : 'M[R]_n) (w : nat) : nat * 'M[R]_(size, n) :=
  ((w + size)%N, \matrix_(i, j) (m j 0 + (w + i)%:R)).
Example C14_draws_example :
  let x (i : 'I_3) := (row i (count_draws 3 (const_mx 1 : 'cV[R]_2) P2 5).2)^T in
  mc_map ill count_draws (Some 3%N) (affine_fun A 0) g 5%N = (8%N,
    Ok (Nd1 (A *m sample_mean x + 0), Nd2 (A *m sample_cov x x *m A^T), Nd2 (sample_cov x x *m A^T))).
Proof.
have [h1 [h2 [h3 _]]] := C12_example.
exact: (@C14_draws R ill nat count_draws 2%N 3%N 3%N (affine_fun A 0) A 0 g _ P2 (Some 3%N) 5%N erefl isT h1 h2 h3).
Qed.
End Examples.
