(** * Facts about the numerical Jacobian *)
Set Warnings "-notation-overridden,-ambiguous-paths".
From Coq Require Import Ring Field.
From mathcomp Require Import all_ssreflect all_algebra.
From Verif Require Import Base ND NDFacts LinAlg Gauss Transforms TransformFacts NumJac SpecNumJac L96 L96Facts FieldTac.
Set Implicit Arguments.
Unset Strict Implicit.
Unset Printing Implicit Defensive.
Import GRing.Theory Num.Theory.
Local Open Scope ring_scope.

Section Facts.
Variable R : rcfType.
Notation nd := (nd R).
Add Field fieldR : (ffth R).

Lemma two0 (eps : R) : (2%:R * eps == 0) = (eps == 0).
Proof. by rewrite mulf_eq0 pnatr_eq0. Qed.

(** ** central differences of a function *)
Definition cd m n (Phi : 'cV[R]_n -> 'cV[R]_m) (v : 'cV[R]_n) (eps : R) (j : 'I_n) : 'cV[R]_m :=
  (2%:R * eps)^-1 *: (Phi (v + eps *: delta_mx j 0) - Phi (v + (- eps) *: delta_mx j 0)).

Lemma bumpE n (v : 'cV[R]_n) (j : 'I_n) e : bump (Nd1 v) j e = Nd1 (v + e *: delta_mx j 0).
Proof.
congr Nd1; apply/colP=> i; rewrite !mxE eqxx andbT -val_eqE /=.
by case: eqP => _; rewrite ?mulr1 // mulr0 addr0.
Qed.

Lemma centralE f x eps (q : nat -> nd) ks : eps != 0 ->
  (forall i, i \in ks -> exists y1 y2 d, [/\ f (bump x i eps) = Ok y1, f (bump x i (- eps)) = Ok y2,
     nsub y1 y2 = Ok d & nscale (2%:R * eps)^-1 d = q i]) ->
  central f x eps ks = Ok (map q ks).
Proof.
move=> e0; elim: ks => [//|i ks ih] h.
have [y1 [y2 [d [h1 h2 h3 h4]]]] := h i (mem_head _ _).
rewrite [central _ _ _ _]/= h1 bindE h2 bindE h3 bindE two0 (negbTE e0) bindE ih ?bindE ?h4 // => k hk.
by apply: h; rewrite inE hk orbT.
Qed.

Lemma vec_central n m f (Phi : 'cV[R]_n -> 'cV[R]_m) v eps : eps != 0 ->
  (forall w, f (Nd1 w) = Ok (Nd1 (Phi w))) ->
  central f (Nd1 v) eps (iota 0 n) = Ok [seq Nd1 (cd Phi v eps j) | j <- enum 'I_n].
Proof.
move=> e0 h; rewrite -val_enum_ord.
pose q (i : nat) := if insub i is Some j then Nd1 (cd Phi v eps j) else Nd0 0.
have -> : [seq Nd1 (cd Phi v eps j) | j <- enum 'I_n] = map q (map val (enum 'I_n)).
  by rewrite -[RHS]map_comp; apply/eq_in_map => j _; rewrite /= /q valK.
apply: centralE => // _ /mapP[j _ ->].
exists (Nd1 (Phi (v + eps *: delta_mx j 0))), (Nd1 (Phi (v + (- eps) *: delta_mx j 0))); rewrite -/(nat_of_ord j).
exists (Nd1 (Phi (v + eps *: delta_mx j 0) - Phi (v + (- eps) *: delta_mx j 0))).
by rewrite !bumpE !h nsubvv /q valK; split.
Qed.

Lemma row_central n m f (Phi : 'cV[R]_n -> 'cV[R]_m) v eps : eps != 0 ->
  (forall w, f (Nd1 w) = Ok (Nd2 (Phi w)^T)) ->
  central f (Nd1 v) eps (iota 0 n) = Ok [seq Nd2 (cd Phi v eps j)^T | j <- enum 'I_n].
Proof.
move=> e0 h; rewrite -val_enum_ord.
pose q (i : nat) := if insub i is Some j then Nd2 (cd Phi v eps j)^T else Nd0 0.
have -> : [seq Nd2 (cd Phi v eps j)^T | j <- enum 'I_n] = map q (map val (enum 'I_n)).
  by rewrite -[RHS]map_comp; apply/eq_in_map => j _; rewrite /= /q valK.
apply: centralE => // _ /mapP[j _ ->].
exists (Nd2 (Phi (v + eps *: delta_mx j 0))^T), (Nd2 (Phi (v + (- eps) *: delta_mx j 0))^T); rewrite -/(nat_of_ord j).
exists (Nd2 ((Phi (v + eps *: delta_mx j 0))^T - (Phi (v + (- eps) *: delta_mx j 0))^T)).
by rewrite !bumpE !h nsubmm /q valK; split=> //=; congr Nd2; apply/matrixP=> a b; rewrite !mxE.
Qed.

Lemma num_central n m f (phi : 'cV[R]_n -> R) v eps : eps != 0 -> m = 1%N ->
  (forall w, f (Nd1 w) = Ok (Nd0 (phi w))) ->
  central f (Nd1 v) eps (iota 0 n) = Ok [seq Nd0 (cd (fun w => (phi w)%:M : 'cV_1) v eps j 0 0) | j <- enum 'I_n].
Proof.
move=> e0 _ h; rewrite -val_enum_ord.
pose q (i : nat) := if insub i is Some j then Nd0 (cd (fun w => (phi w)%:M : 'cV_1) v eps j 0 0) else Nd0 0.
have -> : [seq Nd0 (cd (fun w => (phi w)%:M : 'cV_1) v eps j 0 0) | j <- enum 'I_n] = map q (map val (enum 'I_n)).
  by rewrite -[RHS]map_comp; apply/eq_in_map => j _; rewrite /= /q valK.
apply: centralE => // _ /mapP[j _ ->].
exists (Nd0 (phi (v + eps *: delta_mx j 0))), (Nd0 (phi (v + (- eps) *: delta_mx j 0))); rewrite -/(nat_of_ord j).
exists (Nd0 (phi (v + eps *: delta_mx j 0) - phi (v + (- eps) *: delta_mx j 0))).
by rewrite !bumpE !h /q valK; split=> //=; rewrite !mxE !eqxx !mulr1n.
Qed.

(** ** the whole Jacobian *)
Definition cdmx m n (Phi : 'cV[R]_n -> 'cV[R]_m) v eps : 'M[R]_(m, n) := \matrix_(i, j) cd Phi v eps j i 0.

Section Stack.
Variables (n : nat) (q : 'I_n.+1 -> nd).
Lemma enum0 : map q (enum 'I_n.+1) = q ord0 :: behead (map q (enum 'I_n.+1)).
Proof. by rewrite enum_ordSl. Qed.
Lemma nth_q a k : (k < n.+1)%N -> nth a (map q (enum 'I_n.+1)) k = q (inord k).
Proof.
move=> hk; rewrite (nth_map ord0) ?size_enum_ord //; congr q; apply: val_inj; rewrite /= inordK //.
by rewrite nth_enum_ord.
Qed.
End Stack.

Lemma sz n (q : 'I_n.+1 -> nd) : size (map q (enum 'I_n.+1)) = n.+1.
Proof. by rewrite size_map size_enum_ord. Qed.

Lemma stack_cons (l : seq nd) a l' : l = a :: l' -> all (fun b => shape b == shape a) l ->
  stackT l = match a with
      | Nd0 _ => Ok (JLow (Nd1 (\col_(k < size l) at0 (nth a l k))))
      | Nd1 m _ => Ok (JLow (Nd2 (\matrix_(i < m, k < size l) at1 (nth a l k) i)))
      | Nd2 m n _ => Ok (JHigh [:: n; m; size l]
          (mkseq (fun p => at2 (nth a l (p %% size l)) ((p %/ size l) %% m) (p %/ (m * size l))) (n * (m * size l))))
      end.
Proof. by move=> -> h; rewrite /stackT h. Qed.

Lemma vec_stack m n (c : 'I_n.+1 -> 'cV[R]_m) :
  stackT [seq Nd1 (c j) | j <- enum 'I_n.+1] = Ok (JLow (Nd2 (\matrix_(i, j) c j i 0))).
Proof.
rewrite (stack_cons (enum0 (fun j => Nd1 (c j)))); last by rewrite all_map; apply/allP=> j _ /=; rewrite eqxx.
have E := sz (fun j => Nd1 (c j)).
suff -> : Nd2 (\matrix_(i < m, k < size [seq Nd1 (c j) | j <- enum 'I_n.+1])
     at1 (nth (Nd1 (c ord0)) [seq Nd1 (c j) | j <- enum 'I_n.+1] k) i) =
     Nd2 (\matrix_(i < m, k < n.+1) at1 (nth (Nd1 (c ord0)) [seq Nd1 (c j) | j <- enum 'I_n.+1] k) i).
  congr (Ok (JLow (Nd2 _))); apply/matrixP=> i k; rewrite !mxE nth_q // inord_val /=.
  by rewrite -[0%N]/(nat_of_ord (0 : 'I_1)) entE.
by case: (size _) / (esym E).
Qed.

Lemma num_stack n (c : 'I_n.+1 -> R) :
  stackT [seq Nd0 (c j) | j <- enum 'I_n.+1] = Ok (JLow (Nd1 (\col_j c j))).
Proof.
rewrite (stack_cons (enum0 (fun j => Nd0 (c j)))); last by rewrite all_map; apply/allP=> j _ /=; rewrite eqxx.
have E := sz (fun j => Nd0 (c j)).
suff -> : Nd1 (\col_(k < size [seq Nd0 (c j) | j <- enum 'I_n.+1])
     at0 (nth (Nd0 (c ord0)) [seq Nd0 (c j) | j <- enum 'I_n.+1] k)) =
     Nd1 (\col_(k < n.+1) at0 (nth (Nd0 (c ord0)) [seq Nd0 (c j) | j <- enum 'I_n.+1] k)).
  by congr (Ok (JLow (Nd1 _))); apply/colP=> k; rewrite !mxE nth_q // inord_val.
by case: (size _) / (esym E).
Qed.

Lemma row_stack m n (c : 'I_n.+1 -> 'cV[R]_m) :
  stackT [seq Nd2 (c j)^T | j <- enum 'I_n.+1] = Ok (JHigh [:: m; 1; n.+1]%N (flat (\matrix_(i, j) c j i 0))).
Proof.
rewrite (stack_cons (enum0 (fun j => Nd2 (c j)^T))); last by rewrite all_map; apply/allP=> j _ /=; rewrite eqxx.
rewrite !sz !mul1n; congr (Ok (JHigh _ _)); apply/eq_in_map => p; rewrite mem_iota add0n /= => hp.
have hk : (p %% n.+1 < n.+1)%N by rewrite ltn_mod.
have hi : (p %/ n.+1 < m)%N by rewrite ltn_divLR.
rewrite nth_q // modn1 /=.
rewrite -[(p %/ n.+1)%N]/(nat_of_ord (Ordinal hi)) -[0%N]/(nat_of_ord (0 : 'I_1)) entE.
rewrite -[(p %% n.+1)%N]/(nat_of_ord (Ordinal hk)) entE !mxE; congr (c _ _ _).
by apply: val_inj; rewrite /= inordK.
Qed.

Lemma vec_jac n m f (Phi : 'cV[R]_n.+1 -> 'cV[R]_m) v eps : eps != 0 ->
  (forall w, f (Nd1 w) = Ok (Nd1 (Phi w))) ->
  numerical_jacobian f (Nd1 v) eps = Ok (JLow (Nd2 (cdmx Phi v eps))).
Proof. by move=> e0 h; rewrite /numerical_jacobian h !bindE (vec_central v e0 h) bindE vec_stack. Qed.
Lemma row_jac n m f (Phi : 'cV[R]_n.+1 -> 'cV[R]_m) v eps : eps != 0 ->
  (forall w, f (Nd1 w) = Ok (Nd2 (Phi w)^T)) ->
  numerical_jacobian f (Nd1 v) eps = Ok (JHigh [:: m; 1; n.+1]%N (flat (cdmx Phi v eps))).
Proof. by move=> e0 h; rewrite /numerical_jacobian h !bindE (row_central v e0 h) bindE row_stack. Qed.
Lemma num_jac n f (phi : 'cV[R]_n.+1 -> R) v eps : eps != 0 ->
  (forall w, f (Nd1 w) = Ok (Nd0 (phi w))) ->
  numerical_jacobian f (Nd1 v) eps = Ok (JLow (Nd1 (cdmx (fun w => (phi w)%:M : 'cV_1) v eps)^T)).
Proof.
move=> e0 h; rewrite /numerical_jacobian h !bindE (num_central v e0 (erefl 1%N) h) bindE num_stack.
by congr (Ok (JLow (Nd1 _))); apply/colP=> j; rewrite !mxE.
Qed.

(** ** polynomials *)
Lemma half2 (c y eps : R) : eps != 0 -> (2%:R * eps)^-1 * (c * (eps * y) *+ 2) = c * y.
Proof.
move=> e0; have -> : c * (eps * y) *+ 2 = 2%:R * eps * (c * y) by rewrite mulrCA -mulrA mulr_natl.
by rewrite mulKf // two0.
Qed.
Lemma poly_cd (p : {poly R}) eps : eps != 0 ->
  (2%:R * eps)^-1 * (p.[eps] - p.[- eps]) = \sum_(k < size p | odd k) p`_k * eps ^+ k.-1.
Proof.
move=> e0; rewrite !horner_coef -sumrB mulr_sumr [RHS]big_mkcond /=; apply: eq_bigr => k _.
rewrite exprNn -signr_odd; case: (odd k) / boolP => ok.
  have [j ->] : exists j, nat_of_ord k = j.+1 by exists k.-1; rewrite prednK // odd_gt0.
  rewrite expr1 mulN1r mulrN opprK -mulr2n exprS [_.+1.-1]/=.
  exact: half2.
by rewrite expr0 mul1r subrr mulr0.
Qed.
Lemma poly_split (p : {poly R}) eps :
  \sum_(k < size p | odd k) p`_k * eps ^+ k.-1 =
  p^`().[0] + eps ^+ 2 * \sum_(k < size p | odd k && (2 < k)%N) p`_k * eps ^+ (k - 3).
Proof.
rewrite horner_coef0 coef_deriv mulr1n (bigID (fun k : 'I_(size p) => (2 < k)%N)) /= addrC; congr (_ + _).
  rewrite (eq_bigl (fun k : 'I_(size p) => nat_of_ord k == 1%N)); last first.
    by move=> k; case: (nat_of_ord k) => [|[|[|j]]] //=; rewrite andbF.
  case: (ltnP 1 (size p)) => h.
    by rewrite (big_pred1 (Ordinal h)) /= ?expr0 ?mulr1 // => k; rewrite -val_eqE.
  rewrite big_pred0 ?nth_default // => k; apply/negbTE/eqP => ek.
  by have := leq_trans (ltn_ord k) h; rewrite ek.
rewrite mulr_sumr; apply: eq_bigr => k /andP[_ hk]; rewrite mulrCA -exprD; congr (_ * _ ^+ _).
by case: (nat_of_ord k) hk => [|[|[|j]]] // _; rewrite !subSS subn0 /= addnC addn2.
Qed.

Lemma cdmx_poly m n (Phi : 'cV[R]_n -> 'cV[R]_m) v p eps : eps != 0 -> along Phi v p ->
  cdmx Phi v eps = partials p + eps ^+ 2 *: excess p eps.
Proof.
by move=> e0 h; apply/matrixP=> i j; rewrite !mxE !h poly_cd // poly_split.
Qed.
Lemma excess0 m n (p : 'I_m -> 'I_n -> {poly R}) eps : (forall i j, size (p i j) <= 3)%N -> excess p eps = 0.
Proof.
move=> h; apply/matrixP=> i j; rewrite !mxE big1 // => k /andP[_ hk].
by have := leq_trans (leq_ltn_trans hk (ltn_ord k)) (h i j); rewrite ltnn.
Qed.

(** affine maps *)
Lemma along_aff m n (A : 'M[R]_(m, n)) (b : 'cV[R]_m) v :
  along (fun x => A *m x + b) v (fun i j => ((A *m v + b) i 0)%:P + (A i j)%:P * 'X).
Proof.
move=> i j t; rewrite mulmxDr -scalemxAr -colE addrAC mxE.
have -> : (t *: col j A) i 0 = A i j * t by rewrite !mxE mulrC.
by rewrite !hornerE.
Qed.
Lemma partials_aff m n (A : 'M[R]_(m, n)) (b : 'cV[R]_m) v :
  partials (fun i j => ((A *m v + b) i 0)%:P + (A i j)%:P * 'X) = A.
Proof. by apply/matrixP=> i j; rewrite !mxE !derivE !hornerE. Qed.
Lemma size_aff m n (A : 'M[R]_(m, n)) (b : 'cV[R]_m) v i j :
  (size (((A *m v + b) i 0)%:P + (A i j)%:P * 'X : {poly R})%R <= 3)%N.
Proof.
apply: leq_trans (size_add _ _) _; rewrite geq_max (leq_trans (size_polyC_leq1 _)) //=.
by apply: leq_trans (size_mul_leq _ _) _; rewrite size_polyX addn2 /= ltnS (leq_trans (size_polyC_leq1 _)).
Qed.
Lemma cdmx_aff m n (A : 'M[R]_(m, n)) (b : 'cV[R]_m) v eps : eps != 0 -> cdmx (fun x => A *m x + b) v eps = A.
Proof.
move=> e0; rewrite (cdmx_poly e0 (along_aff A b v)) excess0 ?scaler0 ?addr0 ?partials_aff //.
by move=> i j; exact: size_aff.
Qed.

(** the Lorenz-96 tendency is at most quadratic along every coordinate *)
Section Lorenz.
Variable n : nat.
Notation one := (Zp1 : 'I_n.+1).
Definition ten F (v : 'cV[R]_n.+1) : 'cV[R]_n.+1 := (tend F v^T)^T.
Definition comp (v : 'cV[R]_n.+1) (j k : 'I_n.+1) : {poly R} := (v k 0)%:P + ((k == j)%:R)%:P * 'X.
Lemma compE v j k t : (v + t *: delta_mx j 0) k 0 = (comp v j k).[t].
Proof. by rewrite /comp !hornerE !mxE eqxx andbT mulrC. Qed.
Lemma along_ten F v : along (ten F) v (fun i j =>
  (comp v j (i - one) - comp v j (i + one + one)) * comp v j (i + one) - comp v j i + F%:P).
Proof.
have hE (a b c d : {poly R}) t : ((a - b) * c - d + F%:P).[t] = (a.[t] - b.[t]) * c.[t] - d.[t] + F.
  by rewrite !hornerE.
by move=> i j t; rewrite hE -!compE /ten /tend !mxE.
Qed.
Lemma size_comp v j k : (size (comp v j k) <= 2)%N.
Proof.
rewrite /comp addrC; apply: leq_trans (size_add _ _) _; rewrite geq_max; apply/andP; split; last first.
  exact: leq_trans (size_polyC_leq1 _) _.
by apply: leq_trans (size_mul_leq _ _) _; rewrite size_polyX addn2 /= ltnS size_polyC_leq1.
Qed.
Lemma size_ten F v (i j : 'I_n.+1) :
  (size (((comp v j (i - one)%R - comp v j (i + one + one)%R) * comp v j (i + one)%R - comp v j i + F%:P)%R : {poly R}) <= 3)%N.
Proof.
have sm (p q : {poly R}) k : (size p <= k)%N -> (size q <= k)%N -> (size (p + q)%R <= k)%N.
  by move=> h1 h2; apply: leq_trans (size_add _ _) _; rewrite geq_max h1.
apply: (sm); last exact: leq_trans (size_polyC_leq1 _) _.
apply: (sm); last by rewrite size_opp; apply: leq_trans (size_comp _ _ _) _.
apply: leq_trans (size_mul_leq _ _) _; rewrite -[3%N]/(2 + 2).-1%N -!subn1 leq_sub2r // leq_add ?size_comp //.
by apply: sm; rewrite ?size_opp size_comp.
Qed.
Lemma partials_ten F v : partials (fun i j : 'I_n.+1 =>
    (comp v j (i - one) - comp v j (i + one + one)) * comp v j (i + one) - comp v j i + F%:P) =
  \matrix_(i, j) (((i - one == j)%:R - (i + one + one == j)%:R) * v (i + one) 0 +
                  (v (i - one) 0 - v (i + one + one) 0) * (i + one == j)%:R - (i == j)%:R).
Proof.
apply/matrixP=> i j; rewrite !mxE.
have hE (a b c d : {poly R}) : ((a - b) * c - d + F%:P)^`().[0] =
    (a^`().[0] - b^`().[0]) * c.[0] + (a.[0] - b.[0]) * c^`().[0] - d^`().[0].
  by rewrite !derivE !hornerE.
have c0 k : (comp v j k).[0] = v k 0 by rewrite /comp !hornerE.
have c1 k : (comp v j k)^`().[0] = (k == j)%:R by rewrite /comp !derivE !hornerE.
by rewrite hE !c0 !c1.
Qed.
Lemma lorenz_jac (F eps : R) (v : 'cV[R]_n.+1) : eps != 0 ->
  numerical_jacobian (fun x => l96_model x F) (Nd1 v) eps =
  Ok (JHigh [:: n.+1; 1; n.+1]%N (flat (\matrix_(i, j < n.+1)
    (((i - one == j)%:R - (i + one + one == j)%:R) * v (i + one) 0 +
     (v (i - one) 0 - v (i + one + one) 0) * (i + one == j)%:R - (i == j)%:R : R)))).
Proof.
move=> e0; have h w : l96_model (Nd1 w) F = Ok (Nd2 (ten F w)^T) by rewrite modelvE /ten trmxK.
rewrite (row_jac v e0 h) (cdmx_poly e0 (along_ten F v)) excess0; last exact: size_ten.
by rewrite scaler0 addr0 partials_ten.
Qed.
End Lorenz.

(** ** failures *)
Lemma central_calls f x eps ks l : central (f : nd -> res nd) x eps ks = Ok l -> forall i, i \in ks ->
  isOk (f (bump x i eps)) /\ isOk (f (bump x i (- eps))).
Proof.
elim: ks l => [//|k ks ih] l /=; case E1: (f _) => [y1|//]; rewrite bindE; case E2: (f _) => [y2|//]; rewrite bindE.
case: (nsub _ _) => [d|//]; rewrite bindE; case: (if _ then _ else _) => [q|//]; rewrite bindE.
case E: central => [l'|//] _ i; rewrite inE => /orP[/eqP->|]; last exact: ih E i.
by rewrite E1 E2.
Qed.

Lemma jac_calls n f (v : 'cV[R]_n) eps J : numerical_jacobian f (Nd1 v) eps = Ok J ->
  isOk (f (Nd1 v)) /\ forall j, isOk (f (Nd1 (v + eps *: delta_mx j 0))) /\ isOk (f (Nd1 (v - eps *: delta_mx j 0))).
Proof.
rewrite /numerical_jacobian; case: (f (Nd1 v)) => [y|//]; rewrite !bindE; case E: central => [l|//] _; split=> // j.
have := central_calls E (i := j); rewrite mem_iota add0n ltn_ord => /(_ isT).
by rewrite !bumpE scaleNr.
Qed.

(** ** one variable *)
Lemma along1 (phi : R -> R) (x : R) (p : {poly R}) : (forall t, phi (x + t) = p.[t]) ->
  along (fun v : 'cV_1 => \col_i phi (v i 0)) (const_mx x) (fun _ _ => p).
Proof. by move=> h i j t; rewrite !mxE !ord1 !eqxx mulr1 h. Qed.
Lemma jac1 (phi : R -> R) (x eps : R) (p : {poly R}) : eps != 0 -> (forall t, phi (x + t) = p.[t]) ->
  numerical_jacobian (fun a => if a is Nd1 n v then Ok (Nd1 (\col_i phi (v i 0))) else Err TypeErr)
    (Nd1 (const_mx x : 'cV_1)) eps =
  Ok (JLow (Nd2 (const_mx (\sum_(k < size p | odd k) p`_k * eps ^+ k.-1) : 'M_1))).
Proof.
move=> e0 h; rewrite (@vec_jac _ _ _ (fun v : 'cV_1 => \col_i phi (v i 0))) // (cdmx_poly e0 (along1 h)).
by congr (Ok (JLow (Nd2 _))); apply/matrixP=> i j; rewrite !mxE poly_split.
Qed.
Lemma cube_jac (x eps : R) : eps != 0 ->
  numerical_jacobian (fun a => if a is Nd1 n v then Ok (Nd1 (\col_i v i 0 ^+ 3)) else Err TypeErr)
    (Nd1 (const_mx x : 'cV_1)) eps = Ok (JLow (Nd2 (const_mx (3%:R * x ^+ 2 + eps ^+ 2) : 'M_1))).
Proof.
move=> e0; rewrite (@jac1 (fun y => y ^+ 3) x eps (Poly [:: x ^+ 3; 3%:R * x ^+ 2; 3%:R * x; 1]) e0); last first.
  move=> t; rewrite horner_Poly /=; fnorm R; ring.
congr (Ok (JLow (Nd2 (const_mx _)))); rewrite (@PolyK _ 0) ?oner_neq0 //=.
rewrite big_mkcond !big_ord_recl big_ord0 /=; fnorm R; ring.
Qed.
Lemma square_jac (x eps : R) : eps != 0 ->
  numerical_jacobian (fun a => if a is Nd1 n v then Ok (Nd1 (\col_i (v i 0 ^+ 2 / 20%:R))) else Err TypeErr)
    (Nd1 (const_mx x : 'cV_1)) eps = Ok (JLow (Nd2 (const_mx (x / 10%:R) : 'M_1))).
Proof.
have n10 : (10%:R : R) != 0 by rewrite pnatr_eq0.
have e20 : (20%:R : R) = 10%:R * 2%:R by rewrite -natrM.
move=> e0; rewrite (@jac1 (fun y => y ^+ 2 / 20%:R) x eps (Poly [:: x ^+ 2 / 20%:R; x / 10%:R; 20%:R^-1]) e0); last first.
  move=> t; rewrite horner_Poly /= e20 invfM; set a := 10%:R^-1; have h2 : (2%:R : R) * 2%:R^-1 = 1.
    by rewrite divff // pnatr_eq0.
  have -> : x * a = 2%:R * (x * a * 2%:R^-1) by rewrite mulrCA h2 mulr1.
  move: (2%:R^-1) => b; fnorm R; ring.
congr (Ok (JLow (Nd2 (const_mx _)))); rewrite (@PolyK _ 0) ?invr_eq0 ?pnatr_eq0 //=.
rewrite big_mkcond !big_ord_recl big_ord0 /=; fnorm R; ring.
Qed.

(** ** in the Taylor transform *)
Variable illcond : forall n, 'M[R]_n -> bool.

Lemma tt_ext (F G : dfun R) g : (forall x, call F x = call G x) ->
  (forall x, g_mean illcond g = Ok x -> tt_jacobian F x = tt_jacobian G x) ->
  tt_transform illcond F g = tt_transform illcond G g.
Proof.
move=> h1 h2; rewrite /tt_transform; case: (g_mean illcond g) h2 => [x|//] h2; rewrite !bindE h2 //.
by rewrite h1.
Qed.

Lemma flat_tr m n (J : 'M[R]_(m, n)) : m != 1%N -> n != 1%N -> jsqueeze [:: m; 1; n]%N (flat J) = Some (Nd2 J).
Proof.
move=> m1 n1; rewrite /jsqueeze /= m1 n1 /=; congr (Some (Nd2 _)); apply/matrixP=> i j; rewrite mxE; exact: nth_flat.
Qed.

Lemma numeric_vec m n (F : dfun R) (Phi : 'cV[R]_n.+1 -> 'cV[R]_m) v p eps g : eps != 0 ->
  along Phi v p -> (forall i j, size (p i j) <= 3)%N -> g_mean illcond g = Ok (Nd1 v) ->
  (forall w, call F (Nd1 w) = Ok (Nd1 (Phi w))) -> jac F (Nd1 v) = Ok (JLow (Nd2 (partials p))) ->
  tt_transform illcond (numeric F eps) g = tt_transform illcond F g.
Proof.
move=> e0 ha hp hg h1 h2; apply: tt_ext => // x; rewrite hg => /Ok_inj <-.
by rewrite /tt_jacobian h2 /= (vec_jac v e0 h1) (cdmx_poly e0 ha) excess0 // scaler0 addr0.
Qed.
Lemma numeric_row m n (F : dfun R) (Phi : 'cV[R]_n.+1 -> 'cV[R]_m) v p eps g : eps != 0 -> m != 1%N -> n.+1 != 1%N ->
  along Phi v p -> (forall i j, size (p i j) <= 3)%N -> g_mean illcond g = Ok (Nd1 v) ->
  (forall w, call F (Nd1 w) = Ok (Nd2 (Phi w)^T)) ->
  jac F (Nd1 v) = Ok (JHigh [:: 1; m; n.+1]%N (flat (partials p))) ->
  tt_transform illcond (numeric F eps) g = tt_transform illcond F g.
Proof.
move=> e0 m1 n1 ha hp hg h1 h2; apply: tt_ext => // x; rewrite hg => /Ok_inj <-.
rewrite (tt_jac_row (conj (h1 v) h2)) // /tt_jacobian [jac _ _]/= (row_jac v e0 h1) bindE (cdmx_poly e0 ha).
by rewrite excess0 // scaler0 addr0 flat_tr.
Qed.

End Facts.
