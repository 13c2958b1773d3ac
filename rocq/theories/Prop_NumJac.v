(** * C57: the numerical Jacobian *)
Set Warnings "-notation-overridden,-ambiguous-paths".
From mathcomp Require Import all_ssreflect all_algebra.
From mathcomp Require Import real_closed.realalg.
From Verif Require Import Base ND NDFacts Gauss Transforms TransformFacts NumJac SpecNumJac L96 NumJacFacts.
Set Implicit Arguments.
Unset Strict Implicit.
Unset Printing Implicit Defensive.
Import GRing.Theory Num.Theory.
Local Open Scope ring_scope.

Section C57.
Variable R : rcfType.
Notation nd := (nd R).

(** Exact on affine maps for every non-zero step. *)
Theorem C57_affine m n (f : nd -> res nd) (A : 'M[R]_(m, n.+1)) b (v : 'cV[R]_n.+1) eps : eps != 0 ->
  (forall x : 'cV[R]_n.+1, f (Nd1 x) = Ok (Nd1 (A *m x + b))) ->
  numerical_jacobian f (Nd1 v) eps = Ok (JLow (Nd2 A)).
Proof. by move=> e0 h; rewrite (vec_jac v e0 h) cdmx_aff. Qed.

(** For a function that is polynomial along the coordinates the error is exactly the squared step times
    the contribution of the odd coefficients from the third on. *)
Theorem C57_error m n (f : nd -> res nd) (Phi : 'cV[R]_n.+1 -> 'cV[R]_m) v p eps : eps != 0 ->
  (forall x, f (Nd1 x) = Ok (Nd1 (Phi x))) -> along Phi v p ->
  numerical_jacobian f (Nd1 v) eps = Ok (JLow (Nd2 (partials p + eps ^+ 2 *: excess p eps))).
Proof. by move=> e0 h ha; rewrite (vec_jac v e0 h) (cdmx_poly e0 ha). Qed.

(** Functions that return one row give an array with an axis of length 1 in the middle, functions that
    return a number give a 1-d array. *)
Theorem C57_row m n (f : nd -> res nd) (Phi : 'cV[R]_n.+1 -> 'cV[R]_m) v p eps : eps != 0 ->
  (forall x, f (Nd1 x) = Ok (Nd2 (Phi x)^T)) -> along Phi v p ->
  numerical_jacobian f (Nd1 v) eps =
    Ok (JHigh [:: m; 1; n.+1]%N (flat (partials p + eps ^+ 2 *: excess p eps))).
Proof. by move=> e0 h ha; rewrite (row_jac v e0 h) (cdmx_poly e0 ha). Qed.
Theorem C57_number n (f : nd -> res nd) (phi : 'cV[R]_n.+1 -> R) v p eps : eps != 0 ->
  (forall x, f (Nd1 x) = Ok (Nd0 (phi x))) -> along (fun x => (phi x)%:M : 'cV_1) v p ->
  numerical_jacobian f (Nd1 v) eps = Ok (JLow (Nd1 (partials p + eps ^+ 2 *: excess p eps)^T)).
Proof. by move=> e0 h ha; rewrite (num_jac v e0 h) (cdmx_poly e0 ha). Qed.

(** The tendency of the Lorenz-96 model is differentiated exactly. *)
Theorem C57_lorenz n (F eps : R) (v : 'cV[R]_n.+1) : let one := Zp1 : 'I_n.+1 in eps != 0 ->
  numerical_jacobian (fun x => l96_model x F) (Nd1 v) eps =
  Ok (JHigh [:: n.+1; 1; n.+1]%N (flat (\matrix_(i, j < n.+1)
    (((i - one == j)%:R - (i + one + one == j)%:R) * v (i + one) 0 +
     (v (i - one) 0 - v (i + one + one) 0) * (i + one == j)%:R - (i == j)%:R : R)))).
Proof. exact: lorenz_jac. Qed.

(** A scalar state is rejected with TypeError, after the function has been called once. *)
Theorem C57_scalar (f : nd -> res nd) x eps : isOk (f (Nd0 x)) -> numerical_jacobian f (Nd0 x) eps = Err TypeErr.
Proof. by rewrite /numerical_jacobian; case: (f _). Qed.

(** A result requires that the function succeeds at the point and at all 2n shifted points. *)
Theorem C57_calls n (f : nd -> res nd) (v : 'cV[R]_n) eps J : numerical_jacobian f (Nd1 v) eps = Ok J ->
  isOk (f (Nd1 v)) /\ forall j, isOk (f (Nd1 (v + eps *: delta_mx j 0))) /\ isOk (f (Nd1 (v - eps *: delta_mx j 0))).
Proof. exact: jac_calls. Qed.

(** Using it instead of autograd leaves the Taylor transform unchanged for functions that are at most
    quadratic along the coordinates, whether they return vectors or rows. *)
Theorem C57_taylor (illcond : forall n, 'M[R]_n -> bool) m n (F : dfun R) (Phi : 'cV[R]_n.+1 -> 'cV[R]_m) v p eps g :
  eps != 0 -> along Phi v p -> (forall i j, size (p i j) <= 3)%N -> g_mean illcond g = Ok (Nd1 v) ->
  (forall w, call F (Nd1 w) = Ok (Nd1 (Phi w))) -> jac F (Nd1 v) = Ok (JLow (Nd2 (partials p))) ->
  tt_transform illcond (numeric F eps) g = tt_transform illcond F g.
Proof. exact: numeric_vec. Qed.
Theorem C57_taylor_row (illcond : forall n, 'M[R]_n -> bool) m n (F : dfun R) (Phi : 'cV[R]_n.+1 -> 'cV[R]_m) v p eps g :
  eps != 0 -> m != 1%N -> n.+1 != 1%N ->
  along Phi v p -> (forall i j, size (p i j) <= 3)%N -> g_mean illcond g = Ok (Nd1 v) ->
  (forall w, call F (Nd1 w) = Ok (Nd2 (Phi w)^T)) ->
  jac F (Nd1 v) = Ok (JHigh [:: 1; m; n.+1]%N (flat (partials p))) ->
  tt_transform illcond (numeric F eps) g = tt_transform illcond F g.
Proof. exact: numeric_row. Qed.

(** Concrete cases.  x^3 at x: the derivative plus eps^2, so it is never exact. *)
Lemma cube (x eps : R) : eps != 0 ->
  numerical_jacobian (fun a => if a is Nd1 n v then Ok (Nd1 (\col_i v i 0 ^+ 3)) else Err TypeErr)
    (Nd1 (const_mx x : 'cV_1)) eps = Ok (JLow (Nd2 (const_mx (3%:R * x ^+ 2 + eps ^+ 2) : 'M_1))).
Proof. exact: cube_jac. Qed.
(** the measurement x^2/20 of the growth model, on a state of shape (1,) *)
Lemma ungm_h (x eps : R) : eps != 0 ->
  numerical_jacobian (fun a => if a is Nd1 n v then Ok (Nd1 (\col_i (v i 0 ^+ 2 / 20%:R))) else Err TypeErr)
    (Nd1 (const_mx x : 'cV_1)) eps = Ok (JLow (Nd2 (const_mx (x / 10%:R) : 'M_1))).
Proof. exact: square_jac. Qed.
(** an affine system function with its Jacobian meets the hypotheses of the comparison *)
Definition affine_fun m n (A : 'M[R]_(m, n.+1)) b : dfun R :=
  DFun (fun a => if a is Nd1 k v then Ok (Nd1 (A *m conform_mx 0 v + b)) else Err TypeErr)
       (fun _ => Ok (JLow (Nd2 A))).
Lemma affine_case (illcond : forall n, 'M[R]_n -> bool) m n (A : 'M[R]_(m, n.+1)) b v P eps : eps != 0 ->
  tt_transform illcond (numeric (affine_fun A b) eps) (Mom (Nd1 v) P) =
  tt_transform illcond (affine_fun A b) (Mom (Nd1 (v : 'cV[R]_n.+1)) P).
Proof.
move=> e0; apply: (@C57_taylor illcond m n _ (fun x => A *m x + b) v _ _ _ e0 (along_aff A b v)) => //.
- exact: size_aff.
- by move=> w /=; rewrite conform_mx_id.
- by rewrite /= partials_aff.
Qed.
End C57.

Example C57_case_affine := @affine_case [rcfType of realalg] (fun _ _ => false) 2 2.

Example C57_case_cube := @cube [rcfType of realalg].
Example C57_case_growth := @ungm_h [rcfType of realalg].
Example C57_case_lorenz := @C57_lorenz [rcfType of realalg] 3.

Print Assumptions C57_affine.
Print Assumptions C57_error.
Print Assumptions C57_row.
Print Assumptions C57_number.
Print Assumptions C57_lorenz.
Print Assumptions C57_scalar.
Print Assumptions C57_calls.
Print Assumptions C57_taylor.
Print Assumptions C57_taylor_row.
