(** * The extra precision of the default start is an extra measurement of every state *)
Set Warnings "-notation-overridden,-ambiguous-paths".
From Coq Require Import Ring Field.
From mathcomp Require Import all_ssreflect all_algebra.
From Verif Require Import Base FieldTac ND PosDef CondGauss LinAlg LinAlgFacts SpecGauss SpecAssumed EPValue EPChain EPSweep KalmanMath EPSetup SpecVague.
Set Implicit Arguments.
Unset Strict Implicit.
Unset Printing Implicit Defensive.
Import GRing.Theory Num.Theory Order.Theory.
Local Open Scope ring_scope.

Section Vague.
Variables (R : rcfType) (k : nat) (S : lgssm R 1 k) (y : nat -> 'cV[R]_k) (c : R).
Hypotheses (ok : noise_ok S) (c0 : 0 < c).
Definition extra : lgssm R 1 (k + 1) := Lgssm (s_m0 S) (s_P0 S) (s_A S) (s_b S) (s_Q S)
  (fun j => col_mx (s_H S j) 1%:M) (fun j => col_mx (s_c S j) 0) (block_mx (s_R S) 0 0 (c^-1)%:M).
Definition extra_y (j : nat) : 'cV[R]_(k + 1) := col_mx (y j) 0.
Lemma small_pd : posdef ((c^-1)%:M : 'M[R]_1).
Proof. by apply/posdef11; rewrite mxE eqxx invr_gt0. Qed.
Lemma extra_R_pd : posdef (s_R extra).
Proof.
have [_ _ pR] := ok; have := posdef_schur (s_R S) (0 : 'M[R]_(1, k)) ((c^-1)%:M : 'M[R]_1).
by rewrite trmx0 mulmx0 subr0 => -[_]; apply; split=> //; exact: small_pd.
Qed.
Lemma extra_ok : noise_ok extra.
Proof. by have [p0 pQ _] := ok; split=> //; exact: extra_R_pd. Qed.
Lemma extra_inv : invmx (s_R extra) = block_mx (invmx (s_R S)) 0 0 c%:M.
Proof.
rewrite invmx_block_diag; last by have := posdef_unit extra_R_pd.
by congr block_mx; rewrite invmx_scalar invrK.
Qed.
(** ** energies *)
Lemma nll_extra j (x : 'cV[R]_1) : nll (s_H extra j *m x + s_c extra j) (s_R extra) (extra_y j) =
  nll (s_H S j *m x + s_c S j) (s_R S) (y j) + nll 0 (c^-1)%:M x.
Proof.
rewrite /nll extra_inv /= mul_col_mx mul1mx add_col_mx addr0 opp_col_mx add_col_mx qf_block.
by rewrite !bf0m !addr0 sub0r subr0 qfN invmx_scalar invrK.
Qed.
Lemma joint_extra N x : joint extra extra_y N x = vague_joint S c^-1 y N x.
Proof.
rewrite /vague_joint /joint -addrA -big_split; congr (_ + _); apply: eq_bigr => j _.
by rewrite nll_extra addrA.
Qed.
Lemma posterior_extra N i m P : posterior extra extra_y N i m P -> vague_posterior S c^-1 y N i m P.
Proof.
case=> pP [z [h1 h2]]; split=> //; exists z; split=> [x|u]; first by rewrite -joint_extra.
by have [x [e1 e2]] := h2 u; exists x; rewrite -joint_extra.
Qed.
(** ** recursions *)
Definition model : approx R 1 k := Approx (fun j => affine_moments (s_A S j) (s_b S j))
  (fun j => affine_moments (s_H S j) (s_c S j)) (s_Q S) (s_R S) (s_m0 S) (s_P0 S).
Definition model' : approx R 1 (k + 1) := Approx (fun j => affine_moments (s_A extra j) (s_b extra j))
  (fun j => affine_moments (s_H extra j) (s_c extra j)) (s_Q extra) (s_R extra) (s_m0 extra) (s_P0 extra).
Lemma pm N : proper_model model N.
Proof. by have [n1 n2 n3] := ok; split=> // j hj; split; apply: affine_proper. Qed.
Lemma pm' N : proper_model model' N.
Proof. by have [n1 n2 n3] := extra_ok; split=> // j hj; split; apply: affine_proper. Qed.
Lemma info_extra j : info (s_H extra j) (s_c extra j) model' extra_y j = (c%:M, 0) + info (s_H S j) (s_c S j) model y j.
Proof.
rewrite /info [a_R model']/= extra_inv [s_H extra j]/= [s_c extra j]/= tr_col_mx trmx1 mul_row_block !mulmx0 addr0 add0r mul1mx.
rewrite mul_row_col mulmx1 opp_col_mx add_col_mx mul_row_col subrr mulmx0 addr0.
by rewrite -[LHS]/(_ + _, _) addrC; congr (_, _); rewrite /= add0r.
Qed.
Lemma filt_extra j : a_filt model y c j = a_filt model' extra_y 0 j.
Proof.
have [n1 n2 n3] := ok; elim: j => [|j IH] //.
pose p := a_pred model j (a_filt model y c j).
have pp : posdef p.2 := pr_pd y (ltW c0) (pm j.+1) (ltnSn j).
have e : toV (a_filt model y c j.+1) = toV (a_filt model' extra_y 0 j.+1).
  rewrite [in LHS]/= (corr_info (A := model) y (i := j) (fun m P => erefl) n3 (temp_pd (ltW c0) pp)).
  rewrite -(base_temp (ltW c0)) // [in RHS]/= -IH -/p.
  rewrite -[a_pred model' j _]/p (corr_info (A := model') extra_y (i := j) (fun m P => erefl) extra_R_pd (temp_pd (lexx 0) pp)).
  have z : ((0 : R)%:M, 0) = 0 :> ('M[R]_1 * 'M[R]_1) by congr (_, _); rewrite raddf0.
  by rewrite -(base_temp (lexx 0)) // info_extra z add0r addrA [toV p + _]addrC.
have pl := filt_pd y (ltW c0) (pm j.+1) (leqnn j.+1).
have pr := filt_pd extra_y (lexx 0) (pm' j.+1) (leqnn j.+1).
have := congr1 (@ofV R) e; by rewrite (toVK (posdef_unit pl)) (toVK (posdef_unit pr)).
Qed.
Lemma smooth_extra N j : a_smooth model y c N j = a_smooth model' extra_y 0 N j.
Proof.
rewrite /a_smooth; elim: (N - j)%N => [|i IH]; first exact: filt_extra.
by rewrite /= IH filt_extra.
Qed.
Lemma filt_posterior j : vague_posterior S c^-1 y j j (a_filt model y c j).1 (a_filt model y c j).2.
Proof.
rewrite filt_extra (a_filt_kf extra_y extra_ok) //; exact/posterior_extra/kf_posterior/extra_ok.
Qed.
Lemma smooth_posterior N j : (j <= N)%N -> vague_posterior S c^-1 y N j (a_smooth model y c N j).1 (a_smooth model y c N j).2.
Proof.
move=> hj; rewrite smooth_extra (a_smooth_ks extra_y extra_ok hj); apply/posterior_extra/ks_posterior => //; exact: extra_ok.
Qed.
End Vague.
