(** * The Kalman recursions solve the affine-Gaussian smoothing problem (pure linear algebra) *)
Set Warnings "-notation-overridden,-ambiguous-paths".
From Coq Require Import Ring Field.
From mathcomp Require Import all_ssreflect all_algebra.
From Verif Require Import Base FieldTac PosDef CondGauss SpecGauss.
Set Implicit Arguments.
Unset Strict Implicit.
Unset Printing Implicit Defensive.
Import GRing.Theory Num.Theory Order.Theory.
Local Open Scope ring_scope.

Section KM.
Variables (R : rcfType) (n k : nat).
Add Field fieldR : (ffth R).
Variable S : lgssm R n k.
Variable y : nat -> 'cV[R]_k.
Hypothesis ok : noise_ok S.
Notation A := (s_A S). Notation b := (s_b S). Notation Q := (s_Q S).
Notation H := (s_H S). Notation c := (s_c S). Notation Rm := (s_R S).

(** one filter step *)
Definition kstep (j : nat) (g : 'cV[R]_n * 'M[R]_n) : 'cV[R]_n * 'M[R]_n :=
  let pm := A j *m g.1 + b j in
  let pC := cnd_C g.2 Q (A j) in
  (pm + cnd_J pC Rm (H j) *m (y j - (H j *m pm + c j)), cnd_S pC Rm (H j)).
Fixpoint kf (j : nat) : 'cV[R]_n * 'M[R]_n := if j is i.+1 then kstep i (kf i) else (s_m0 S, s_P0 S).
Notation m j := (kf j).1. Notation P j := (kf j).2.
Definition pm j := A j *m m j + b j.
Definition pC j := cnd_C (P j) Q (A j).
Definition Jg j := cnd_J (P j) Q (A j).
Definition Sc j := cnd_S (P j) Q (A j).

Lemma kf_pd j : posdef (P j).
Proof.
have [p0 pQ pR] := ok; elim: j => [|j IH] //=; apply: cnd_S_pd => //; exact: cnd_C_pd.
Qed.
Lemma pC_pd j : posdef (pC j). Proof. by have [p0 pQ pR] := ok; apply: cnd_C_pd => //; exact: kf_pd. Qed.
Lemma Sc_pd j : posdef (Sc j). Proof. by have [p0 pQ pR] := ok; apply: cnd_S_pd => //; exact: kf_pd. Qed.

Lemma nll_ge0 (v : 'cV[R]_n) M x : posdef M -> 0 <= nll v M x.
Proof. by move=> pM; have [_] := posdef_semi (posdef_inv pM); apply. Qed.
Lemma nll_eq0 (v : 'cV[R]_n) M x : posdef M -> (nll v M x == 0) = (x == v).
Proof.
move=> pM; rewrite /nll; have [_ h] := posdef_inv pM; have [->|ne] := eqVneq x v; first by rewrite subrr qf0 eqxx.
by rewrite gt_eqF // h // subr_eq0.
Qed.
Lemma nll_self (v : 'cV[R]_n) M : nll v M v = 0.
Proof. by rewrite /nll subrr qf0. Qed.

(** splitting rules *)
Lemma nll_split p q (M : 'M[R]_p) (N : 'M[R]_q) (B : 'M[R]_(q, p)) (d : 'cV[R]_q) v x x' : posdef M -> posdef N ->
  nll v M x + nll (B *m x + d) N x' =
  nll (B *m v + d) (cnd_C M N B) x' + nll (v + cnd_J M N B *m (x' - (B *m v + d))) (cnd_S M N B) x.
Proof.
move=> pM pN; rewrite /nll opprD addrA -cnd_energy //; congr (_ + qf _ _); exact: innov_split.
Qed.

Definition cond j (x : nat -> 'cV[R]_n) := nll (m j + Jg j *m (x j.+1 - pm j)) (Sc j) (x j).
Lemma cond_ge0 j x : 0 <= cond j x. Proof. exact/nll_ge0/Sc_pd. Qed.

Lemma joint_decomp N : exists z, forall x, joint S y N x = nll (m N) (P N) (x N) + \sum_(j < N) cond j x + z.
Proof.
have [p0 pQ pR] := ok; elim: N => [|N [z IH]].
  by exists 0 => x; rewrite /joint !big_ord0 !addr0.
exists (z + nll (H N *m pm N + c N) (cnd_C (pC N) Rm (H N)) (y N)) => x.
have -> : joint S y N.+1 x = joint S y N x + (nll (A N *m x N + b N) Q (x N.+1) + nll (H N *m x N.+1 + c N) Rm (y N)).
  by rewrite /joint big_ord_recr /= addrA.
rewrite IH big_ord_recr /=.
have e1 := @nll_split _ _ (P N) Q (A N) (b N) (m N) (x N) (x N.+1) (kf_pd N) pQ.
have e2 := @nll_split _ _ (pC N) Rm (H N) (c N) (pm N) (x N.+1) (y N) (pC_pd N) pR.
rewrite -/(pm N) -/(pC N) -/(Jg N) -/(Sc N) -/(cond N x) in e1.
rewrite -/(pm N) -/(pC N).
move: e1 e2; move: (nll (m N) _ _) (nll _ Q _) (nll _ Rm _) (cond N x) (nll (pm N) _ _) => t5 t1 t3 cn t2.
move: (nll _ (cnd_C (pC N) _ _) _) (nll _ (cnd_S _ _ _) _) (\sum_(j < N) _) => t4 t6 s e1 e2.
have -> : t5 + s + z + (t1 + t3) = (t5 + t1) + (t3 + (s + z)) by fnorm R; ring.
rewrite e1; have -> : t2 + cn + (t3 + (s + z)) = (t2 + t3) + (cn + (s + z)) by fnorm R; ring.
rewrite e2; fnorm R; ring.
Qed.

(** a trajectory through [v] at time N with all conditional energies zero *)
Lemma back_traj N v : exists x, x N = v /\ forall j, (j < N)%N -> cond j x = 0.
Proof.
elim: N v => [|N IH] v; first by exists (fun=> v).
have [x [h1 h2]] := IH (m N + Jg N *m (v - pm N)).
exists (fun j => if (j <= N)%N then x j else v); split; first by rewrite ltnn.
move=> j; rewrite ltnS leq_eqVlt => /orP[/eqP ->|hj].
  by rewrite /cond ltnn leqnn h1 nll_self.
by have := h2 j hj; rewrite /cond (ltnW hj) hj.
Qed.

Lemma kf_posterior N : posterior S y N N (m N) (P N).
Proof.
split; first exact: kf_pd.
have [z hz] := joint_decomp N; exists z; split=> [x|v].
  by rewrite hz ler_add2r ler_addl sumr_ge0 // => j _; exact: cond_ge0.
have [x [h1 h2]] := back_traj N v; exists x; split=> //; rewrite hz h1 big1 ?addr0 // => j _; exact: h2.
Qed.

(** *** smoother: state [N - j] after j backward steps *)
Section Smoother.
Variable N : nat.
Definition sstep (j : nat) (g : 'cV[R]_n * 'M[R]_n) : 'cV[R]_n * 'M[R]_n :=
  (m j + Jg j *m (g.1 - pm j), Sc j + Jg j *m g.2 *m (Jg j)^T).
Fixpoint ksr (j : nat) : 'cV[R]_n * 'M[R]_n := if j is i.+1 then sstep (N - j) (ksr i) else kf N.
Definition ks (i : nat) := ksr (N - i).
Lemma ks_last : ks N = kf N. Proof. by rewrite /ks subnn. Qed.
Lemma ks_step i : (i < N)%N -> ks i = sstep i (ks i.+1).
Proof. by move=> h; rewrite /ks -(subnSK h) /= subnSK // subKn // ltnW. Qed.

(** backward induction from N *)
Lemma back_ind (Pr : nat -> Prop) : Pr N -> (forall i, (i < N)%N -> Pr i.+1 -> Pr i) -> forall i, (i <= N)%N -> Pr i.
Proof.
move=> h0 hs i hi; rewrite -(subKn hi); elim: (N - i)%N (leq_subr i N) => [|j IH] hj; first by rewrite subn0.
apply: hs; first by rewrite ltn_subrL /= (leq_ltn_trans _ hj).
by rewrite -subSn // subSS; apply: IH; exact: ltnW.
Qed.

Lemma ks_pd i : (i <= N)%N -> posdef (ks i).2.
Proof.
move: i; apply: back_ind; first by rewrite ks_last; exact: kf_pd.
move=> i hi IH; rewrite ks_step //=; apply: posdefD (Sc_pd i) _; exact/possemi_congr/posdef_semi.
Qed.

(** energy of the states i .. N *)
Definition tail i (x : nat -> 'cV[R]_n) := nll (m N) (P N) (x N) + \sum_(j < N | (i <= j)%N) cond j x.
Lemma tail_step i x : (i < N)%N -> tail i x = tail i.+1 x + cond i x.
Proof.
move=> hi; rewrite /tail (bigD1 (Ordinal hi)) //= -addrA; congr (_ + _); rewrite addrC; congr (_ + _).
by apply: eq_bigl => j; rewrite -val_eqE /= andbC ltn_neqAle eq_sym.
Qed.
Lemma tail_ext i x x' : (forall j, (i <= j)%N -> x j = x' j) -> (i <= N)%N -> tail i x = tail i x'.
Proof.
move=> h hi; rewrite /tail h //; congr (_ + _); apply: eq_bigr => j hj; rewrite /cond !h //; exact: leq_trans hj _.
Qed.

Lemma smooth_split i v : (i < N)%N -> exists v1 S1, posdef S1 /\ forall x',
  nll (ks i.+1).1 (ks i.+1).2 x' + nll (m i + Jg i *m (x' - pm i)) (Sc i) v = nll (ks i).1 (ks i).2 v + nll v1 S1 x'.
Proof.
move=> hi; have p1 := ks_pd hi; have pS := Sc_pd i.
set M := (ks i.+1).2 in p1 *; set u := (ks i.+1).1.
exists (u + cnd_J M (Sc i) (Jg i) *m (v - (ks i).1)), (cnd_S M (Sc i) (Jg i)); split; first exact: cnd_S_pd.
move=> x'; have := @nll_split _ _ M (Sc i) (Jg i) (m i - Jg i *m pm i) u x' v p1 pS.
have -> : Jg i *m x' + (m i - Jg i *m pm i) = m i + Jg i *m (x' - pm i) by rewrite mulmxBr addrCA.
move=> ->; have e1 : Jg i *m u + (m i - Jg i *m pm i) = (ks i).1 by rewrite ks_step //= mulmxBr addrCA.
by rewrite e1; congr (nll _ _ _ + _); rewrite ks_step //= addrC.
Qed.

Lemma tail_ge i x : (i <= N)%N -> nll (ks i).1 (ks i).2 (x i) <= tail i x.
Proof.
move: i; apply: back_ind.
  by rewrite ks_last /tail ler_addl sumr_ge0 // => j _; exact: cond_ge0.
move=> i hi IH; rewrite tail_step //; have [v1 [S1 [pS1 h]]] := smooth_split (x i) hi.
apply: le_trans (ler_add IH (lexx _)); rewrite /cond h ler_addl; exact: nll_ge0.
Qed.
Lemma tail_min i v : (i <= N)%N -> exists x, x i = v /\ tail i x = nll (ks i).1 (ks i).2 v.
Proof.
move=> hi; move: i hi v; apply: back_ind.
  move=> v; exists (fun=> v); split=> //; rewrite ks_last /tail big1 ?addr0 // => j hj.
  by move: (ltn_ord j); rewrite ltnNge hj.
move=> i hi IH v; have [v1 [S1 [pS1 h]]] := smooth_split v hi; have [x [h1 h2]] := IH v1.
exists (fun j => if (j == i)%N then v else x j); rewrite eqxx; split=> //.
rewrite tail_step // (tail_ext (x' := x)) //; last by move=> j hj; rewrite gtn_eqF.
by rewrite h2 /cond eqxx gtn_eqF // h1 h nll_self addr0.
Qed.

Lemma ks_posterior i : (i <= N)%N -> posterior S y N i (ks i).1 (ks i).2.
Proof.
move=> hi; split; first exact: ks_pd.
have [z hz] := joint_decomp N; exists z.
have split_at x : \sum_(j < N) cond j x = \sum_(j < N | (i <= j)%N) cond j x + \sum_(j < N | (j < i)%N) cond j x.
  rewrite (bigID (fun j : 'I_N => (i <= j)%N)) /=; congr (_ + _); apply: eq_bigl => j; by rewrite ltnNge.
split=> [x|v].
  rewrite hz split_at ler_add2r addrA; apply: le_trans (tail_ge x hi) _; rewrite ler_addl sumr_ge0 // => j _; exact: cond_ge0.
have [x [h1 h2]] := tail_min v hi; have [x' [h3 h4]] := back_traj i v.
exists (fun j => if (j < i)%N then x' j else x j); rewrite ltnn; split=> //.
rewrite hz split_at addrA -h2; congr (_ + _).
have -> : \sum_(j < N | (j < i)%N) cond j (fun j0 : nat => if (j0 < i)%N then x' j0 else x j0) = 0.
  apply: big1 => j hj; rewrite -[RHS](h4 j hj) /cond hj; case: (ltngtP j.+1 i) => // [e|->]; last by rewrite h1 h3.
  by move: hj; rewrite ltnNge -ltnS e.
rewrite addr0; apply: tail_ext => // j hj; by rewrite ltnNge hj.
Qed.

(** the smoother means are the unique minimiser *)
Lemma ks_unique : exists z, forall x, z <= joint S y N x /\ (joint S y N x = z <-> forall i, (i <= N)%N -> x i = (ks i).1).
Proof.
have [z hz] := joint_decomp N; exists z => x; rewrite hz.
have s0 : 0 <= \sum_(j < N) cond j x by apply: sumr_ge0 => j _; exact: cond_ge0.
have n0 := nll_ge0 (m N) (x N) (kf_pd N); split; first by rewrite ler_addr addr_ge0.
split=> [/eqP|h].
  rewrite -subr_eq0 addrK paddr_eq0 // nll_eq0; last exact: kf_pd.
  case/andP=> /eqP e1 /eqP e2; apply: back_ind; first by rewrite ks_last.
  move=> i hi IH; have := e2; move/eqP; rewrite psumr_eq0; last by move=> j _; exact: cond_ge0.
  move=> /allP /(_ (Ordinal hi)); rewrite mem_index_enum => /(_ isT) /=.
  rewrite /cond nll_eq0 ?(ks_step hi) /= ?IH; last exact: Sc_pd.
  by move/eqP.
rewrite h // ks_last nll_self add0r big1 ?add0r // => j _; rewrite /cond !h //; last exact: ltnW.
by rewrite (ks_step (ltn_ord j)) /= nll_self.
Qed.

(** *** Loewner order *)
Lemma loewner_correct j : possemi (pC j - P j.+1).
Proof.
have [p0 pQ pR] := ok; rewrite /= -/(pm j) -/(pC j) cnd_S_sub //; last exact: pC_pd.
rewrite opprB addrC subrK.
apply: possemi_congr; apply: posdef_semi; apply: cnd_C_pd => //; exact: pC_pd.
Qed.
Lemma loewner_smooth i : (i <= N)%N -> possemi (P i - (ks i).2).
Proof.
move: i; apply: back_ind; first by rewrite ks_last subrr; exact: possemi0.
have [p0 pQ pR] := ok; move=> i hi IH; rewrite ks_step //=.
have -> : P i - (Sc i + Jg i *m (ks i.+1).2 *m (Jg i)^T) = Jg i *m (pC i - (ks i.+1).2) *m (Jg i)^T.
  rewrite /Sc cnd_S_sub //; last exact: kf_pd.
  rewrite -/(Jg i) -/(pC i) mulmxBr mulmxBl; move: (P i) (Jg i *m pC i *m _) (_ *m (ks i.+1).2 *m _) => u v w.
  by rewrite opprD opprB addrA [u + _]addrC subrK.
apply: possemi_congr; have -> : pC i - (ks i.+1).2 = (pC i - P i.+1) + (P i.+1 - (ks i.+1).2) by rewrite addrA subrK.
by apply: possemiD => //; exact: loewner_correct.
Qed.
End Smoother.
End KM.

(** the posterior marginal is determined by the model and the observations *)
Lemma posterior_unique (R : rcfType) n k (S : lgssm R n k) y N i m m' P P' :
  posterior S y N i m P -> posterior S y N i m' P' -> m = m' /\ P = P'.
Proof.
move=> [pP [z [h1 h2]]] [pP' [z' [h1' h2']]].
have e v : nll m P v + z = nll m' P' v + z'.
  apply/le_anti/andP; split.
    by have [x [<- <-]] := h2' v; exact: h1.
  by have [x [<- <-]] := h2 v; exact: h1'.
have g1 := nll_ge0 m m' pP; have g2 := nll_ge0 m' m pP'.
have e1 := e m; have e2 := e m'; rewrite !nll_self !add0r in e1 e2.
have zz : z = z' by apply/le_anti; rewrite {2}e1 ler_addr g2 andbT -e2 ler_addr g1.
have em : m = m'.
  by apply/esym/eqP; rewrite -(nll_eq0 _ _ pP); apply/eqP/(addIr z); rewrite e2 add0r zz.
split=> //; have iP := posdef_inv pP; have iP' := posdef_inv pP'.
suff eP : invmx P = invmx P' by rewrite -[P]invmxK eP invmxK.
apply: qf_inj iP.1 iP'.1 _ => v.
by have := e (v + m); rewrite zz em /nll addrK => /addIr.
Qed.
