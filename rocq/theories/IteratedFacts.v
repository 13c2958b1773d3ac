(** * Facts about the iterated filter and smoother *)
Set Warnings "-notation-overridden,-ambiguous-paths".
From mathcomp Require Import all_ssreflect all_algebra.
From Verif Require Import Base ND NDFacts PosDef LinAlg LinAlgFacts Gauss GaussFacts Transforms TransformFacts CondGauss
  Estimator EstimatorFacts SpecGauss KalmanMath KalmanLoop KalmanLoopFacts Kalman KalmanFacts Iterated IteratedMath.
Set Implicit Arguments.
Unset Strict Implicit.
Unset Printing Implicit Defensive.
Import GRing.Theory Num.Theory Order.Theory.
Local Open Scope ring_scope.

Section IEKF.
Variable R : rcfType.
Variable illcond : forall n, 'M[R]_n -> bool.
Variable U : Type.
Notation nd := (nd R).
Notation gauss := (gauss R).
Notation momp := (momp illcond).

Lemma ent00 m n (A : 'M[R]_(m.+1, n.+1)) : ent A 0 0 = A 0 0.
Proof. exact: (entE A 0 0). Qed.

(** [F] is differentiable at [x] in a form that KalmanFilter.py:137-138 can digest: a batch of one row,
    or scalar in and out *)
Definition iekf_style k n (F : dfun R) (x : 'cV[R]_n) (y : 'cV[R]_k) (J : 'M[R]_(k, n)) : Prop :=
  row_style F x y J \/ [/\ vec_style F x y J, k = 1%N & n = 1%N].

Section Body.
Variables (measurement : sysfun R U) (t : R) (u : U).
Notation F := (measurement t u).

Lemma iekf_bodyE n k (Rm : 'M[R]_k) (P : 'M[R]_n) g (m m1 : 'cV[R]_n) (hv y : 'cV[R]_k) (J : 'M[R]_(k, n)) ya :
  iekf_style F m1 hv J -> g_mean illcond g = Ok (Nd1 m1) -> natleast1 ya = Nd1 y -> posdef P -> posdef Rm ->
  iekf_body illcond measurement (Nd2 Rm) t u (Nd1 m) (Nd2 P) ya g =
  Ok (gaussian (Nd1 (m + cnd_J P Rm J *m (y - (hv - J *m (m - m1))))) (Nd2 (cnd_S P Rm J))).
Proof.
move=> hs hm hy pP pR; have pC := cnd_C_pd J pP pR.
have eS : cnd_S P Rm J = P - cnd_J P Rm J *m (P *m J^T)^T by rewrite /cnd_S trmx_mul trmxK pP.1 mulmxA.
have eJ : (invmx (cnd_C P Rm J) *m (P *m J^T)^T)^T = cnd_J P Rm J by rewrite trmx_mul trmxK (sym_inv pC.1).
case: hs => [[h1 h2]|[[h1 h2] k1 n1]]; rewrite /iekf_body hm bindE h1 bindE h2.
- rewrite /nidx0 /= bindE bindE /jidx0 /= bindE nsubvv bindE.
  have -> : \col_(j < k) ent hv^T 0 j = hv.
    by apply/colP=> j; rewrite !mxE -[0%N]/(nat_of_ord (0 : 'I_1)) entE mxE.
  have -> : \matrix_(i < k, j < n) nth 0 (flat J) (i * n + j) = J by apply/matrixP=> i j; rewrite mxE nth_flat.
  rewrite nmatmulmv bindE nsubvv bindE nmatmulmm bindE nmatmulmm bindE naddmm bindE nmatmulmm bindE /=.
  rewrite -/(cnd_C P Rm J) np_solvemm ?posdef_unit // bindE /= hy nsubvv bindE.
  by rewrite eJ ndotmv bindE naddvv bindE ndotmm bindE nsubmm bindE eS.
- move/esym: k1 => k1; move/esym: n1 => n1.
  case: k / k1 hv y J Rm h1 h2 hy pR pC eS eJ => hv y J Rm h1 h2 hy pR pC eS eJ.
  case: n / n1 m m1 P J hm h1 h2 pP pC eS eJ => m m1 P J hm h1 h2 pP pC eS eJ.
  rewrite /nidx0 /= bindE bindE /jidx0 /= /nidx0 /= bindE nsubvv bindE.
  have -> : \col_(j < 1) ent J 0 j = J.
    by apply/colP=> j; rewrite mxE ord1 -[0%N]/(nat_of_ord (0 : 'I_1)) entE.
  have sc (A : 'M[R]_1) : (A 0 0)%:M = A by apply/matrixP=> i j; rewrite !mxE !ord1.
  have t1 (A : 'M[R]_1) : A^T = A by apply/matrixP=> i j; rewrite !mxE !ord1.
  rewrite nmatmulvv bindE [nsub (Nd0 _) _]/nsub /bop bindE nmatmulvm bindE nmatmulvv bindE [nadd (Nd0 _) _]/nadd /bop bindE nmatmulmv bindE /=.
  set Z := \matrix_(i, j) _.
  have eZ : Z = cnd_C P Rm J.
    apply/matrixP=> i j; rewrite !ord1 mxE /cnd_C [RHS]mxE; congr (_ + _).
    by rewrite trmx_mul trmxK !t1.
  rewrite eZ {Z eZ}.
  have -> : np_solve (Nd2 (cnd_C P Rm J)) (Nd1 (P *m J)) = Ok (Nd1 (invmx (cnd_C P Rm J) *m (P *m J))).
    by rewrite /np_solve eqxx /rhs_solve eqxx !conform_mx_id bindE posdef_unit.
  rewrite bindE /= hy [nsub (Nd1 _) _]/nsub /bop bindE.
  set dv := \col_i _.
  have edv : dv = y - (hv - J *m (m - m1)).
    by apply/matrixP=> i j; rewrite !ord1 !mxE ent00 !big_ord1 !mxE.
  have eK : invmx (cnd_C P Rm J) *m (P *m J) = cnd_J P Rm J.
    by rewrite -eJ t1 t1 t1.
  rewrite edv eK /ndot nmatmulvv bindE [nadd (Nd1 _) _]/nadd /bop bindE nmatmulvv bindE [nsub _ _]/nsub /bop bindE.
  congr Ok; congr gaussian; [congr Nd1|congr Nd2]; apply/matrixP=> i j; rewrite !ord1.
    by rewrite mxE [RHS]mxE t1.
  by rewrite mxE eS [RHS]mxE [X in _ = _ + X]mxE !t1.
Qed.

Variables (n k : nat) (H : 'M[R]_(k, n)) (c : 'cV[R]_k) (Rm : 'M[R]_k) (P : 'M[R]_n) (m : 'cV[R]_n) (y : 'cV[R]_k).
Hypotheses (pP : posdef P) (pR : posdef Rm).
Hypothesis aff : forall x, iekf_style F x (H *m x + c) H.
Notation r := (y - (H *m m + c)).
Notation dev := (dev P Rm H r).

Lemma iekf_loop_affine ya N i g : natleast1 ya = Nd1 y -> g_mean illcond g = Ok (Nd1 (m + dev i)) ->
  iekf_loop illcond measurement (Nd2 Rm) N t u (Nd1 m) (Nd2 P) ya g =
  Ok (if N is 0 then g else gaussian (Nd1 (m + dev (i + N))) (Nd2 (cnd_S P Rm H))).
Proof.
move=> hy; elim: N i g => [|N IH] i g hm //=.
rewrite (iekf_bodyE m (aff _) hm hy pP pR) bindE.
have -> : y - (H *m (m + dev i) + c - H *m (m - (m + dev i))) = r - 2%:R *: (H *m dev i).
  have -> : m - (m + dev i) = - dev i by rewrite opprD addrA subrr add0r.
  rewrite mulmxN opprK mulmxDr scaler_nat mulr2n; move: (H *m m) (H *m dev i) => a b.
  by rewrite -[RHS]addrA; congr (_ + _); rewrite -opprD; congr (- _); rewrite (addrAC a) -!addrA.
rewrite -[cnd_J _ _ _ *m _]/(dev i.+1) (IH i.+1) //.
by rewrite -addSnnS; case: N {IH} => [|N]; rewrite ?addn0.
Qed.
Lemma iterated_affine ya N g : natleast1 ya = Nd1 y -> momp g m P ->
  iterated_update illcond measurement (Nd2 Rm) N t u g ya =
  Ok (if N is 0 then g else gaussian (Nd1 (m + dev N)) (Nd2 (cnd_S P Rm H))).
Proof.
move=> hy [hm hP]; rewrite /iterated_update hm bindE hP bindE (@iekf_loop_affine ya N 0) //.
by rewrite /= addr0.
Qed.
End Body.
End IEKF.

Section IEKS.
Variable R : rcfType.
Variable illcond : forall n, 'M[R]_n -> bool.
Variable U : Type.
Notation nd := (nd R).
Notation gauss := (gauss R).
Notation momp := (momp illcond).
Notation sysfun := (sysfun R U).
Notation obj := (ieks_obj R U).
Notation TT := (pure_transform (W := obj) (tt_transform illcond)).
Notation exact_on := (@exact_on R illcond obj).
Notation exact_at := (@exact_at R illcond obj).

(** linearisation of a differentiable function is affine *)
Lemma lin_style m n (f : sysfun) t u (x0 : 'cV[R]_n) (y0 : 'cV[R]_m) (J : 'M[R]_(m, n)) : style (f t u) x0 y0 J ->
  forall x : 'cV[R]_n, style (linearise f (Nd1 x0) t u) x (J *m x + (y0 - J *m x0)) J.
Proof.
have e (x : 'cV[R]_n) : J *m x + (y0 - J *m x0) = y0 + J *m (x - x0) by rewrite mulmxBr addrCA.
case=> [[h1 h2]|[[h1 h2] m1 n1]] x; [left|right; split=> //].
- have hc : lin_call (f t u) (Nd1 x0) (Nd1 x) = Ok (Nd1 (J *m x + (y0 - J *m x0))).
    by rewrite /lin_call h1 bindE h2 bindE nsubvv bindE /= nmatmulmv bindE naddvv e.
  by split=> //=; rewrite eqxx hc bindE.
- have hc : lin_call (f t u) (Nd1 x0) (Nd1 x) = Ok (Nd2 (J *m x + (y0 - J *m x0))^T).
    rewrite /lin_call h1 bindE h2 bindE nsubvv bindE /= eqxx bindE.
    have -> : (\matrix_(i < 1, j < m) (\sum_(l < n) nth 0 (flat J) ((i * m + j) * n + l) * ent (x - x0) l 0)) = (J *m (x - x0))^T :> 'M[R]_(1, m).
      apply/matrixP=> i j; rewrite mxE [RHS]mxE mxE; apply: eq_bigr => l _; rewrite (ord1 i) /= add0n nth_flat.
      by rewrite -[0%N]/(nat_of_ord (0 : 'I_1)) entE.
    by rewrite naddmm e; congr (Ok (Nd2 _)); rewrite [in RHS]linearD.
  by split=> //=; rewrite eqxx hc bindE.
Qed.
Lemma lin_exact m n (f : sysfun) t u (x0 : 'cV[R]_n) (y0 : 'cV[R]_m) (J : 'M[R]_(m, n)) : style (f t u) x0 y0 J ->
  exact_on TT (linearise f (Nd1 x0) t u) J (y0 - J *m x0).
Proof. move=> h; apply: tt_exact => x; exact: lin_style. Qed.

Variables (n k : nat) (S : lgssm R n k) (y : nat -> 'cV[R]_k).
Hypothesis ok : noise_ok S.
Notation A := (s_A S). Notation b := (s_b S). Notation Q := (s_Q S).
Notation H := (s_H S). Notation c := (s_c S). Notation Rm := (s_R S).
Variables (dt : R) (u0 : U) (g0 : gauss).
Hypothesis hg : momp g0 (s_m0 S) (s_P0 S).

(** with the Taylor transform the methods do not touch the object *)
Lemma predictT (F : sysfun) M t u g (o : obj) r : predict TT F M t u g o = r -> r.1 = o.
Proof. by move=> <-. Qed.
Lemma predict_o (F : sysfun) g m P j t u (o : obj) : exact_on TT (F t u) (A j) (b j) -> momp g m P -> posdef P ->
  predict TT F (Nd2 Q) t u g o = (o, Ok (gaussian (Nd1 (A j *m m + b j)) (Nd2 (cnd_C P Q (A j))))).
Proof. by move=> h1 h2 h3; have [w' e] := predict_exact (S := S) o (exact_onat h1 h3) h2 h3; have := predictT e; rewrite e /= => ->. Qed.
Lemma correct_o (F : sysfun) g m P j t u (o : obj) ya : exact_on TT (F t u) (H j) (c j) -> momp g m P -> posdef P -> natleast1 ya = Nd1 (y j) ->
  correct illcond TT F (Nd2 Rm) t u g ya o =
   (o, Ok (gaussian (Nd1 (m + cnd_J P Rm (H j) *m (y j - (H j *m m + c j)))) (Nd2 (cnd_S P Rm (H j))))).
Proof.
move=> h1 h2 h3 h4; have [w' e] := correct_exact (y := y) ok o (exact_onat h1 h3) h2 h3 h4.
have : (correct illcond TT F (Nd2 Rm) t u g ya o).1 = o by []; by rewrite e /= => ->.
Qed.
Lemma smooth_o (F : sysfun) g m P s mu Sg j t u (o : obj) : exact_on TT (F t u) (A j) (b j) -> momp g m P -> posdef P -> momp s mu Sg ->
  smooth illcond TT F (Nd2 Q) t u g s o =
   (o, Ok (gaussian (Nd1 (m + cnd_J P Q (A j) *m (mu - (A j *m m + b j)))) (Nd2 (cnd_S P Q (A j) + cnd_J P Q (A j) *m Sg *m (cnd_J P Q (A j))^T)))).
Proof.
move=> h1 h2 h3 h4; have [w' e] := smooth_exact ok o (exact_onat h1 h3) h2 h3 h4.
have : (smooth illcond TT F (Nd2 Q) t u g s o).1 = o by []; by rewrite e /= => ->.
Qed.

(** one pass with a list of functions *)
Section Pass.
Variables (fl hl : nat -> sysfun) (ys : seq nd).
Notation N := (size ys).
Hypothesis hA : forall j, (j < N)%N -> exact_on TT (fl j (dt *+ j) u0) (A j) (b j).
Hypothesis hH : forall j, (j < N)%N -> exact_on TT (hl j (dt *+ j) u0) (H j) (c j).
Hypothesis hy : reads y ys.
Definition has_lists (o : obj) := i_fl o = mkseq fl N /\ i_hl o = mkseq hl N.
Lemma onth_mkseq T (F : nat -> T) M i : (i < M)%N -> onth (mkseq F M) i = Ok (F i).
Proof. by move=> hi; rewrite /onth (nth_map (F 0%N)) ?size_mkseq // nth_mkseq. Qed.

Lemma ik_filter_loop_exact zs i t g o : (i + size zs)%N = N -> t = dt *+ i -> (forall j, (j < size zs)%N -> nth (Nd0 0) zs j = nth (Nd0 0) ys (i + j)%N) ->
  has_lists o -> momp g (kf S y i).1 (kf S y i).2 ->
  ik_filter_loop illcond (Nd2 Q) (Nd2 Rm) dt u0 zs i t g o =
   (if zs is [::] then o else set_meas (hl N.-1) (set_trans (fl N.-1) o), Ok (mkseq (fun j => gv (kf S y (i + j.+1))) (size zs))).
Proof.
elim: zs i t g o => [|z zs IH] i t g o hs ht hz ho hg' //.
have hi : (i < N)%N by rewrite -hs -[X in (X < _)%N]addn0 ltn_add2l.
rewrite [LHS]/= ho.1 onth_mkseq // [i_hl _]ho.2 onth_mkseq //.
have h1 := predict_o (set_meas (hl i) (set_trans (fl i) o)) (hA hi) hg' (kf_pd y ok i).
have ez : natleast1 (nsqueeze z) = Nd1 (y i) by have := hy hi; have := hz 0%N isT; rewrite addn0 /= => ->.
have h2 := correct_o (set_meas (hl i) (set_trans (fl i) o)) (hH hi) (momp_gaussian illcond (A i *m (kf S y i).1 + b i) (cnd_C (kf S y i).2 Q (A i)))
  (cnd_C_pd _ (kf_pd y ok i) (let: And3 _ q _ := ok in q)) ez.
have h3 : ik_filter_loop illcond (Nd2 Q) (Nd2 Rm) dt u0 zs i.+1 (t + dt) (gv (kf S y i.+1)) (set_meas (hl i) (set_trans (fl i) o)) =
   (if zs is [::] then set_meas (hl i) (set_trans (fl i) o) else set_meas (hl N.-1) (set_trans (fl N.-1) (set_meas (hl i) (set_trans (fl i) o))),
    Ok (mkseq (fun j => gv (kf S y (i.+1 + j.+1))) (size zs))).
  apply: IH => //.
  - by rewrite addSnnS.
  - by rewrite ht mulrSr.
  - by move=> j hj; have := hz j.+1 hj; rewrite addnS.
rewrite /o_predict /o_correct ht h1 wbindE h2 wbindE -ht h3 wbindE; f_equal; last first.
  rewrite /mkseq /= addn1; congr (Ok (_ :: _)); rewrite (iotaDl 1 0) -map_comp; apply: eq_map => j /=; by rewrite addnS addSn.
by case: zs hs {IH hz h3} => [|z' zs] //=; rewrite addn1 => <-.
Qed.
Lemma ik_filter_exact o : has_lists o ->
  ik_filter illcond (Nd2 Q) (Nd2 Rm) g0 dt u0 ys o =
  (if ys is [::] then o else set_meas (hl N.-1) (set_trans (fl N.-1) o), Ok (mkseq (fun j => gv (kf S y j.+1)) N)).
Proof. by move=> ho; exact: (@ik_filter_loop_exact ys 0 0 g0 o). Qed.

Lemma ik_smoother_loop_exact j o : (j < N)%N -> has_lists o ->
  ik_smoother_loop illcond (Nd2 Q) dt u0 (rev (mkseq (fun i => gv (kf S y i.+1)) j)) j (dt *+ j) (gv (ks S y N j.+1)) o =
   (if j is 0 then o else set_trans (fl 1) o, Ok (rev (mkseq (fun i => gv (ks S y N i.+1)) j))).
Proof.
elim: j o => [|j IH] o hj ho //.
set o1 := set_trans (fl j.+1) o.
have h1 := smooth_o o1 (hA hj) (momp_gaussian illcond (kf S y j.+1).1 (kf S y j.+1).2) (kf_pd y ok j.+1)
  (momp_gaussian illcond (ks S y N j.+2).1 (ks S y N j.+2).2).
have h2 := IH o1 (ltnW hj) ho.
rewrite [mkseq (fun i => gv (kf S y i.+1)) _]mkseqS rev_rcons [LHS]/= ho.1 onth_mkseq // /o_smooth -/o1 h1 wbindE.
have -> : g_copy (gaussian (Nd1 ((kf S y j.+1).1 + cnd_J (kf S y j.+1).2 Q (A j.+1) *m ((ks S y N j.+2).1 - (A j.+1 *m (kf S y j.+1).1 + b j.+1))))
     (Nd2 (cnd_S (kf S y j.+1).2 Q (A j.+1) + cnd_J (kf S y j.+1).2 Q (A j.+1) *m (ks S y N j.+2).2 *m (cnd_J (kf S y j.+1).2 Q (A j.+1))^T)))
    = gv (ks S y N j.+1) by rewrite (ks_step S y hj).
have -> : dt *+ j.+1 - dt = dt *+ j by rewrite mulrSr addrK.
rewrite h2 wbindE; f_equal; first by rewrite /o1; case: (j).
by rewrite [in RHS]mkseqS rev_rcons; congr (Ok (_ :: _)); rewrite (ks_step S y hj).
Qed.
Lemma ik_smoother_exact o : (0 < N)%N -> has_lists o ->
  ik_smoother illcond (Nd2 Q) dt u0 (mkseq (fun i => gv (kf S y i.+1)) N) o =
  (if N.-1 is 0 then o else set_trans (fl 1) o, Ok (mkseq (fun i => gv (ks S y N i.+1)) N)).
Proof.
case E: N => [//|M] _ ho; have hM : (M < N)%N by rewrite E.
have h := ik_smoother_loop_exact hM ho.
rewrite /ik_smoother size_mkseq mkseqS rev_rcons [(M.+1).-1]/=.
have -> : g_copy (gv (kf S y M.+1)) = gv (kf S y M.+1) by [].
have eN : gv (kf S y M.+1) = gv (ks S y M.+1 M.+1) by rewrite ks_last.
by rewrite eN -{1}E h E wbindE rev_cons revK mkseqS.
Qed.
End Pass.

(** the first pass: the object's own functions *)
Section First.
Variables (F Hm : sysfun) (ys : seq nd).
Notation N := (size ys).
Hypothesis hA : forall j, (j < N)%N -> exact_at TT (F (dt *+ j) u0) (A j) (b j) (kf S y j).1 (kf S y j).2.
Hypothesis hH : forall j, (j < N)%N -> exact_at TT (Hm (dt *+ j) u0) (H j) (c j) (pm S y j) (pC S y j).
Hypothesis hy : reads y ys.
Variable o : obj.
Hypotheses (ho1 : i_trans o = F) (ho2 : i_meas o = Hm).

Lemma filter_loop_o zs t g : filter_loop (@nsqueeze R) (o_predict illcond (Nd2 Q)) (o_correct illcond (Nd2 Rm)) dt zs t u0 g o =
  filter_loop (@nsqueeze R) (predict TT F (Nd2 Q)) (correct illcond TT Hm (Nd2 Rm)) dt zs t u0 g o
  /\ (filter_loop (@nsqueeze R) (predict TT F (Nd2 Q)) (correct illcond TT Hm (Nd2 Rm)) dt zs t u0 g o).1 = o.
Proof.
elim: zs t g => [|z zs IH] t g //=.
have -> : o_predict illcond (Nd2 Q) t u0 g o = (o, (predict TT F (Nd2 Q) t u0 g o).2) by rewrite /o_predict ho1.
have -> : predict TT F (Nd2 Q) t u0 g o = (o, (predict TT F (Nd2 Q) t u0 g o).2) by [].
case: (_.2) => [p|e] /=; rewrite ?wbind_err // !wbindE.
have -> : o_correct illcond (Nd2 Rm) t u0 p (nsqueeze z) o = (o, (correct illcond TT Hm (Nd2 Rm) t u0 p (nsqueeze z) o).2) by rewrite /o_correct ho2.
have -> : correct illcond TT Hm (Nd2 Rm) t u0 p (nsqueeze z) o = (o, (correct illcond TT Hm (Nd2 Rm) t u0 p (nsqueeze z) o).2) by [].
case: (_.2) => [q|e] /=; rewrite ?wbind_err // !wbindE.
have [-> e2] := IH (t + dt) q; split=> //.
by move: e2; case: filter_loop => o2 [l|e] //= ->; rewrite ?wbindE ?wbind_err.
Qed.
Lemma smoother_loop_o ss t g : smoother_loop (@g_copy R) (o_smooth illcond (Nd2 Q)) dt ss t u0 g o =
  smoother_loop (@g_copy R) (smooth illcond TT F (Nd2 Q)) dt ss t u0 g o
  /\ (smoother_loop (@g_copy R) (smooth illcond TT F (Nd2 Q)) dt ss t u0 g o).1 = o.
Proof.
elim: ss t g => [|z zs IH] t g //=.
have -> : o_smooth illcond (Nd2 Q) t u0 z g o = (o, (smooth illcond TT F (Nd2 Q) t u0 z g o).2) by rewrite /o_smooth ho1.
have -> : smooth illcond TT F (Nd2 Q) t u0 z g o = (o, (smooth illcond TT F (Nd2 Q) t u0 z g o).2) by [].
case: (_.2) => [p|e] /=; rewrite ?wbind_err // !wbindE.
have [-> e2] := IH (t - dt) (g_copy p); split=> //.
by move: e2; case: smoother_loop => o2 [l|e] //= ->; rewrite ?wbindE ?wbind_err.
Qed.
Lemma first_filter : kalman_filter (@nsqueeze R) (o_predict illcond (Nd2 Q)) (o_correct illcond (Nd2 Rm)) dt g0 ys None 0 u0 o =
  (o, Ok (mkseq (fun i => gv (kf S y i.+1)) N)).
Proof.
have hA' j : (j < N)%N -> exact_at TT (F (0 + dt *+ j) u0) (A j) (b j) (kf S y j).1 (kf S y j).2 by rewrite add0r; exact: hA.
have hH' j : (j < N)%N -> exact_at TT (Hm (0 + dt *+ j) u0) (H j) (c j) (pm S y j) (pC S y j) by rewrite add0r; exact: hH.
have [w' e] := filter_exact_at ok o hA' hH' hy hg; rewrite /filter_run /kalman_filter in e *.
have [e1 e2] := filter_loop_o ys 0 g0; rewrite e1 e; rewrite e /= in e2; by rewrite e2.
Qed.
Lemma first_smoother : (0 < N)%N -> kalman_smoother (@g_copy R) (o_smooth illcond (Nd2 Q)) dt (mkseq (fun i => gv (kf S y i.+1)) N) u0 o =
  (o, Ok (mkseq (fun i => gv (ks S y N i.+1)) N)).
Proof.
move=> h0; have [w' e] := smoother_exact_at ok hA o h0; rewrite /smoother_run /kalman_smoother in e *.
move: e; case: (rev (mkseq (fun i => gv (kf S y i.+1)) N)) => [|s ss]; first by case.
have [e1 e2] := smoother_loop_o ss (dt *+ (size (mkseq (fun i => gv (kf S y i.+1)) N)).-1) (g_copy s).
rewrite e1; move: e2; case: smoother_loop => o2 [l|e] /= ->; rewrite ?wbindE ?wbind_err //; by case=> _ ->.
Qed.
End First.

Lemma relinearise_gv (f h : sysfun) (F : nat -> 'cV[R]_n * 'M[R]_n) N o :
  relinearise illcond f h (mkseq (fun i => gv (F i)) N) o =
  (IeksObj (i_trans o) (i_meas o) (mkseq (fun i => linearise f (Nd1 (F i).1)) N) (mkseq (fun i => linearise h (Nd1 (F i).1)) N), Ok tt).
Proof.
rewrite /relinearise; have -> : mapM (g_mean illcond) (mkseq (fun i => gv (F i)) N) = Ok (mkseq (fun i => Nd1 (F i).1) N).
  by rewrite /mkseq; elim: (iota 0 N) => //= i l ->; rewrite !bindE.
by congr (IeksObj _ _ _ _, _); rewrite /mkseq -map_comp.
Qed.
End IEKS.
