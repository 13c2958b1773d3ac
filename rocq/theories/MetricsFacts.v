(** * Proofs about the metrics *)
Set Warnings "-notation-overridden,-ambiguous-paths".
From mathcomp Require Import all_ssreflect all_algebra.
From Verif Require Import Base ND NDFacts PosDef LinAlg Gauss EPGauss TransformFacts Metrics SpecMetrics.
Set Implicit Arguments.
Unset Strict Implicit.
Unset Printing Implicit Defensive.
Import GRing.Theory Num.Theory Order.Theory.
Local Open Scope ring_scope.

Lemma mapM_map A B C (f : B -> res C) (g : A -> B) l : mapM f (map g l) = mapM (fun a => f (g a)) l.
Proof. by elim: l => //= a l ->. Qed.
Lemma mapM_ok A B (f : A -> res B) (g : A -> B) l : (forall a, f a = Ok (g a)) -> mapM f l = Ok (map g l).
Proof. by move=> h; elim: l => //= a l IH; rewrite h bindE IH bindE. Qed.
Lemma mapM_F2 A B C (P : A -> C -> Prop) (f : A -> res B) (g : C -> B) l l' :
  (forall a c, P a c -> f a = Ok (g c)) -> forall2 P l l' -> mapM f l = Ok (map g l').
Proof. by move=> h; elim=> //= a c l1 l2 p _ IH; rewrite (h _ _ p) bindE IH bindE. Qed.
Lemma F2_zip A B C D (P : A -> B -> Prop) (Q : C -> D -> Prop) l1 l2 l3 l4 : forall2 P l1 l2 -> forall2 Q l3 l4 ->
  forall2 (fun p q => P p.1 q.1 /\ Q p.2 q.2) (zip l1 l3) (zip l2 l4).
Proof.
move=> h; elim: h l3 l4 => [|a b k1 k2 p _ IH] l3 l4 [|c d l l' q hl] /=; try by constructor.
by constructor => //; apply: IH.
Qed.
Lemma F2_size A B (P : A -> B -> Prop) l l' : forall2 P l l' -> size l = size l'.
Proof. by elim=> //= a b k k' _ _ ->. Qed.
Lemma F2_imp A B (P Q : A -> B -> Prop) l l' : (forall a b, P a b -> Q a b) -> forall2 P l l' -> forall2 Q l l'.
Proof. by move=> h; elim=> [|a b k k' /h q _ IH]; constructor. Qed.

Section Facts.
Variable R : rcfType.
Variable illcond : forall n, 'M[R]_n -> bool.
Notation nd := (nd R).
Notation gauss := (gauss R).
Notation g_mean := (g_mean illcond).
Notation g_cov := (g_cov illcond).

Lemma sqerr n (g : gauss) x (m v : 'cV[R]_n) : g_mean g = Ok (Nd1 m) -> holds x v -> g_squared_error illcond g x = Ok (dist2 m v).
Proof.
rewrite /g_squared_error => -> [->|->]; rewrite bindE.
  by rewrite nsubvv bindE /=; congr Ok; apply: eq_bigr => i _; rewrite !mxE.
rewrite /nsub bop_vM bindE /=; congr Ok; rewrite big_ord_recl big_ord0 addr0.
by apply: eq_bigr => i _; rewrite !mxE.
Qed.
(** a truth of shape (n, 1) is broadcast against the mean *)
Lemma sqerr_col n (g : gauss) (m v : 'cV[R]_n) : g_mean g = Ok (Nd1 m) ->
  g_squared_error illcond g (Nd2 v) = Ok (\sum_i \sum_j (m j 0 - v i 0) ^+ 2).
Proof.
rewrite /g_squared_error => ->; rewrite bindE.
have -> : nsub (Nd1 m) (Nd2 v) = Ok (Nd2 (\matrix_(i < n, j < n) (m j 0 - v i 0))).
  rewrite /nsub /bop /bop2 bdim1n /bdim; case: (eqVneq n 1%N) => [e|ne].
    subst n; congr (Ok (Nd2 _)); apply/matrixP => i j; rewrite !mxE bent_row bentE !ord1; by [].
  congr (Ok (Nd2 _)); apply/matrixP => i j; rewrite !mxE bent_row.
  by rewrite /bent eqxx (negbTE ne) (entE v i 0).
by rewrite bindE /=; congr Ok; apply: eq_bigr => i _; apply: eq_bigr => j _; rewrite mxE.
Qed.
Lemma psum_eq0 (I : finType) (F : I -> R) : (forall i, 0 <= F i) -> (\sum_i F i == 0) = [forall i, F i == 0].
Proof.
move=> h; rewrite psumr_eq0 //; apply/allP/forallP => /= H i; first by apply: H; apply: mem_index_enum.
by move=> _; apply: H.
Qed.
Lemma sqerr_col_zero n (m v : 'cV[R]_n) : (\sum_i \sum_j (m j 0 - v i 0) ^+ 2 == 0) = [forall i, [forall j, m j 0 == v i 0]].
Proof.
rewrite psum_eq0; last by move=> i; apply: sumr_ge0 => j _; apply: sqr_ge0.
apply: eq_forallb => i; rewrite psum_eq0; last by move=> j; apply: sqr_ge0.
by apply: eq_forallb => j; rewrite sqrf_eq0 subr_eq0.
Qed.

Lemma dist2_ge0 n (u v : 'cV[R]_n) : 0 <= dist2 u v.
Proof. by apply: sumr_ge0 => i _; apply: sqr_ge0. Qed.
Lemma dist2_eq0 n (u v : 'cV[R]_n) : (dist2 u v == 0) = (u == v).
Proof.
rewrite /dist2 psum_eq0; last by move=> i; apply: sqr_ge0.
apply/forallP/eqP => [h|-> i]; last by rewrite subrr sqrf_eq0.
by apply/matrixP => i j; rewrite ord1; have := h i; rewrite sqrf_eq0 subr_eq0 => /eqP.
Qed.

Lemma rmse_value n gs xs (ms vs : seq 'cV[R]_n) : forall2 (tells illcond (n := n)) gs ms -> forall2 (@holds R n) xs vs ->
  rmse illcond gs xs = if errors ms vs is [::] then Err Unsupported else Ok (Num.sqrt (average (errors ms vs))).
Proof.
move=> h1 h2; rewrite /rmse.
rewrite (mapM_F2 (g := fun p : 'cV[R]_n * 'cV[R]_n => dist2 p.1 p.2) _ (F2_zip h1 h2)); last first.
  by move=> a c [p q]; apply: sqerr.
by rewrite bindE -/(errors ms vs) /np_mean /average; case: (errors ms vs).
Qed.
Lemma average_ge0 n (ms vs : seq 'cV[R]_n) : 0 <= average (errors ms vs).
Proof.
rewrite /average divr_ge0 ?ler0n // big_seq sumr_ge0 // => x /mapP [p _ ->]; exact: dist2_ge0.
Qed.
Lemma average_eq0 n (ms vs : seq 'cV[R]_n) : (average (errors ms vs) == 0) = all (fun p => p.1 == p.2) (zip ms vs).
Proof.
rewrite /average mulf_eq0 invr_eq0 pnatr_eq0 size_eq0 /errors.
case: (zip ms vs) => [|p l]; first by rewrite big_nil eqxx.
rewrite orbF big_map psumr_eq0; last by move=> q _; apply: dist2_ge0.
by apply: eq_all => q; rewrite implyTb dist2_eq0.
Qed.
Lemma rmse_zero n gs xs (ms vs : seq 'cV[R]_n) : forall2 (tells illcond (n := n)) gs ms -> forall2 (@holds R n) xs vs -> gs <> [::] -> xs <> [::] ->
  (rmse illcond gs xs = Ok 0 <-> all (fun p => p.1 == p.2) (zip ms vs)).
Proof.
move=> h1 h2 n1 n2; rewrite (rmse_value h1 h2).
have : errors ms vs <> [::] by move: h1 h2 n1 n2 => [|a b l l' _ _] [|c d k k' _ _].
case E: (errors ms vs) => [|e es] // _; rewrite -E -average_eq0; split=> [/Ok_inj h|/eqP ->]; last by rewrite sqrtr0.
by rewrite eq_le average_ge0 andbT -sqrtr_eq0 h.
Qed.
Lemma rmse_prefix gs xs : let k := minn (size gs) (size xs) in rmse illcond gs xs = rmse illcond (take k gs) (take k xs).
Proof.
rewrite /= /rmse; congr bind; congr mapM.
elim: gs xs => [|g gs IH] [|x xs] //=; by rewrite minnSS /= -IH.
Qed.
Lemma zip_perm_avg (es es' : seq R) : perm_eq es es' -> average es = average es'.
Proof. by move=> h; rewrite /average (perm_big _ h) (perm_size h). Qed.

(** ** components *)
Section Comp.
Variable n : nat.
Variable ix : seq nat.
Hypothesis hix : all (fun i => (i < n)%N) ix.
Definition pickn (v : 'cV[R]_n) : 'cV[R]_(size ix) := \col_i ent v (nth 0%N ix i) 0.
Definition blockn (c : 'M[R]_n) : 'M[R]_(size ix) := \matrix_(i, j) ent c (nth 0%N ix i) (nth 0%N ix j).
Lemma mapM_item (m : 'cV[R]_n) l : all (fun i => (i < n)%N) l -> mapM (item (Nd1 m)) l = Ok [seq Nd0 (ent m i 0) | i <- l].
Proof. by elim: l => //= i l IH /andP [h1 h2]; rewrite h1 bindE IH // bindE. Qed.
Lemma mapM_item2 k (c : 'M[R]_(k, n)) i l : (i < k)%N -> all (fun i => (i < n)%N) l -> mapM (item2 (Nd2 c) i) l = Ok [seq ent c i j | j <- l].
Proof. by move=> hi; elim: l => //= j l IH /andP [h1 h2]; rewrite hi h1 bindE IH // bindE. Qed.
Lemma mapM_rows (c : 'M[R]_n) l : all (fun i => (i < n)%N) l ->
  mapM (fun i => mapM (item2 (Nd2 c) i) ix) l = Ok [seq [seq ent c i j | j <- ix] | i <- l].
Proof. by elim: l => //= i l IH /andP [h1 h2]; rewrite mapM_item2 // bindE IH // bindE. Qed.
Lemma stack0 (F : nat -> R) : nstack [seq Nd0 (F i) | i <- ix] = Ok (Nd1 (\col_(i < size ix) F (nth 0%N ix i))).
Proof.
rewrite /nstack; have -> : all (@is0 R) [seq Nd0 (F i) | i <- ix] by rewrite all_map; apply/allP.
have h : forall k (e : k = size ix), Nd1 (\col_(i < k) get0 (nth (Nd0 0) [seq Nd0 (F i) | i <- ix] i)) =
  Nd1 (\col_(i < size ix) F (nth 0%N ix i)).
  by move=> k e; subst k; congr Nd1; apply/matrixP => i j; rewrite !mxE (nth_map 0%N).
by rewrite h // size_map.
Qed.
Lemma componentE (m : 'cV[R]_n) (c : 'M[R]_n) : component ix (Nd1 m) (Nd2 c) = Ok (Mom (Nd1 (pickn m)) (Nd2 (blockn c))).
Proof.
rewrite /component mapM_item // bindE (stack0 (fun i => ent m i 0)) bindE mapM_rows // bindE.
congr (Ok (Mom _ (Nd2 _))); apply/matrixP => i j; rewrite !mxE.
by rewrite (nth_map 0%N) // (nth_map 0%N).
Qed.
Lemma component_trueE (v : 'cV[R]_n) : component_true ix (Nd2 v^T) = Ok (Nd1 (pickn v)).
Proof.
rewrite /component_true mapM_item2 // bindE; congr (Ok (Nd1 _)); apply/matrixP => i j; rewrite !mxE (nth_map 0%N) //.
have hn : (nth 0%N ix i < n)%N by move/allP: hix; apply; apply: mem_nth.
by rewrite (entE v^T 0 (Ordinal hn)) mxE (entE v (Ordinal hn) 0).
Qed.
Lemma dist2_pick (u v : 'cV[R]_n) : dist2 (pickn u) (pickn v) = \sum_(i <- ix) (ent u i 0 - ent v i 0) ^+ 2.
Proof.
rewrite /dist2 (big_nth 0%N) big_mkord; by apply: eq_bigr => i _; rewrite !mxE.
Qed.
(** the block of a positive-definite matrix is positive definite *)
Lemma block_posdef (c : 'M[R]_n) : uniq ix -> posdef c -> posdef (blockn c).
Proof.
move=> hu [sc pc].
have hn (i : 'I_(size ix)) : (nth 0%N ix i < n)%N by move/allP: hix; apply; apply: mem_nth.
pose f i : 'I_n := Ordinal (hn i).
have bE i j : blockn c i j = c (f i) (f j) by rewrite mxE (entE c (f i) (f j)).
have finj : injective f by move=> i j /(congr1 val) /= /eqP; rewrite nth_uniq // => /eqP /val_inj.
split; first by apply/matrixP => i j; rewrite mxE !bE -{1}sc mxE.
move=> v v0; pose B : 'M[R]_(n, size ix) := \matrix_(k, i) (k == f i)%:R.
have BE i : (B *m v) (f i) 0 = v i 0.
  rewrite mxE (bigD1 i) //= mxE eqxx mul1r big1 ?addr0 // => j ji.
  by rewrite mxE (inj_eq finj) eq_sym (negbTE ji) mul0r.
have bB : blockn c = B^T *m c *m B.
  apply/matrixP => i j; rewrite bE mxE (bigD1 (f j)) //= [B _ _]mxE eqxx mulr1 [X in _ + X]big1 ?addr0; last first.
    by move=> k kj; rewrite [B _ _]mxE (negbTE kj) mulr0.
  have Bt k : B^T i k = (k == f i)%:R by rewrite !mxE.
  by rewrite mxE (bigD1 (f i)) //= Bt eqxx mul1r big1 ?addr0 // => k ki; rewrite Bt (negbTE ki) mul0r.
have -> : qf (blockn c) v = qf c (B *m v) by rewrite /qf /bf bB trmx_mul !mulmxA.
apply: pc; apply: contra v0 => /eqP h; apply/eqP/matrixP => i j; rewrite ord1 -BE h !mxE; by [].
Qed.
End Comp.

(** ** the tracker's three errors *)
Lemma pick_partition (u v : 'cV[R]_5) :
  dist2 (pickn [:: 0; 2]%N u) (pickn [:: 0; 2]%N v) + dist2 (pickn [:: 1; 3]%N u) (pickn [:: 1; 3]%N v) +
  dist2 (pickn [:: 4]%N u) (pickn [:: 4]%N v) = dist2 u v.
Proof.
rewrite !dist2_pick !big_cons !big_nil !addr0 /dist2.
have e (w : 'cV[R]_5) (i : 'I_5) : w i 0 = ent w i 0 by rewrite (entE w i 0).
under eq_bigr do rewrite !e.
rewrite -(big_mkord xpredT (fun i => (ent u i 0 - ent v i 0) ^+ 2)) unlock /= addr0.
by rewrite addrACA !addrA.
Qed.

Variable logpdf : nd -> nd -> nd -> res R.
Lemma nll_value n (lp : 'cV[R]_n -> 'cV[R]_n -> 'M[R]_n -> R) gs xs (mcs : seq ('cV[R]_n * 'M[R]_n)) (vs : seq 'cV[R]_n) :
  (forall v m c x, posdef c -> holds x v -> logpdf x (Nd1 m) (Nd2 c) = Ok (lp v m c)) ->
  forall2 (tells3 illcond (n := n)) gs mcs -> forall2 (@holds R n) xs vs ->
  nll illcond logpdf gs xs = if zip mcs vs is [::] then Err Unsupported
    else Ok (average [seq - lp p.2 p.1.1 p.1.2 | p <- zip mcs vs]).
Proof.
move=> hl h1 h2; rewrite /nll.
rewrite (mapM_F2 (g := fun p : ('cV[R]_n * 'M[R]_n) * 'cV[R]_n => - lp p.2 p.1.1 p.1.2) _ (F2_zip h1 h2)); last first.
  by move=> a c [[[p p'] p3] q]; rewrite /g_nll p bindE p' bindE (hl c.2 _ _ _ p3 q) bindE.
by rewrite bindE /np_mean /average; case: (zip mcs vs).
Qed.

Lemma mom_mean (m c : nd) : g_mean (Mom m c) = Ok m. Proof. by []. Qed.
Lemma mom_cov (m c : nd) : g_cov (Mom m c) = Ok c. Proof. by []. Qed.
Lemma F2_map A B C (P : C -> B -> Prop) (f : A -> C) (g : A -> B) l : (forall a, P (f a) (g a)) -> forall2 P (map f l) (map g l).
Proof. by move=> h; elim: l => [|a l IH]; constructor. Qed.
Lemma zip_unzip A B (l : seq (A * B)) : zip (unzip1 l) (unzip2 l) = l.
Proof. by elim: l => //= [[a b] l] ->. Qed.
Lemma mapM_means n gs (mcs : seq ('cV[R]_n * 'M[R]_n)) : forall2 (tells2 illcond (n := n)) gs mcs ->
  mapM g_mean gs = Ok [seq Nd1 p.1 | p <- mcs] /\ mapM g_cov gs = Ok [seq Nd2 p.2 | p <- mcs].
Proof. by move=> h; split; apply: (mapM_F2 _ h) => a c []. Qed.
Lemma mapM_comp n ix (mcs : seq ('cV[R]_n * 'M[R]_n)) : all (fun i => (i < n)%N) ix ->
  mapM (fun p => component ix p.1 p.2) (zip [seq Nd1 p.1 | p <- mcs] [seq Nd2 p.2 | p <- mcs]) =
  Ok [seq Mom (Nd1 (pickn ix p.1)) (Nd2 (blockn ix p.2)) | p <- mcs].
Proof. by move=> hx; elim: mcs => //= p l IH; rewrite componentE // bindE IH bindE. Qed.
Lemma mapM_truth n ix xs (vs : seq 'cV[R]_n) : all (fun i => (i < n)%N) ix -> forall2 (fun x v => x = Nd2 v^T) xs vs ->
  mapM (component_true ix) xs = Ok [seq Nd1 (pickn ix v) | v <- vs].
Proof. by move=> hx h; apply: (mapM_F2 _ h) => a c ->; apply: component_trueE. Qed.
Lemma rmse_map n k (f : 'cV[R]_n -> 'cV[R]_k) (c : 'M[R]_n -> 'M[R]_k) (mcs : seq ('cV[R]_n * 'M[R]_n)) (vs : seq 'cV[R]_n) :
  rmse illcond [seq Mom (Nd1 (f p.1)) (Nd2 (c p.2)) | p <- mcs] [seq Nd1 (f v) | v <- vs] =
  if zip mcs vs is [::] then Err Unsupported else Ok (Num.sqrt (average [seq dist2 (f p.1.1) (f p.2) | p <- zip mcs vs])).
Proof.
have h1 : forall2 (tells illcond (n := k)) [seq Mom (Nd1 (f p.1)) (Nd2 (c p.2)) | p <- mcs] [seq f p.1 | p <- mcs] by apply: F2_map.
have h2 : forall2 (@holds R k) [seq Nd1 (f v) | v <- vs] [seq f v | v <- vs] by apply: F2_map => v; left.
rewrite (rmse_value h1 h2).
have -> : errors [seq f p.1 | p <- mcs] [seq f v | v <- vs] = [seq dist2 (f p.1.1) (f p.2) | p <- zip mcs vs].
  by rewrite /errors; elim: (mcs) (vs) => [|a l IH] [|b l'] //=; rewrite IH.
by case: (zip mcs vs).
Qed.
Lemma nll_map n k (f : 'cV[R]_n -> 'cV[R]_k) (c : 'M[R]_n -> 'M[R]_k) (lp : 'cV[R]_k -> 'cV[R]_k -> 'M[R]_k -> R)
    (mcs : seq ('cV[R]_n * 'M[R]_n)) (vs : seq 'cV[R]_n) :
  (forall v m c x, posdef c -> holds x v -> logpdf x (Nd1 m) (Nd2 c) = Ok (lp v m c)) ->
  (forall p, p \in mcs -> posdef (c p.2)) ->
  nll illcond logpdf [seq Mom (Nd1 (f p.1)) (Nd2 (c p.2)) | p <- mcs] [seq Nd1 (f v) | v <- vs] =
  if zip mcs vs is [::] then Err Unsupported else Ok (average [seq - lp (f p.2) (f p.1.1) (c p.1.2) | p <- zip mcs vs]).
Proof.
move=> hl hp.
have h1 : forall2 (tells3 illcond (n := k)) [seq Mom (Nd1 (f p.1)) (Nd2 (c p.2)) | p <- mcs] [seq (f p.1, c p.2) | p <- mcs].
  elim: (mcs) hp => [|p l IH] hp; constructor; last by apply: IH => q hq; apply: hp; rewrite inE hq orbT.
  by split=> //; apply: hp; rewrite inE eqxx.
have h2 : forall2 (@holds R k) [seq Nd1 (f v) | v <- vs] [seq f v | v <- vs] by apply: F2_map => v; left.
rewrite (nll_value hl h1 h2).
have -> : [seq - lp p.2 p.1.1 p.1.2 | p <- zip [seq (f p.1, c p.2) | p <- mcs] [seq f v | v <- vs]] =
  [seq - lp (f p.2) (f p.1.1) (c p.1.2) | p <- zip mcs vs].
  by elim: (mcs) (vs) => [|a l IH] [|b l'] //=; rewrite IH.
by case: (mcs) (vs) => [|a l] [|b l'].
Qed.
Lemma pos_pick (v : 'cV[R]_5) : pickn [:: 0; 2]%N v = pick positions v.
Proof.
apply/matrixP => -[[|[|//]] hi] j; rewrite !mxE /= -(entE v _ 0) /positions inordK //.
Qed.
Lemma vel_pick (v : 'cV[R]_5) : pickn [:: 1; 3]%N v = pick velocities v.
Proof. by apply/matrixP => -[[|[|//]] hi] j; rewrite !mxE /= -(entE v _ 0) /velocities inordK. Qed.
Lemma ang_pick (v : 'cV[R]_5) : pickn [:: 4]%N v = pick turn_rate v.
Proof. by apply/matrixP => -[[|//] hi] j; rewrite !mxE /= -(entE v _ 0) /turn_rate inordK. Qed.
Lemma pos_block (v : 'M[R]_5) : blockn [:: 0; 2]%N v = block positions v.
Proof. by apply/matrixP => -[[|[|//]] hi] [[|[|//]] hj]; rewrite !mxE /= -entE /positions !inordK. Qed.
Lemma vel_block (v : 'M[R]_5) : blockn [:: 1; 3]%N v = block velocities v.
Proof. by apply/matrixP => -[[|[|//]] hi] [[|[|//]] hj]; rewrite !mxE /= -entE /velocities !inordK. Qed.
Lemma ang_block (v : 'M[R]_5) : blockn [:: 4]%N v = block turn_rate v.
Proof. by apply/matrixP => -[[|//] hi] [[|//] hj]; rewrite !mxE /= -entE /turn_rate !inordK. Qed.

Section Bott.
Variables (gs : seq gauss) (xs : seq nd) (mcs : seq ('cV[R]_5 * 'M[R]_5)) (vs : seq 'cV[R]_5).
Hypothesis h1 : forall2 (tells2 illcond (n := 5)) gs mcs.
Hypothesis h2 : forall2 (fun x (v : 'cV[R]_5) => x = Nd2 v^T) xs vs.
Definition comps k (ix : 'I_k -> 'I_5) : seq gauss := [seq Mom (Nd1 (pick ix p.1)) (Nd2 (block ix p.2)) | p <- mcs].
Definition truths k (ix : 'I_k -> 'I_5) : seq nd := [seq Nd1 (pick ix v) | v <- vs].
Lemma bottE : bott_metrics illcond logpdf gs xs =
  do pr <- rmse illcond (comps positions) (truths positions); do pn <- nll illcond logpdf (comps positions) (truths positions);
  do vr <- rmse illcond (comps velocities) (truths velocities); do vn <- nll illcond logpdf (comps velocities) (truths velocities);
  do ar <- rmse illcond (comps turn_rate) (truths turn_rate); do an <- nll illcond logpdf (comps turn_rate) (truths turn_rate);
  Ok (Bott pr pn vr vn ar an).
Proof.
have [e1 e2] := mapM_means h1.
rewrite /bott_metrics e1 bindE e2 bindE !mapM_comp // !(mapM_truth _ h2) // !bindE /comps /truths.
have E1 : [seq Mom (Nd1 (pickn [:: 0; 2]%N p.1)) (Nd2 (blockn [:: 0; 2]%N p.2)) | p <- mcs] = comps positions.
  by apply: eq_map => p; exact: (f_equal2 (fun a b => Mom (@Nd1 R 2 a) (@Nd2 R 2 2 b)) (pos_pick _) (pos_block _)).
have E2 : [seq Mom (Nd1 (pickn [:: 1; 3]%N p.1)) (Nd2 (blockn [:: 1; 3]%N p.2)) | p <- mcs] = comps velocities.
  by apply: eq_map => p; exact: (f_equal2 (fun a b => Mom (@Nd1 R 2 a) (@Nd2 R 2 2 b)) (vel_pick _) (vel_block _)).
have E3 : [seq Mom (Nd1 (pickn [:: 4]%N p.1)) (Nd2 (blockn [:: 4]%N p.2)) | p <- mcs] = comps turn_rate.
  by apply: eq_map => p; exact: (f_equal2 (fun a b => Mom (@Nd1 R 1 a) (@Nd2 R 1 1 b)) (ang_pick _) (ang_block _)).
have T1 : [seq Nd1 (pickn [:: 0; 2]%N v) | v <- vs] = truths positions by apply: eq_map => v; exact: (f_equal (@Nd1 R 2) (pos_pick _)).
have T2 : [seq Nd1 (pickn [:: 1; 3]%N v) | v <- vs] = truths velocities by apply: eq_map => v; exact: (f_equal (@Nd1 R 2) (vel_pick _)).
have T3 : [seq Nd1 (pickn [:: 4]%N v) | v <- vs] = truths turn_rate by apply: eq_map => v; exact: (f_equal (@Nd1 R 1) (ang_pick _)).
by rewrite E1 E2 E3 T1 T2 T3.
Qed.
End Bott.
Lemma bott_value (lp1 : 'cV[R]_1 -> 'cV[R]_1 -> 'M[R]_1 -> R) (lp2 : 'cV[R]_2 -> 'cV[R]_2 -> 'M[R]_2 -> R)
    gs xs (mcs : seq ('cV[R]_5 * 'M[R]_5)) (vs : seq 'cV[R]_5) :
  (forall v m c x, posdef c -> holds x v -> logpdf x (Nd1 m) (Nd2 c) = Ok (lp1 v m c)) ->
  (forall v m c x, posdef c -> holds x v -> logpdf x (Nd1 m) (Nd2 c) = Ok (lp2 v m c)) ->
  forall2 (tells3 illcond (n := 5)) gs mcs -> forall2 (fun x (v : 'cV[R]_5) => x = Nd2 v^T) xs vs -> zip mcs vs <> [::] ->
  bott_metrics illcond logpdf gs xs = Ok
    (Bott (Num.sqrt (average [seq dist2 (pick positions p.1.1) (pick positions p.2) | p <- zip mcs vs]))
          (average [seq - lp2 (pick positions p.2) (pick positions p.1.1) (block positions p.1.2) | p <- zip mcs vs])
          (Num.sqrt (average [seq dist2 (pick velocities p.1.1) (pick velocities p.2) | p <- zip mcs vs]))
          (average [seq - lp2 (pick velocities p.2) (pick velocities p.1.1) (block velocities p.1.2) | p <- zip mcs vs])
          (Num.sqrt (average [seq dist2 (pick turn_rate p.1.1) (pick turn_rate p.2) | p <- zip mcs vs]))
          (average [seq - lp1 (pick turn_rate p.2) (pick turn_rate p.1.1) (block turn_rate p.1.2) | p <- zip mcs vs])).
Proof.
move=> l1 l2 h0 h2 nz.
have h1 : forall2 (tells2 illcond (n := 5)) gs mcs by apply: F2_imp h0 => a c [].
have hp p : p \in mcs -> posdef p.2.
  elim: h0 => // g q l l' [_ pq] _ IH; rewrite inE => /orP [/eqP ->|]; [exact: pq | exact: IH].
have p1 p : p \in mcs -> posdef (block positions p.2) by move=> /hp h; have := @block_posdef 5 [:: 0; 2]%N isT _ isT h; rewrite pos_block.
have p2 p : p \in mcs -> posdef (block velocities p.2) by move=> /hp h; have := @block_posdef 5 [:: 1; 3]%N isT _ isT h; rewrite vel_block.
have p3 p : p \in mcs -> posdef (block turn_rate p.2) by move=> /hp h; have := @block_posdef 5 [:: 4]%N isT _ isT h; rewrite ang_block.
rewrite (bottE h1 h2) /comps /truths !rmse_map.
rewrite (nll_map (pick positions) (c := block positions) _ l2 p1) (nll_map (pick velocities) (c := block velocities) _ l2 p2).
rewrite (nll_map (pick turn_rate) (c := block turn_rate) _ l1 p3).
by case: (zip mcs vs) nz => // a l _; rewrite !bindE.
Qed.
Lemma dist2_pick5 (u v : 'cV[R]_5) :
  dist2 (pick positions u) (pick positions v) + dist2 (pick velocities u) (pick velocities v) +
  dist2 (pick turn_rate u) (pick turn_rate v) = dist2 u v.
Proof. by rewrite -(pick_partition u v) !pos_pick !vel_pick !ang_pick. Qed.
Lemma bott_parts gs xs (mcs : seq ('cV[R]_5 * 'M[R]_5)) (vs : seq 'cV[R]_5) b :
  forall2 (tells2 illcond (n := 5)) gs mcs -> forall2 (fun x (v : 'cV[R]_5) => x = Nd2 v^T) xs vs ->
  bott_metrics illcond logpdf gs xs = Ok b ->
  exists2 r, rmse illcond gs xs = Ok r & pos_rmse b ^+ 2 + vel_rmse b ^+ 2 + ang_rmse b ^+ 2 = r ^+ 2.
Proof.
move=> h1 h2; rewrite (bottE h1 h2) /comps /truths !rmse_map.
have g1 : forall2 (tells illcond (n := 5)) gs [seq p.1 | p <- mcs].
  by elim: h1 => [|g p l l' [e _] _ IH] /=; constructor.
have g2 : forall2 (@holds R 5) xs vs by apply: F2_imp h2 => a c ->; right.
have E : errors [seq p.1 | p <- mcs] vs = [seq dist2 p.1.1 p.2 | p <- zip mcs vs].
  by rewrite /errors; elim: (mcs) (vs) => [|a l IH] [|c l'] //=; rewrite IH.
have avg0 k (f : 'cV[R]_5 -> 'cV[R]_k) : 0 <= average [seq dist2 (f p.1.1) (f p.2) | p <- zip mcs vs].
  by rewrite /average divr_ge0 ?ler0n // big_seq sumr_ge0 // => x /mapP [p _ ->]; exact: dist2_ge0.
have S : average [seq dist2 (pick positions p.1.1) (pick positions p.2) | p <- zip mcs vs] +
  average [seq dist2 (pick velocities p.1.1) (pick velocities p.2) | p <- zip mcs vs] +
  average [seq dist2 (pick turn_rate p.1.1) (pick turn_rate p.2) | p <- zip mcs vs] = average (errors [seq p.1 | p <- mcs] vs).
  rewrite E /average !big_map !size_map -!mulrDl -!big_split /=; congr (_ / _).
  by apply: eq_bigr => p _; apply: dist2_pick5.
have nz : 0 <= average (errors [seq p.1 | p <- mcs] vs) by apply: average_ge0.
rewrite (rmse_value g1 g2); move: S nz; rewrite E.
case: (zip mcs vs) avg0 => [|a l] avg0 S nz; first by [].
rewrite bindE; case: (nll _ _ _ _) => // pn; rewrite bindE bindE; case: (nll _ _ _ _) => // vn.
rewrite bindE bindE; case: (nll _ _ _ _) => // an; rewrite bindE => /Ok_inj <-.
eexists; first by reflexivity.
by rewrite /pos_rmse /vel_rmse /ang_rmse !sqr_sqrtr //; apply: avg0.
Qed.
Lemma zip_surplus A B (a a' : seq A) (b b' : seq B) : size a = size b -> a' = [::] \/ b' = [::] -> zip (a ++ a') (b ++ b') = zip a b.
Proof.
elim: a b => [|x a IH] [|y b] //=; first by move=> _ [] -> //; [case: b' | case: a'].
by case=> e h; rewrite IH.
Qed.
Lemma rmse_surplus (gs gs' : seq gauss) xs xs' : size gs = size xs -> gs' = [::] \/ xs' = [::] ->
  rmse illcond (gs ++ gs') (xs ++ xs') = rmse illcond gs xs.
Proof. by move=> e h; rewrite /rmse zip_surplus. Qed.
Lemma bott_flat n gs xs (mcs : seq ('cV[R]_5 * 'M[R]_5)) (v : 'cV[R]_n) :
  forall2 (tells2 illcond (n := 5)) gs mcs -> bott_metrics illcond logpdf gs (Nd1 v :: xs) = Err IndexErr.
Proof. by move=> h; have [e1 e2] := mapM_means h; rewrite /bott_metrics e1 bindE e2 bindE !mapM_comp // !bindE. Qed.
End Facts.
