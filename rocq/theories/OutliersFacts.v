(** * Facts about remove_outliers *)
Set Warnings "-notation-overridden,-ambiguous-paths".
From Coq Require Import Ring Field Lia.
From mathcomp Require Import all_ssreflect all_algebra.
From Verif Require Import Base FieldTac Outliers SpecOutliers.
Set Implicit Arguments.
Unset Strict Implicit.
Unset Printing Implicit Defensive.
Import GRing.Theory Num.Theory Order.Theory.
Local Open Scope ring_scope.

Ltac nl := subst; apply/ssrnat.leP; rewrite -?multE -?plusE -?minusE; lia.

Section Facts.
Variable R : rcfType.
Add Field fieldR : (ffth R).
Implicit Types (x s : seq R) (v : R).

(** ** quartiles: the position in quarters *)
Definition lerp (S : nat -> R) (m h : nat) : R := S (h %/ 4)%N + (S (minn (h %/ 4).+1 m) - S (h %/ 4)%N) * ((h %% 4)%:R / 4%:R).
Lemma percentileE x c : percentile x (25 * c) = lerp (nth 0 (sort <=%R x)) (size x).-1 ((size x).-1 * c).
Proof.
rewrite /percentile /lerp mulnCA; set h := ((size x).-1 * c)%N; have e : (25 * h %/ 100 = h %/ 4)%N by rewrite -[100%N]/(25 * 4)%N divnMl.
have e2 : (25 * h %% 100 = 25 * (h %% 4))%N by rewrite -[100%N]/(25 * 4)%N -muln_modr.
have e3 : (100%:R = 25%:R * 4%:R :> R) by rewrite -natrM.
rewrite e e2 e3 natrM; congr (_ + _ * _).
by rewrite invfM mulrACA divff ?mul1r // pnatr_eq0.
Qed.
Definition mono (S : nat -> R) (m : nat) := forall i j, (i <= j)%N -> (j <= m)%N -> S i <= S j.
Lemma sort_mono x : mono (nth 0 (sort <=%R x)) (size x).-1.
Proof.
move=> i j hij hj; case: (posnP (size x)) => [e|n0].
  by rewrite !nth_default // size_sort e.
have hs : sorted <=%R (sort <=%R x) := sort_le_sorted x.
by apply: (sorted_leq_nth le_trans lexx 0 hs) => //; rewrite inE size_sort; [apply: leq_ltn_trans hij _|]; rewrite -(prednK n0) ltnS.
Qed.
Definition q1 x := percentile x 25.
Definition q3 x := percentile x 75.
Definition low x := q1 x - (3%:R / 2%:R) * (q3 x - q1 x).
Definition high x := q3 x + (3%:R / 2%:R) * (q3 x - q1 x).
Definition inlier x v := (low x <= v) && (v <= high x).

(** two neighbours and a weight *)
Lemma quart (S : nat -> R) m h : mono S m -> (h <= 4 * m)%N -> S (h %/ 4)%N <= lerp S m h <= S (minn (h %/ 4).+1 m).
Proof.
move=> hS hh; rewrite /lerp; have h4 : (h %/ 4 <= m)%N by rewrite -ltnS ltn_divLR // mulSn mulnC; apply: leq_ltn_trans hh _; rewrite -addn1 addnC leq_add.
have hd : 0 <= S (minn (h %/ 4).+1 m) - S (h %/ 4)%N by rewrite subr_ge0; apply: hS; rewrite ?geq_minr // leq_min leqnSn.
have w0 : 0 <= ((h %% 4)%:R / 4%:R : R) by rewrite divr_ge0 ?ler0n.
have w1 : ((h %% 4)%:R / 4%:R : R) <= 1 by rewrite ler_pdivr_mulr ?ltr0n // mul1r ler_nat ltnW // ltn_mod.
rewrite ler_addl mulr_ge0 //= -ler_subr_addl -[X in _ <= X]mulr1; exact: ler_wpmul2l.
Qed.

Lemma lerp4 (S : nat -> R) m k r : (r < 4)%N -> lerp S m (4 * k + r) = S k + (S (minn k.+1 m) - S k) * (r%:R / 4%:R).
Proof. by move=> hr; rewrite /lerp mulnC modnMDl modn_small // divnMDl // divn_small // addn0. Qed.
Lemma q1E x : q1 x = lerp (nth 0 (sort <=%R x)) (size x).-1 (size x).-1.
Proof. by rewrite -{2}[(size x).-1]muln1 -percentileE. Qed.
Lemma q3E x : q3 x = lerp (nth 0 (sort <=%R x)) (size x).-1 ((size x).-1 * 3).
Proof. by rewrite -percentileE. Qed.
Lemma lerp_step (S : nat -> R) m h : mono S m -> (h < 4 * m)%N -> lerp S m h <= lerp S m h.+1.
Proof.
move=> hS; have [k [r [-> hr]]] : exists k r, (h = 4 * k + r)%N /\ (r < 4)%N.
  by exists (h %/ 4)%N, (h %% 4)%N; rewrite [(4 * _)%N]mulnC -divn_eq ltn_mod.
move=> hh; have km : (k < m)%N by rewrite -(ltn_pmul2l (m := 4)) //; apply: leq_ltn_trans hh; apply: leq_addr.
have hm : minn k.+1 m = k.+1 by apply/minn_idPl.
have hd : 0 <= S k.+1 - S k by rewrite subr_ge0; apply: hS.
case: (ltnP r 3) => r3.
  by rewrite -addnS !lerp4 // hm ler_add2l ler_wpmul2l // ler_wpmul2r ?invr_ge0 ?ler0n // ler_nat.
have er : r = 3%N by apply/eqP; rewrite eqn_leq r3 -ltnS hr.
have -> : (4 * k + r).+1 = (4 * k.+1 + 0)%N by rewrite er addn0 mulnSr -addnS.
rewrite [X in _ <= X]lerp4 // mul0r mulr0 addr0; have [|_] := andP (@quart S m (4 * k + r) hS _); first exact: ltnW.
by rewrite mulnC divnMDl // divn_small // addn0 hm.
Qed.
Lemma lerp_mono (S : nat -> R) m h h' : mono S m -> (h <= h')%N -> (h' <= 4 * m)%N -> lerp S m h <= lerp S m h'.
Proof.
move=> hS; elim: h' => [|h' IH]; first by rewrite leqn0 => /eqP ->.
rewrite leq_eqVlt => /orP [/eqP -> //|lt] le; apply: le_trans (IH _ (ltnW le)) _ => //; exact: lerp_step.
Qed.
Lemma lerpS (S : nat -> R) m k : lerp S m (4 * k) = S k.
Proof. by rewrite -[(4 * k)%N]addn0 lerp4 // mul0r mulr0 addr0. Qed.
Lemma q13 x : q1 x <= q3 x.
Proof. by rewrite q1E q3E; apply: lerp_mono; [exact: sort_mono|exact: leq_pmulr|rewrite mulnC leq_mul2r orbT]. Qed.
Lemma low_q1 x : low x <= q1 x.
Proof. by rewrite /low ler_subl_addr ler_addl mulr_ge0 ?divr_ge0 ?ler0n // subr_ge0 q13. Qed.
Lemma q3_high x : q3 x <= high x.
Proof. by rewrite /high ler_addl mulr_ge0 ?divr_ge0 ?ler0n // subr_ge0 q13. Qed.
Lemma low_high x : low x <= high x.
Proof. exact: le_trans (low_q1 x) (le_trans (q13 x) (q3_high x)). Qed.

(** when the lower edge is still inside *)
Lemma edge (a t u w Q q : R) : 0 <= t -> 5%:R * u <= 3%:R * w -> q = a + t * u -> a + t * w <= Q -> q - (3%:R / 2%:R) * (Q - q) <= a.
Proof.
move=> t0 uw -> hQ; have n2 : (1 + 1 <> 0 :> R) by apply/eqP; rewrite -(natrD _ 1 1) pnatr_eq0.
apply: (@le_trans _ _ (a + t * u - 3%:R / 2%:R * (a + t * w - (a + t * u)))).
  by rewrite ler_add2l ler_opp2 ler_wpmul2l ?divr_ge0 ?ler0n // ler_add2r.
have -> : a + t * u - 3%:R / 2%:R * (a + t * w - (a + t * u)) = a - t * (3%:R * w - 5%:R * u) / 2%:R by fnorm R; field.
by rewrite ler_subl_addr ler_addl divr_ge0 ?ler0n // mulr_ge0 // subr_ge0.
Qed.
Lemma count_window (p : pred R) s i l : (forall k, (i <= k < i + l)%N -> p (nth 0 s k)) -> (i + l <= size s)%N -> (l <= count p s)%N.
Proof.
move=> hp hs; rewrite -(cat_take_drop i s) count_cat -(cat_take_drop l (drop i s)) count_cat.
apply: leq_trans (leq_addl _ _); apply: leq_trans (leq_addr _ _).
have hz : size (take l (drop i s)) = l by rewrite size_takel // size_drop leq_subRL // (leq_trans _ hs) // leq_addr.
rewrite -[X in (X <= _)%N]hz; suff : all p (take l (drop i s)) by rewrite all_count => /eqP ->.
apply/(all_nthP 0) => k; rewrite hz => hk; rewrite nth_take // nth_drop; apply: hp.
by rewrite leq_addr ltn_add2l.
Qed.
Lemma window x : (0 < size x)%N -> exists i l, [/\ (i + l <= size x)%N, (size x <= 2 * l)%N &
  forall k, (i <= k < i + l)%N -> inlier x (nth 0 (sort <=%R x) k)].
Proof.
move=> n0; have hS := @sort_mono x; have := q1E x; have := q3E x; have l1 := low_q1 x; have h3 := q3_high x.
have en : size x = (size x).-1.+1 by rewrite prednK.
have lowE : low x = q1 x - (3%:R / 2%:R) * (q3 x - q1 x) by [].
rewrite /inlier; move: (low x) (high x) l1 h3 lowE => lo hi; move: (q1 x) (q3 x) => Q1 Q3.
move: (nth 0 (sort <=%R x)) (size x).-1 en hS => S m -> hS l1 h3 lowE e3 e1.
have Sm : forall i j, (i <= j)%N -> (j <= m)%N -> S i <= S j by [].
have [k [r [em hr]]] : exists k r, (m = 4 * k + r)%N /\ (r < 4)%N.
  by exists (m %/ 4)%N, (m %% 4)%N; rewrite [(4 * _)%N]mulnC -divn_eq ltn_mod.
(* enough: the two ends *)
have ends : forall i j, (i <= j)%N -> (j <= m)%N -> (m < 2 * (j - i).+1)%N -> lo <= S i -> S j <= hi ->
  exists i l, [/\ (i + l <= m.+1)%N, (m.+1 <= 2 * l)%N & forall k, (i <= k < i + l)%N -> (lo <= S k) && (S k <= hi)].
  move=> i j hij hj hl hi1 hj1; exists i, (j - i).+1; rewrite addnS subnKC // ltnS; split=> // u /andP [iu uj].
  apply/andP; split; first by apply: le_trans hi1 (hS _ _ iu _); apply: leq_trans hj.
  by apply: le_trans (hS _ _ _ hj) hj1.
have up : forall j, (4 * j <= m * 3)%N -> S j <= hi.
  move=> j hj; apply: le_trans h3; rewrite e3 -(lerpS S m j); apply: lerp_mono => //.
  by rewrite mulnC leq_mul2r orbT.
have dn : forall i, (m <= 4 * i)%N -> (i <= m)%N -> lo <= S i.
  move=> i hi4 him; apply: le_trans l1 _; rewrite e1 -(lerpS S m i); apply: lerp_mono => //.
  by rewrite leq_mul2l him orbT.
case: r hr em => [|[|[|[|//]]]] _ em.
- by apply: (ends k (3 * k)%N); [nl|nl|nl|apply: dn; nl|apply: up; nl].
- have hlo : lo <= S k; last by apply: (ends k (3 * k)%N); [nl|nl|nl|by []|apply: up; nl].
  have t0 : 0 <= S k.+1 - S k by rewrite subr_ge0; apply: hS; nl.
  rewrite lowE; apply: (@edge _ (S k.+1 - S k) (1%:R / 4%:R) (3%:R / 4%:R)) => //.
  + by rewrite !mulrA -!natrM ler_wpmul2r ?invr_ge0 ?ler0n // ler_nat.
  + by rewrite e1 {2}em lerp4 //; have -> // : minn k.+1 m = k.+1 by apply/minn_idPl; nl.
  rewrite e3; case: k em t0 => [|k] em t0.
    have -> : (m * 3 = 4 * 0 + 3)%N by rewrite em.
    by rewrite lerp4 //; have -> // : minn 1 m = 1%N by rewrite em.
  apply: (@le_trans _ _ (lerp S m (4 * k.+2))); last by apply: lerp_mono => //; nl.
  rewrite lerpS -ler_subr_addl -[X in _ <= X]mulr1 ler_wpmul2l // ler_pdivr_mulr ?ltr0n // mul1r ler_nat //.
- have hlo : lo <= S k; last by apply: (ends k (3 * k).+1); [nl|nl|nl|by []|apply: up; nl].
  have t0 : 0 <= S k.+1 - S k by rewrite subr_ge0; apply: hS; nl.
  rewrite lowE; apply: (@edge _ (S k.+1 - S k) (2%:R / 4%:R) 1) => //.
  + by rewrite mulr1 mulrA -natrM ler_pdivr_mulr ?ltr0n // -natrM ler_nat.
  + by rewrite e1 {2}em lerp4 //; have -> // : minn k.+1 m = k.+1 by apply/minn_idPl; nl.
  rewrite e3 mulr1 addrC subrK -(lerpS S m k.+1); apply: lerp_mono => //; nl.
by apply: (ends k.+1 (3 * k).+2); [nl|nl|nl|apply: dn; nl|apply: up; nl].
Qed.

(** ** the indices and the kept values *)
Lemma mem_where (p : pred R) x i : (i%:Z \in where_ p x) = (i < size x)%N && p (nth 0 x i).
Proof.
rewrite /where_ mem_map; last by move=> a b [].
by rewrite mem_filter mem_iota add0n andbC.
Qed.
Lemma where_uniq (p : pred R) x : uniq (where_ p x).
Proof. by rewrite /where_ map_inj_uniq ?filter_uniq ?iota_uniq // => a b []. Qed.
Lemma where_nat (p : pred R) x (o : int) : o \in where_ p x -> exists2 i : nat, (i < size x)%N & o = i%:Z.
Proof. by move=> /mapP [i]; rewrite mem_filter mem_iota add0n => /andP [_ hi] ->; exists i. Qed.
Definition out_of x : seq int := where_ (fun v => high x < v) x ++ where_ (fun v => v < low x) x.
Lemma outliersE x : x <> [::] -> outliers x = Ok (out_of x).
Proof. by case: x. Qed.
Lemma mem_out x i : (i%:Z \in out_of x) = (i < size x)%N && ~~ inlier x (nth 0 x i).
Proof. by rewrite mem_cat !mem_where -andb_orr /inlier negb_and -!ltNge orbC. Qed.
Lemma out_uniq x : uniq (out_of x).
Proof.
rewrite cat_uniq !where_uniq /= andbT; apply/hasPn => o ho; have [i hi eo] := where_nat ho.
move: ho; rewrite eo /= mem_where hi /= => h; rewrite mem_where hi /= -leNgt; apply: le_trans (low_high x); exact: ltW.
Qed.
Lemma out_nat x (o : int) : o \in out_of x -> exists2 i : nat, (i < size x)%N & o = i%:Z.
Proof. by rewrite mem_cat => /orP []; exact: where_nat. Qed.
Definition kept x (out : seq int) : seq R := [seq nth 0 x i | i <- iota 0 (size x) & i%:Z \notin out].
Lemma keepE x out : keep x out = (if kept x out is [::] then Err IndexErr else Ok (kept x out)).
Proof. by rewrite /keep /kept; case: [seq i <- iota 0 (size x) | i%:Z \notin out]. Qed.
Lemma kept_filter x : kept x (out_of x) = [seq v <- x | inlier x v].
Proof.
rewrite -[X in [seq v <- X | _]](mkseq_nth 0 x) /mkseq filter_map; congr map; apply: eq_in_filter => i.
by rewrite mem_iota add0n /= => hi; rewrite mem_out hi /= negbK.
Qed.
Lemma half x : x <> [::] -> (size x <= 2 * size (kept x (out_of x)))%N.
Proof.
move=> nx; have [|i [l [h1 h2 h3]]] := @window x; first by case: x nx.
apply: leq_trans h2 _; rewrite leq_mul2l /= kept_filter size_filter -(permP (permEl (perm_sort <=%R x))).
by apply: (@count_window _ _ i) => //; rewrite size_sort.
Qed.
Lemma size_kept x : (size (out_of x) + size (kept x (out_of x)) = size x)%N.
Proof.
rewrite kept_filter size_filter -(count_predC (inlier x) x) addnC; congr addn.
rewrite /out_of size_cat /where_ !size_map !size_filter.
have cE (p : pred R) : count (fun i => p (nth 0 x i)) (iota 0 (size x)) = count p x.
  by rewrite -[X in _ = count _ X](mkseq_nth 0 x) /mkseq count_map.
rewrite (cE (fun v => high x < v)) (cE (fun v => v < low x)) -count_predUI addnC (@eq_count _ (predI _ _) pred0) ?count_pred0 ?add0n.
  by apply: eq_count => v /=; rewrite /inlier negb_and -!ltNge orbC.
move=> v /=; apply/negbTE; apply/negP => /andP [h1 h2].
by have := lt_le_trans (lt_trans h1 h2) (low_high x); rewrite ltxx.
Qed.
Lemma removeE x : x <> [::] -> remove_outliers x None false = Ok (Some (out_of x), kept x (out_of x)).
Proof.
move=> nx; rewrite /remove_outliers outliersE //; cbv beta iota; rewrite /bind keepE; have := half nx.
by case: (kept x (out_of x)) => //; rewrite muln0 leqn0 size_eq0 => /eqP.
Qed.
Lemma removed_extreme x i : (i < size x)%N -> i%:Z \in out_of x ->
  (forall w, w \in kept x (out_of x) -> w < nth 0 x i) \/ (forall w, w \in kept x (out_of x) -> nth 0 x i < w).
Proof.
move=> hi; rewrite mem_cat !mem_where hi /= kept_filter => /orP [h|h]; [left|right] => w; rewrite mem_filter => /andP [/andP [h1 h2] _].
  exact: le_lt_trans h2 h.
exact: lt_le_trans h h1.
Qed.

(** ** quartiles as averages of order statistics *)
Lemma lerp_avg (S : nat -> R) m h : (h <= 4 * m)%N -> lerp S m h = (\sum_(j < 4) S ((h + j) %/ 4)%N) / 4%:R.
Proof.
have [k [r [-> hr]]] : exists k r, (h = 4 * k + r)%N /\ (r < 4)%N.
  by exists (h %/ 4)%N, (h %% 4)%N; rewrite [(4 * _)%N]mulnC -divn_eq ltn_mod.
move=> hm; rewrite lerp4 // !big_ord_recl big_ord0 /= /bump /= addr0.
have e j : ((4 * k + r + j) %/ 4 = k + (r + j) %/ 4)%N by rewrite -addnA mulnC divnMDl.
rewrite !e; have n4 : ((1 + 1) * (1 + 1) <> 0 :> R) by apply/eqP; rewrite -(natrD _ 1 1) -natrM pnatr_eq0.
have hk : (0 < r)%N -> minn k.+1 m = k.+1.
  by move=> r0; apply/minn_idPl; rewrite -(ltn_pmul2l (m := 4)) //; apply: leq_trans hm; rewrite -[X in (X < _)%N]addn0 ltn_add2l.
case: r hr hm e hk => [|r] hr _ _ hk.
  by rewrite mul0r mulr0 addr0 /= !addn0; move: (S k) => a; rewrite -[LHS]mulr1; fnorm R; field; exact: n4.
rewrite hk // {hk}; case: r hr => [|[|[|//]]] _; rewrite /= ?addn0 ?addn1; move: (S k) (S k.+1) => a b.
- by fnorm R; field; exact: n4.
- by fnorm R; field; exact: n4.
by fnorm R; field; exact: n4.
Qed.

Lemma orderedE s x : ordered s x -> s = sort <=%R x.
Proof.
move=> [hs hp]; apply: (@sorted_eq _ <=%R) => //.
- exact: le_trans.
- exact: le_anti.
- exact: sort_le_sorted.
by rewrite perm_sym perm_sort perm_sym.
Qed.
Lemma sort_ordered x : ordered (sort <=%R x) x.
Proof. by split; [exact: sort_le_sorted|rewrite perm_sort]. Qed.
Lemma q1_spec s x : ordered s x -> q1 x = quartile s 1.
Proof. by move=> hs; rewrite q1E (orderedE hs) /quartile size_sort mul1n lerp_avg // leq_pmull. Qed.
Lemma q3_spec s x : ordered s x -> q3 x = quartile s 3.
Proof. by move=> hs; rewrite q3E (orderedE hs) /quartile size_sort [(3 * _)%N]mulnC lerp_avg // mulnC leq_mul2r orbT. Qed.
Lemma inlier_far s x v : ordered s x -> reflect (far s v) (~~ inlier x v).
Proof.
move=> hs; rewrite /inlier /low /high (q1_spec hs) (q3_spec hs) negb_and -!ltNge orbC; exact: orP.
Qed.
Lemma kept_others x out : kept x out = others x out.
Proof. by rewrite /kept filter_mask map_mask /others -[X in _ = mask _ X](mkseq_nth 0 x). Qed.

(** ** rearrangements *)
Lemma inlier_perm x x' v : perm_eq x x' -> inlier x v = inlier x' v.
Proof.
move=> hp; have h : ordered (sort <=%R x) x' by split; [exact: sort_le_sorted|rewrite perm_sort].
by rewrite /inlier /low /high !(q1_spec h) !(q3_spec h) !(q1_spec (sort_ordered x)) !(q3_spec (sort_ordered x)).
Qed.
Lemma kept_perm x x' : perm_eq x x' -> perm_eq (kept x (out_of x)) (kept x' (out_of x')).
Proof.
move=> hp; rewrite !kept_filter (@eq_filter _ (inlier x) (inlier x')); last by move=> v; apply: inlier_perm.
exact: perm_filter.
Qed.

(** ** affine maps *)
Definition aff (a b v : R) := a * v + b.
Lemma aff_le a b v w : 0 < a -> (aff a b v <= aff a b w) = (v <= w).
Proof. by move=> a0; rewrite ler_add2r ler_pmul2l. Qed.
Lemma aff_ge a b v w : a < 0 -> (aff a b v <= aff a b w) = (w <= v).
Proof. by move=> a0; rewrite ler_add2r ler_nmul2l. Qed.
Lemma quart_range c m j : (c <= 4)%N -> (j < 4)%N -> ((c * m + j) %/ 4 <= m)%N.
Proof.
move=> hc hj; rewrite -ltnS ltn_divLR // mulSn [(m * 4)%N]mulnC addnC -addSn leq_add // leq_mul2r hc orbT //.
Qed.
Lemma quartile_map a b s c : (c <= 4)%N -> (0 < size s)%N -> quartile [seq aff a b v | v <- s] c = aff a b (quartile s c).
Proof.
move=> hc n0; rewrite /quartile size_map /aff mulrA mulr_sumr -[b in RHS](mulfK (_ : 4%:R != 0)) ?pnatr_eq0 // -mulrDl; congr (_ / _).
have -> : b * 4%:R = \sum_(j < 4) b by rewrite sumr_const card_ord mulr_natr.
rewrite -big_split; apply: eq_bigr => j _; rewrite (nth_map 0) // -(prednK n0) ltnS; exact: quart_range.
Qed.
Lemma quartile_rev s c : (c <= 4)%N -> (0 < size s)%N -> quartile (rev s) c = quartile s (4 - c).
Proof.
move=> hc n0; rewrite /quartile size_rev; congr (_ / _); rewrite [RHS](reindex_inj rev_ord_inj); apply: eq_bigr => j _ /=.
have hj := ltn_ord j; move: (j : nat) hj => {}j hj; set m := (size s).-1; have hr := quart_range m hc hj.
rewrite nth_rev -(prednK n0) ?ltnS // subSS -/m; congr nth.
move: hr; have [u [v [e hv]]] : exists u v : nat, (c * m + j = 4 * u + v)%N /\ (v < 4)%N.
  by exists ((c * m + j) %/ 4)%N, ((c * m + j) %% 4)%N; rewrite [(4 * _)%N]mulnC -divn_eq ltn_mod.
rewrite e mulnC divnMDl // [(v %/ 4)%N]divn_small // addn0 => um.
have -> : ((4 - c) * m + (4 - j.+1) = (m - u) * 4 + (3 - v))%N; last by rewrite divnMDl // [((3 - v) %/ 4)%N]divn_small ?addn0 // ltnS leq_subr.
rewrite mulnBl mulnBl; have h1 : (c * m <= 4 * m)%N by rewrite leq_mul2r hc orbT.
move: e h1 um hv hj; move: (c * m)%N => h e /ssrnat.leP h1 /ssrnat.leP um /ssrnat.leP hv /ssrnat.leP hj.
by move: e h1; rewrite -?multE -?plusE -?minusE => e h1; lia.
Qed.
Lemma ordered_up a b s x : 0 < a -> ordered s x -> ordered [seq aff a b v | v <- s] [seq aff a b v | v <- x].
Proof.
move=> a0 [hs hp]; split; last exact: perm_map.
by rewrite (sorted_map (f := aff a b)) (eq_sorted (e' := <=%R)) // => v w; apply: aff_le.
Qed.
Lemma ordered_down a b s x : a < 0 -> ordered s x -> ordered (rev [seq aff a b v | v <- s]) [seq aff a b v | v <- x].
Proof.
move=> a0 [hs hp]; split; last by rewrite perm_rev; exact: perm_map.
by rewrite rev_sorted (sorted_map (f := aff a b)) (eq_sorted (e' := <=%R)) // => v w; apply: aff_ge.
Qed.
Lemma inlier_aff a b x v : a != 0 -> x <> [::] -> inlier [seq aff a b w | w <- x] (aff a b v) = inlier x v.
Proof.
move=> a0 nx; have n0 : (0 < size (sort <=%R x))%N by rewrite size_sort; case: x nx.
have hx := sort_ordered x; rewrite /inlier /low /high (q1_spec hx) (q3_spec hx).
have E (q p : R) : aff a b q - (3%:R / 2%:R) * (aff a b p - aff a b q) = aff a b (q - (3%:R / 2%:R) * (p - q)).
  by rewrite /aff; move: (3%:R / 2%:R) => u; fnorm R; ring.
have E' (q p : R) : aff a b p + (3%:R / 2%:R) * (aff a b p - aff a b q) = aff a b (p + (3%:R / 2%:R) * (p - q)).
  by rewrite /aff; move: (3%:R / 2%:R) => u; fnorm R; ring.
case: (ltgtP a 0) a0 => // ha _.
  have hy := ordered_down b ha hx; rewrite (q1_spec hy) (q3_spec hy) !quartile_rev ?size_map // !quartile_map //.
  have -> (p q : R) : aff a b p - (3%:R / 2%:R) * (aff a b q - aff a b p) = aff a b (p + (3%:R / 2%:R) * (p - q)).
    by rewrite /aff; move: (3%:R / 2%:R) => u; fnorm R; ring.
  have -> (p q : R) : aff a b p + (3%:R / 2%:R) * (aff a b p - aff a b q) = aff a b (p - (3%:R / 2%:R) * (q - p)).
    by rewrite /aff; move: (3%:R / 2%:R) => u; fnorm R; ring.
  by rewrite !aff_ge // andbC.
have hy := ordered_up b ha hx; rewrite (q1_spec hy) (q3_spec hy) !quartile_map // E E' !aff_le //.
Qed.
Lemma out_aff a b x i : a != 0 -> x <> [::] -> (i%:Z \in out_of [seq aff a b w | w <- x]) = (i%:Z \in out_of x).
Proof.
move=> a0 nx; rewrite !mem_out size_map; case: ltnP => //= hi; by rewrite (nth_map 0) // inlier_aff.
Qed.
Lemma kept_aff a b x : a != 0 -> x <> [::] -> kept [seq aff a b w | w <- x] (out_of [seq aff a b w | w <- x]) = [seq aff a b w | w <- kept x (out_of x)].
Proof.
by move=> a0 nx; rewrite !kept_filter filter_map; congr map; apply: eq_filter => v /=; apply: inlier_aff.
Qed.
Lemma out_perm a b x : a != 0 -> x <> [::] -> perm_eq (out_of x) (out_of [seq aff a b w | w <- x]).
Proof.
move=> a0 nx; apply: uniq_perm; rewrite ?out_uniq // => o; apply/idP/idP => ho; have [i hi eo] := out_nat ho.
  by move: ho; rewrite eo out_aff.
by move: ho; rewrite eo out_aff.
Qed.

(** ** short arrays *)
Lemma low_neg x : x <> [::] -> low [seq aff (-1) 0 w | w <- x] = aff (-1) 0 (high x).
Proof.
move=> nx; have n0 : (0 < size (sort <=%R x))%N by rewrite size_sort; case: x nx.
have hx := sort_ordered x; have ha : -1 < 0 :> R by rewrite ltrN10.
have hy := ordered_down 0 ha hx; rewrite /low /high (q1_spec hx) (q3_spec hx) (q1_spec hy) (q3_spec hy) !quartile_rev ?size_map // !quartile_map //.
rewrite -[(4 - 1)%N]/3%N -[(4 - 3)%N]/1%N; move: (quartile _ 1) (quartile _ 3) => p q.
by rewrite /aff; move: (3%:R / 2%:R) => u; fnorm R; ring.
Qed.
Lemma low_small x v : (size x <= 3)%N -> v \in x -> low x <= v.
Proof.
move=> n3 hv; have n0 : (0 < size x)%N by case: x hv {n3}.
have hS := @sort_mono x; have e1 := q1E x; have e3 := q3E x; have l1 := low_q1 x.
have lowE : low x = q1 x - (3%:R / 2%:R) * (q3 x - q1 x) by [].
have [j hj ->] : exists2 j : nat, (j <= (size x).-1)%N & v = nth 0 (sort <=%R x) j.
  exists (index v (sort <=%R x)); last by rewrite nth_index // mem_sort.
  by rewrite -ltnS prednK // -(size_sort <=%R x) index_mem mem_sort.
suff h0 : low x <= nth 0 (sort <=%R x) 0 by apply: le_trans h0 _; apply: hS.
have m2 : ((size x).-1 <= 2)%N by rewrite -ltnS prednK.
move: (nth 0 (sort <=%R x)) (size x).-1 (low x) (q1 x) (q3 x) m2 hS e1 e3 l1 lowE {hj n3 hv n0} => S m lo Q1 Q3 m2 hS e1 e3 l1 lowE.
case: m m2 hS e1 e3 => [|[|[|//]]] _ hS e1 e3.
- by apply: le_trans l1 _; rewrite e1 (@lerp4 S 0 0 0) // mul0r mulr0 addr0.
- have t0 : 0 <= S 1%N - S 0%N by rewrite subr_ge0; apply: hS.
  rewrite lowE; apply: (@edge _ (S 1%N - S 0%N) (1%:R / 4%:R) (3%:R / 4%:R)); first exact: t0.
  + by rewrite !mulrA -!natrM ler_wpmul2r ?invr_ge0 ?ler0n // ler_nat.
  + by rewrite e1 (@lerp4 S 1 0 1).
  by rewrite e3 (@lerp4 S 1 0 3).
have t0 : 0 <= S 1%N - S 0%N by rewrite subr_ge0; apply: hS.
rewrite lowE; apply: (@edge _ (S 1%N - S 0%N) (2%:R / 4%:R) 1); first exact: t0.
- by rewrite mulr1 mulrA -natrM ler_pdivr_mulr ?ltr0n // -natrM ler_nat.
- by rewrite e1 (@lerp4 S 2 0 2).
rewrite e3 mulr1 addrC subrK -(lerpS S 2 1); exact: lerp_mono.
Qed.
Lemma small x v : (size x <= 3)%N -> v \in x -> inlier x v.
Proof.
move=> n3 hv; have nx : x <> [::] by case: x hv {n3}.
rewrite /inlier low_small //=; have ha : -1 < 0 :> R by rewrite ltrN10.
rewrite -(@aff_ge (-1) 0) // -low_neg // low_small ?size_map //; exact: map_f.
Qed.
Lemma kept_all x : (forall v, v \in x -> inlier x v) -> kept x (out_of x) = x /\ out_of x = [::].
Proof.
move=> h; have k : kept x (out_of x) = x by rewrite kept_filter; apply/all_filterP/allP.
by split=> //; have := size_kept x; rewrite k => /eqP; rewrite -{2}[size x]add0n eqn_add2r size_eq0 => /eqP.
Qed.

(** ** given indices *)
Lemma remove_given x out y : remove_outliers x (Some out) false = Ok y <-> (others x out <> [::] /\ y = (Some out, others x out)).
Proof.
rewrite /remove_outliers /bind keepE -kept_others; case: (kept x out) => [|v k] /=; split=> //; first by case.
  by case=> <-.
by case=> _ ->.
Qed.
Lemma remove_given_err x out : others x out = [::] -> remove_outliers x (Some out) false = Err IndexErr.
Proof. by rewrite /remove_outliers /bind keepE -kept_others => ->. Qed.
Lemma others_nil x out : others x out = [::] <-> (forall i, (i < size x)%N -> i%:Z \in out).
Proof.
rewrite -kept_others /kept; split=> [|h].
  move=> /eqP; rewrite -size_eq0 size_map size_filter -leqn0 leqNgt -has_count => /hasPn h i hi.
  by have := h i; rewrite mem_iota add0n => /(_ hi); rewrite negbK.
apply/eqP; rewrite -size_eq0 size_map size_filter -leqn0 leqNgt -has_count; apply/hasPn => i.
by rewrite mem_iota add0n => hi; rewrite negbK h.
Qed.
End Facts.
