(** * Which rows the notebooks find, in which order *)
Set Warnings "-notation-overridden,-ambiguous-paths".
From mathcomp Require Import all_ssreflect all_algebra.
From Coq Require Import String.
From Verif Require Import Base ND Database FullSweep SpecDb DatabaseFacts SweepFacts Display SpecDisplay DisplayFacts DisplayReport.
From Verif Require Import Notebook SpecNotebook.
Set Implicit Arguments.
Unset Strict Implicit.
Unset Printing Implicit Defensive.
Import GRing.Theory Num.Theory Order.Theory.
Local Open Scope string_scope.
Local Open Scope ring_scope.

(** ** lists in order *)
Lemma map_pick (A B : eqType) (K : A -> B) (G : seq A) (L : seq B) : {subset L <= map K G} -> exists2 G', L = map K G' & {subset G' <= G}.
Proof.
elim: L => [|x L IH] h; first by exists [::].
have /mapP[g hg ->] := h x (mem_head _ _).
have [|G' -> hs] := IH; first by move=> y hy; apply: h; rewrite inE hy orbT.
by exists (g :: G') => // y; rewrite inE => /orP[/eqP->|/hs].
Qed.
Lemma in_order (T : eqType) (K : T -> seq val) (le : rel T) (G : seq T) (L : seq (seq val)) :
  transitive le -> antisymmetric le -> injective K -> {in G &, forall a b, key_le (K a) (K b) = le a b} ->
  {subset L <= map K G} -> {subset map K G <= L} -> uniq L -> uniq G -> sorted key_le L -> sorted le G -> L = map K G.
Proof.
move=> ht ha hi hk h1 h2 uL uG sL sG; have [G' e hs] := map_pick h1; rewrite e; congr map.
have uG' : uniq G' by move: uL; rewrite e map_inj_uniq.
have hp : perm_eq G' G.
  apply: uniq_perm => // x; apply/idP/idP; first exact: hs.
  by move=> hx; have := h2 (K x) (map_f _ hx); rewrite e mem_map.
have sG' : sorted le G'.
  move: sL; rewrite e sorted_map => sL.
  rewrite -(@eq_in_sorted _ (mem G) (relpre K key_le) le) //; last by apply/allP.
exact: (sorted_eq ht ha sG' sG hp).
Qed.
Definition lexi (a b : rat * rat) : bool := if a.1 == b.1 then a.2 <= b.2 else a.1 <= b.1.
Lemma lexi_trans : transitive lexi.
Proof.
move=> [b1 b2] [a1 a2] [c1 c2]; rewrite /lexi /=.
case: (ltgtP a1 b1) => // [h1|<-]; last by case: (a1 == c1) => // h; apply: le_trans h.
case: (ltgtP b1 c1) => // [h2|<-]; last by rewrite (lt_eqF h1) (ltW h1).
by rewrite (lt_eqF (lt_trans h1 h2)) (ltW (lt_trans h1 h2)).
Qed.
Lemma lexi_anti : antisymmetric lexi.
Proof.
move=> [a1 a2] [b1 b2]; rewrite /lexi /=; case: (ltgtP a1 b1) => //= e h.
by rewrite e (le_anti h).
Qed.
Lemma grid_sorted (ps ds : seq rat) : sorted <%R ps -> sorted <%R ds -> sorted lexi [seq (p, q) | p <- ps, q <- ds].
Proof.
have row p (l : seq rat) : sorted <%R l -> sorted lexi [seq (p, q) | q <- l].
  rewrite sorted_map; apply: sub_sorted => a b /= h; by rewrite /lexi /= eqxx ltW.
move=> hp hd; rewrite sorted_pairwise; last exact: lexi_trans.
elim: ps hp => //= p ps IH hp.
rewrite pairwise_cat IH ?(path_sorted hp) // andbT -sorted_pairwise; last exact: lexi_trans.
rewrite row // andbT; apply/allrelP => x y /mapP[q hq ->] /allpairsP[[p' q'] [/= h1 h2 ->]].
have : p < p' by move/(order_path_min lt_trans)/allP: hp; apply.
by rewrite /lexi /= => h; rewrite (lt_eqF h) ltW.
Qed.
Lemma nth_grid (T1 T2 S : Type) (f : T1 -> T2 -> S) x0 y0 z0 (xs : seq T1) (ys : seq T2) i j :
  (i < size xs)%N -> (j < size ys)%N -> nth z0 [seq f x y | x <- xs, y <- ys] (i * size ys + j) = f (nth x0 xs i) (nth y0 ys j).
Proof.
move=> hi hj; elim: xs i hi => //= x xs IH [|i] hi.
  by rewrite nth_cat size_map mul0n add0n hj (nth_map y0).
rewrite mulSn -addnA nth_cat size_map ltnNge leq_addr /= addKn; exact: IH.
Qed.

(** ** the order of sqlite is total *)
Lemma val_total : total val_le.
Proof.
move=> [|x|x|x] [|y|y|y] //=; rewrite ?le_total ?leq_total //.
by rewrite (String.compare_antisym x y); case: (String.compare y x).
Qed.
Lemma key_total : total key_le.
Proof.
elim=> [|x a IH] [|y b] //=; rewrite eq_sym; case: eqP => _; [exact: IH | exact: val_total].
Qed.

(** ** the columns of the table of results *)
Section Table.
Variable t : table.
Hypothesis cols : tcols t = exp_cols.
Hypothesis key : tkey t = exp_key.
Lemma keyofE r : keyof t r = [:: cell t r "Transform"; cell t r "Seed"; cell t r "Iter"; cell t r "Power"; cell t r "Damping"].
Proof. by rewrite /keyof key. Qed.
Lemma result_inj tr s i p q tr' s' i' p' q' : result_key tr s i p q = result_key tr' s' i' p' q' -> [/\ tr = tr', s = s', i = i', p = p' & q = q'].
Proof. by case=> -> /eqP e1 /eqP e2 -> ->; split=> //; apply/eqP; [rewrite -(eqr_int [numDomainType of rat]) | rewrite -(eqr_nat [numDomainType of rat])]. Qed.
Lemma result_full tr s i p q : VNull \notin result_key tr s i p q. Proof. by []. Qed.
End Table.

(** ** the rows found *)
Section Found.
Variable scan : cond -> table -> seq row.
Hypothesis scans : any_order scan.
Definition found (t : table) (cs : cond) : seq row := [seq r <- scan cs t | holds t r cs].
Lemma mem_found t cs r : (r \in found t cs) = (r \in trows t) && holds t r cs.
Proof. by rewrite mem_filter (perm_mem (scans cs t)) andbC. Qed.
Lemma found_uniq t cs : unique_keys t -> (forall r, r \in found t cs -> VNull \notin keyof t r) -> uniq (map (keyof t) (found t cs)).
Proof.
move=> hu hn.
have hp : perm_eq (map (keyof t) (found t cs)) (map (keyof t) [seq r <- trows t | holds t r cs]) by apply/perm_map/perm_filter.
rewrite (perm_uniq hp); apply: (subseq_uniq _ hu).
rewrite subseq_filter map_subseq ?filter_subseq // andbT; apply/allP => k /mapP[r hr ->]; apply: hn.
by rewrite mem_found; move: hr; rewrite mem_filter andbC.
Qed.
Lemma select_found d name t cols cs : lookup d name = Some t -> all (mem (tcols t)) (cols ++ map fst cs) ->
  select_cols scan d name cols cs = Ok [seq [seq cell t r c | c <- cols] | r <- found t cs].
Proof. by move=> hl hc; rewrite /select_cols hl hc. Qed.

(** in the order of the index, from the keys that are stored *)
Lemma listed_index (T : eqType) (K : T -> seq val) (le : rel T) (G : seq T) t cs : index_order scan -> unique_keys t ->
  transitive le -> antisymmetric le -> injective K -> {in G &, forall a b, key_le (K a) (K b) = le a b} ->
  (forall g, g \in G -> VNull \notin K g) ->
  (forall r, r \in trows t -> holds t r cs -> exists2 g, g \in G & keyof t r = K g) ->
  (forall g, g \in G -> exists2 r, r \in trows t & holds t r cs /\ keyof t r = K g) ->
  uniq G -> sorted le G -> map (keyof t) (found t cs) = map K G.
Proof.
move=> hio hu ht ha hi hk hn h1 h2 uG sG; apply: (in_order ht ha hi hk) => //.
- by move=> k /mapP[r]; rewrite mem_found => /andP[hr hc] ->; have [g hg ->] := h1 r hr hc; apply: map_f.
- move=> k /mapP[g hg ->]; have [r hr [hc <-]] := h2 g hg; apply: map_f; by rewrite mem_found hr.
- apply: found_uniq => // r; rewrite mem_found => /andP[hr hc]; have [g hg ->] := h1 r hr hc; exact: hn.
- exact: hio.
Qed.
End Found.

(** ** the images *)
Section Image.
Variable scan : cond -> table -> seq row.
Hypothesis scans : any_order scan.
Variables (d : db) (name : string) (t : table).
Hypothesis here : lookup d name = Some t.
Hypothesis cols : tcols t = exp_cols.
Hypothesis key : tkey t = exp_key.
Notation found := (found scan t).
Notation cellsof r := [:: cell t r "RMSE"; cell t r "NLL"; cell t r "Power"; cell t r "Damping"].
Lemma select_image tr s it : select_cols scan d name [:: "RMSE"; "NLL"; "Power"; "Damping"] (image_cond tr s it) =
  Ok [seq cellsof r | r <- found (image_cond tr s it)].
Proof. by rewrite (select_found _ here) //= cols. Qed.
Definition img (rs : seq row) (c : string) : 'M[val]_(19, 19) := \matrix_(i, j) nth VNull [seq cell t r c | r <- rs] (i * 19 + j).
Lemma image_found tr s it : make_image_data scan d name tr s it =
  let rs := found (image_cond tr s it) in
  if size rs == 361%N then Ok (Images (img rs "RMSE") (img rs "NLL") (img rs "Power") (img rs "Damping")) else Err ValueErr.
Proof.
rewrite /make_image_data select_image bindE; move: (found _) => rs.
have cE k : column k [seq cellsof r | r <- rs] = [seq nth VNull (cellsof r) k | r <- rs] by rewrite /column -map_comp.
case e: rs => [//|r rs']; rewrite -e.
have -> : forall A (x y : A), (if [seq cellsof r | r <- rs] is [::] then x else y) = y by rewrite e.
rewrite !cE /reshape !size_map; case: ifP => // _; by rewrite !bindE.
Qed.
Notation shows := (shows t).
Lemma image_listed tr (s : int) it (ps ds : seq rat) : size ps = 19%N -> size ds = 19%N ->
  map (keyof t) (found (image_cond tr (VNum s%:~R) it)) = [seq result_key tr s it g.1 g.2 | g <- [seq (p, q) | p <- ps, q <- ds]] ->
  exists2 im, make_image_data scan d name tr (VNum s%:~R) it = Ok im & shows im tr s it ps ds.
Proof.
move=> hp hd; rewrite image_found /=; set rs := found _ => e.
have hs : size rs = 361%N by rewrite -(size_map (keyof t)) e size_map size_allpairs hp hd.
rewrite hs eqxx; eexists; first reflexivity; move=> i j.
have hk : (i * 19 + j < size rs)%N by rewrite hs; apply: (@leq_trans (i * 19 + 19)); [rewrite ltn_add2l | rewrite -mulSnr (leq_mul2r 19 i.+1 19) ltn_ord].
have hr : nth [::] rs (i * 19 + j) \in trows t.
  by have := mem_nth [::] hk; rewrite /rs mem_found // => /andP[].
have hK : keyof t (nth [::] rs (i * 19 + j)) = result_key tr s it (nth 0 ps i) (nth 0 ds j).
  rewrite -(nth_map _ [::] _ hk) e (nth_map (0, 0)); last by move: hk; rewrite size_allpairs hp hd hs.
  have := @nth_grid _ _ _ (fun p q : rat => (p, q)) 0 0 (0, 0) ps ds i j; rewrite hp hd => -> //.
have := hK; rewrite keyofE // => -[_ _ _ h4 h5].
rewrite /= !mxE !(nth_map [::]) //; split=> //.
by exists (nth [::] rs (i * 19 + j)).
Qed.
Lemma holds_image tr (s : int) it r : holds t r (image_cond tr (VNum s%:~R) it) =
  [&& cell t r "Transform" == VText tr, cell t r "Seed" == VNum s%:~R & cell t r "Iter" == VNum it%:R].
Proof. by rewrite /holds /= andbT. Qed.
(** ** any history, read in the order of the index *)
Lemma image_index tr (s : int) it (ps ds : seq rat) : index_order scan -> unique_keys t ->
  size ps = 19%N -> size ds = 19%N -> sorted <%R ps -> sorted <%R ds ->
  (forall p q, p \in ps -> q \in ds -> exists m, recorded t (result_key tr s it p q) m) ->
  (forall r, r \in trows t -> holds t r (image_cond tr (VNum s%:~R) it) ->
     exists p q, [/\ p \in ps, q \in ds & keyof t r = result_key tr s it p q]) ->
  exists2 im, make_image_data scan d name tr (VNum s%:~R) it = Ok im & shows im tr s it ps ds.
Proof.
move=> hio hu hp hd sp sd h1 h2; apply: image_listed => //.
apply: (@listed_index scan scans _ (fun g => result_key tr s it g.1 g.2) lexi) => //.
- exact: lexi_trans.
- exact: lexi_anti.
- by move=> [a b] [a' b'] /result_inj [_ _ _ /= -> ->].
- move=> [a b] [a' b'] _ _; rewrite /result_key /key_le !eqxx /lexi [(a, b).1]/= [(a', b').1]/= -[VNum a == VNum a']/(a == a').
  by case: eqP => // _; rewrite -[VNum b == VNum b']/(b == b'); case: eqP => [->|] //=; rewrite lexx.
- by move=> r hr hc; have [p [q [i1 i2 i3]]] := h2 r hr hc; exists (p, q) => //; apply/allpairsP; exists (p, q).
- move=> g /allpairsP[[p q] [i1 i2 ->]]; have [m [r hr [i3 _ _]]] := h1 p q i1 i2; exists r => //; split=> //.
  by rewrite holds_image; move: i3; rewrite keyofE // => -[-> -> -> _ _]; rewrite !eqxx.
- by apply: allpairs_uniq => [||[a b] [a' b'] _ _ /= [-> ->]] //; apply: (sorted_uniq lt_trans ltxx).
- exact: grid_sorted.
Qed.
End Image.

(** ** the rows of complete runs, in the order in which they were stored *)
Section Stored.
Variable t : table.
Hypothesis cols : tcols t = exp_cols.
Hypothesis key : tkey t = exp_key.
Definition key_at (c : cfg) (k : nat) : seq val := result_key (c_trans c) (c_seed c) k (c_power c) (c_damp c).
Lemma row_key c ms k : (k < size ms)%N -> keyof t (nth [::] (rows_of c ms) k) = key_at c k.+1.
Proof. by move=> hk; rewrite keyofE // /rows_of rows_nth // /cell cols /= add0r. Qed.
Lemma logged_keys (ok : cfg -> nat -> bool) cs (l : seq (cfg * seq (val * val))) :
  (forall r c k, keyof t r = key_at c k -> holds t r cs = ok c k) ->
  map (keyof t) [seq r <- logged_rows l | holds t r cs] =
  flatten [seq [seq key_at cl.1 k | k <- iota 1 (size cl.2) & ok cl.1 k] | cl <- l].
Proof.
move=> hok; elim: l => //= -[c ms] l IH; rewrite /logged_rows /= filter_cat map_cat -/(logged_rows l) IH.
congr cat.
rewrite -{1}(mkseq_nth [::] (rows_of c ms)) /mkseq /rows_of rows_size -/(rows_of c ms) filter_map -map_comp.
have -> : iota 1 (size ms) = map (addn 1) (iota 0 (size ms)) by rewrite -iotaDl.
rewrite filter_map -map_comp.
have e : {in iota 0 (size ms), preim (nth [::] (rows_of c ms)) (fun r => holds t r cs) =1 preim (addn 1) (ok c)}.
  by move=> k; rewrite mem_iota add0n /= => hk; rewrite (hok _ c k.+1) ?row_key.
rewrite (eq_in_filter e); apply/eq_in_map => k; rewrite mem_filter mem_iota add0n /= => /andP[_ hk].
by rewrite row_key.
Qed.
(** one iteration of several settings *)
Lemma logged_at (P : cfg -> bool) it cs (l : seq (cfg * seq (val * val))) : (0 < it)%N ->
  (forall r c k, keyof t r = key_at c k -> holds t r cs = P c && (k == it)) ->
  (forall cl, cl \in l -> P cl.1 -> (it <= size cl.2)%N) ->
  map (keyof t) [seq r <- logged_rows l | holds t r cs] = [seq key_at c it | c <- map fst l & P c].
Proof.
move=> hi hok hs; rewrite (logged_keys _ hok); elim: l hs => //= -[c ms] l IH hs.
rewrite IH => [|cl hcl]; last by apply: hs; rewrite inE hcl orbT.
case: ifP => /= hP; last by rewrite (eq_filter (a2 := pred0)) ?filter_pred0 // => k; rewrite /= hP.
have := hs _ (mem_head _ _) hP => /= hle.
by rewrite (filter_pred1_uniq (x := it)) ?iota_uniq // mem_iota hi /= add1n ltnS.
Qed.
(** all iterations of one setting *)
Lemma logged_setting c0 cs (l : seq (cfg * seq (val * val))) :
  (forall r c k, keyof t r = key_at c k -> holds t r cs = (c == c0)) -> uniq (map fst l) ->
  map (keyof t) [seq r <- logged_rows l | holds t r cs] = [seq key_at c0 k | k <- iota 1 (size (run_of l c0))].
Proof.
move=> hok; rewrite (logged_keys _ (ok := fun c _ => c == c0) hok) => {hok}.
have sameE c : [&& c_seed c == c_seed c0, c_trans c == c_trans c0, c_power c == c_power c0 & c_damp c == c_damp c0] = (c == c0).
  by case: c => a b c e; case: c0 => a' b' c' e' /=; apply/and4P/eqP => [[/eqP-> /eqP-> /eqP-> /eqP->]|[-> -> -> ->]].
rewrite /run_of; elim: l => [//|[c ms] l IH] /= /andP[hn hu]; rewrite sameE.
case: eqP => [e|/eqP ne] /=; last by rewrite filter_pred0 /= IH.
rewrite e in hn *; rewrite filter_predT.
have -> : flatten [seq [seq key_at cl.1 k | k <- iota 1 (size cl.2) & cl.1 == c0] | cl <- l] = [::]; last by rewrite cats0.
elim: l hn {IH hu} => //= cl l IH; rewrite inE negb_or eq_sym => /andP[/negbTE -> /IH ->].
by rewrite filter_pred0.
Qed.
End Stored.
