(** * The heap of caching objects refines the list of values (C71) *)
Set Warnings "-notation-overridden,-ambiguous-paths".
From mathcomp Require Import all_ssreflect all_algebra.
From Verif Require Import Base ND LinAlg Gauss GaussObj GaussObjFacts GaussLink Metrics GaussHeap SpecHeap.
Set Implicit Arguments.
Unset Strict Implicit.
Unset Printing Implicit Defensive.

Section Facts.
Variable R : rcfType.
Variable illcond : forall n, 'M[R]_n -> bool.
Notation nd := (nd R).
Notation gauss := (gauss R).
Variable logpdf : nd -> nd -> nd -> res R.
Notation read := (read (n2m_o illcond) (m2n_o illcond) (@chol_o R) (@shp0_o R)).
Notation reads := (reads (n2m_o illcond) (m2n_o illcond) (@chol_o R) (@shp0_o R)).
Notation hm := (hm R).
Notation none := (none R).

(** every object is the one that its value builds, after some reads *)
Definition like (o : obj nd) (g : gauss) := built g /\ exists l, o = reads l (obj_of g).
Definition g0 : gauss := as_factor 0.
Definition sim (h : heap R) (gs : seq gauss) := size h = size gs /\ forall i, i < size gs -> like (nth none h i) (nth g0 gs i).
Definition agree A (m : hm A) (r : seq gauss -> res A) := forall h gs, sim h gs -> sim (m h).1 gs /\ (m h).2 = r gs.

Lemma agree_bind A B (m : hm A) (f : A -> hm B) r q : agree m r -> (forall a, agree (f a) (q a)) ->
  agree (hbind m f) (fun gs => do a <- r gs; q a gs).
Proof.
move=> hm hf h gs s; rewrite /hbind; have [s1 e] := hm h gs s; rewrite e; case: (r gs) => [a|err] //=; exact: hf.
Qed.
Lemma agree_lift A (r : res A) : agree (lift r) (fun _ => r).
Proof. by move=> h gs s. Qed.
Lemma agree_ext A (m : hm A) r q : (forall gs, r gs = q gs) -> agree m r -> agree m q.
Proof. by move=> e hm h gs s; have [a b] := hm h gs s; rewrite b e. Qed.

Lemma at_in (gs : seq gauss) i : i < size gs -> at_ gs i = Ok (nth g0 gs i).
Proof. by move=> hi; rewrite /at_ (nth_map g0). Qed.
Lemma at_out (gs : seq gauss) i : (i < size gs) = false -> at_ gs i = Err IndexErr.
Proof. by move=> hi; rewrite /at_ nth_default // size_map leqNgt hi. Qed.
(** a computation with operands that exist *)
Definition agree1 A (m : hm A) (i : nat) (r : gauss -> res A) :=
  forall h gs, sim h gs -> i < size gs -> sim (m h).1 gs /\ (m h).2 = r (nth g0 gs i).
Definition agree2 A (m : hm A) (i j : nat) (r : gauss -> gauss -> res A) :=
  forall h gs, sim h gs -> i < size gs -> j < size gs -> sim (m h).1 gs /\ (m h).2 = r (nth g0 gs i) (nth g0 gs j).
Lemma agree1_bind A B (m : hm A) (f : A -> hm B) i r q : agree1 m i r -> (forall a, agree1 (f a) i (q a)) ->
  agree1 (hbind m f) i (fun g => do a <- r g; q a g).
Proof.
move=> hm hf h gs s hi; rewrite /hbind; have [s1 e] := hm h gs s hi; rewrite e; case: (r _) => [a|err] //=; exact: hf.
Qed.
Lemma agree1_lift A (r : res A) i : agree1 (lift r) i (fun _ => r).
Proof. by move=> h gs s. Qed.
Lemma agree2_bind A B (m : hm A) (f : A -> hm B) i j r q : agree2 m i j r -> (forall a, agree2 (f a) i j (q a)) ->
  agree2 (hbind m f) i j (fun g g' => do a <- r g g'; q a g g').
Proof.
move=> hm hf h gs s hi hj; rewrite /hbind; have [s1 e] := hm h gs s hi hj; rewrite e; case: (r _ _) => [a|err] //=; exact: hf.
Qed.
Lemma agree2_lift A (r : res A) i j : agree2 (lift r) i j (fun _ _ => r).
Proof. by move=> h gs s. Qed.
Lemma agree2_l A (m : hm A) i j r : agree1 m i r -> agree2 m i j (fun g _ => r g).
Proof. by move=> hm h gs s hi hj; exact: hm. Qed.
Lemma agree2_r A (m : hm A) i j r : agree1 m j r -> agree2 m i j (fun _ g => r g).
Proof. by move=> hm h gs s hi hj; exact: hm. Qed.

(** reading *)
Lemma reads_rcons l a o : reads (rcons l a) o = (read a (reads l o)).1.
Proof. by rewrite /GaussObj.reads foldl_rcons. Qed.
Lemma agree_attribute a i : agree1 (attribute illcond a i) i (fun g => value illcond g a).
Proof.
move=> h gs [sz hs] hi; have [hb [l e]] := hs i hi; rewrite /attribute /=; split; last by rewrite e read_value.
split=> [|j hj]; first by rewrite size_set_nth sz; apply/maxn_idPr.
rewrite nth_set_nth /=; case: (j =P i) => [->|_]; last exact: hs.
by split=> //; exists (rcons l a); rewrite reads_rcons e.
Qed.
Definition arr (g : gauss) (a : attr) : res nd := do o <- value illcond g a; if o is OV (Some v) then Ok v else Err TypeErr.
Lemma agree_array a i : agree1 (array illcond a i) i (fun g => arr g a).
Proof. apply: agree1_bind => [|o]; [exact: agree_attribute|exact: agree1_lift]. Qed.
Lemma arr_mean g : arr g AMean = g_mean illcond g. Proof. by rewrite /arr /=; case: (g_mean _ _). Qed.
Lemma arr_cov g : arr g ACov = g_cov illcond g. Proof. by rewrite /arr /=; case: (g_cov _ _). Qed.
Lemma arr_prec g : arr g APrec = g_precision illcond g. Proof. by rewrite /arr /=; case: (g_precision _ _). Qed.
Lemma arr_shift g : arr g AShift = g_shift illcond g. Proof. by rewrite /arr /=; case: (g_shift _ _). Qed.
Definition arrE := (arr_mean, arr_cov, arr_prec, arr_shift).

(** creating: the new object is the one of the new value *)
Definition makes (m : hm nat) (h : heap R) (gs : seq gauss) (r : res gauss) :=
  match r with
  | Ok g => sim (m h).1 (rcons gs g) /\ (m h).2 = Ok (size gs)
  | Err e => sim (m h).1 gs /\ (m h).2 = Err e
  end.
Definition makes2 (m : hm nat) (i j : nat) (r : gauss -> gauss -> res gauss) :=
  forall h gs, sim h gs -> i < size gs -> j < size gs -> makes m h gs (r (nth g0 gs i) (nth g0 gs j)).
Lemma sim_alloc h gs o g : sim h gs -> like o g -> sim (rcons h o) (rcons gs g).
Proof.
move=> [sz hs] hl; split=> [|i]; first by rewrite !size_rcons sz.
rewrite size_rcons ltnS => hi; rewrite !nth_rcons sz; move: hi; rewrite leq_eqVlt; case/orP=> [/eqP->|hi].
  by rewrite ltnn eqxx.
by rewrite hi; exact: hs.
Qed.
Lemma like_moment m c : like (init (@natleast1 R) (Some m) (Some c) None None) (gaussian m c).
Proof. by split; [left; exists m, c|exists [::]; rewrite /= natleast1_idem]. Qed.
Lemma like_natural p s : like (init (@natleast1 R) None None (Some p) (Some s)) (from_natural p s).
Proof. by split; [right; exists p, s|exists [::]; rewrite /= natleast1_idem]. Qed.
Lemma new_moment_sim m c h gs : sim h gs -> sim (new_moment m c h).1 (rcons gs (gaussian m c)) /\ (new_moment m c h).2 = Ok (size gs).
Proof. by move=> s; split; [exact: sim_alloc s (like_moment m c)|rewrite /= s.1]. Qed.
Lemma new_natural_sim p q h gs : sim h gs -> sim (new_natural p q h).1 (rcons gs (from_natural p q)) /\ (new_natural p q h).2 = Ok (size gs).
Proof. by move=> s; split; [exact: sim_alloc s (like_natural p q)|rewrite /= s.1]. Qed.
Lemma makes2_bind A (m : hm A) (f : A -> hm nat) i j r q : agree2 m i j r -> (forall a, makes2 (f a) i j (q a)) ->
  makes2 (hbind m f) i j (fun g g' => do a <- r g g'; q a g g').
Proof.
move=> hm hf h gs s hi hj; have [s1 e] := hm h gs s hi hj; rewrite /makes /hbind e; case: (r _ _) => [a|err] //=.
exact: (hf a (m h).1 gs s1 hi hj).
Qed.
Lemma makes2_natural p s i j : makes2 (new_natural p s) i j (fun _ _ => Ok (from_natural p s)).
Proof. by move=> h gs hs _ _; exact: new_natural_sim. Qed.
Lemma makes2_moment m c i j : makes2 (new_moment m c) i j (fun _ _ => Ok (gaussian m c)).
Proof. by move=> h gs hs _ _; exact: new_moment_sim. Qed.
Lemma makes2_ext m i j r q : (forall a b, r a b = q a b) -> makes2 m i j r -> makes2 m i j q.
Proof. by move=> e hm h gs s hi hj; rewrite -e; exact: hm. Qed.

Lemma mul_makes i j : makes2 (o_mul illcond i j) i j (gmul illcond).
Proof.
apply: makes2_ext; last first.
  apply: makes2_bind; first exact/agree2_l/agree_array.
  move=> pa; apply: makes2_bind; first exact/agree2_r/agree_array.
  move=> pb; apply: makes2_bind; first exact: agree2_lift.
  move=> p0; apply: makes2_bind; first exact: agree2_lift.
  move=> p; apply: makes2_bind; first exact/agree2_l/agree_array.
  move=> sa; apply: makes2_bind; first exact/agree2_r/agree_array.
  move=> sb; apply: makes2_bind; first exact: agree2_lift.
  move=> s; exact: makes2_natural.
by move=> a b; rewrite /= !arrE.
Qed.
Lemma div_makes i j : makes2 (o_div illcond i j) i j (gdiv illcond).
Proof.
apply: makes2_ext; last first.
  apply: makes2_bind; first exact/agree2_l/agree_array.
  move=> pa; apply: makes2_bind; first exact/agree2_r/agree_array.
  move=> pb; apply: makes2_bind; first exact: agree2_lift.
  move=> p; apply: makes2_bind; first exact/agree2_l/agree_array.
  move=> sa; apply: makes2_bind; first exact/agree2_r/agree_array.
  move=> sb; apply: makes2_bind; first exact: agree2_lift.
  move=> s; exact: makes2_natural.
by move=> a b; rewrite /= !arrE.
Qed.
Lemma pow_makes i x : makes2 (o_pow illcond i x) i i (fun a _ => gpow illcond a x).
Proof.
apply: makes2_ext; last first.
  apply: makes2_bind; first exact/agree2_l/agree_array.
  move=> p; apply: makes2_bind; first exact/agree2_l/agree_array.
  move=> s; exact: makes2_natural.
by move=> a b; rewrite /= !arrE.
Qed.
(** the mode of an object never changes *)
Lemma read_mode a o : o_mode (read a o).1 = o_mode o.
Proof.
case: a; rewrite /= /get_dim /get_chol /get_mean /get_cov /get_prec /get_shift;
  case: o => m c [d|] p s [] [l|]; case: m => [m|]; case: c => [c|]; case: p => [p|]; case: s => [s|] //=;
  try (by case: (natural_to_moment _ _ _)); try (by case: (moment_to_natural _ _ _)); try (by case: (shape0 _));
  try (by case: (sp_cholesky _ _)).
all: try by case: (natural_to_moment _ _ _) => [[x y]|e] //=; case: (sp_cholesky _ _).
Qed.
Lemma reads_mode l o : o_mode (reads l o) = o_mode o.
Proof. by elim/last_ind: l => // l a ih; rewrite reads_rcons read_mode. Qed.
Lemma copy_makes i : makes2 (o_copy illcond i) i i (fun a _ => Ok a).
Proof.
move=> h gs s hi hj; have [hb [l e]] := s.2 i hi; rewrite /makes /o_copy e reads_mode.
have [[m [c eg]]|[p [q eg]]] := hb.
- have hh : makes2 (hbind (array illcond AMean i) (fun m => hbind (array illcond ACov i) (fun c => new_moment m c))) i i
    (fun a _ => do m <- g_mean illcond a; do c <- g_cov illcond a; Ok (gaussian m c)).
    apply: makes2_ext; last first.
      apply: makes2_bind; first exact/agree2_l/agree_array.
      move=> m'; apply: makes2_bind; first exact/agree2_l/agree_array.
      move=> c'; exact: makes2_moment.
    by move=> a b; rewrite /= !arrE.
  by move: (hh h gs s hi hj); rewrite eg /= /makes /= /gaussian natleast1_idem.
- have hh : makes2 (hbind (array illcond APrec i) (fun m => hbind (array illcond AShift i) (fun c => new_natural m c))) i i
    (fun a _ => do m <- g_precision illcond a; do c <- g_shift illcond a; Ok (from_natural m c)).
    apply: makes2_ext; last first.
      apply: makes2_bind; first exact/agree2_l/agree_array.
      move=> m'; apply: makes2_bind; first exact/agree2_l/agree_array.
      move=> c'; exact: makes2_natural.
    by move=> a b; rewrite /= !arrE.
  by move: (hh h gs s hi hj); rewrite eg /= /makes /= /from_natural natleast1_idem.
Qed.

(** one command *)
Definition step_ok (c : cmd R) := forall h gs, sim h gs ->
  let r := exec illcond logpdf c h in let v := vstep illcond logpdf gs c in sim r.1 v.1 /\ r.2 = v.2.
Lemma say_makes (m : hm nat) h gs r : makes m h gs r ->
  sim (say (ANew R) m h).1 (match r with Ok g => rcons gs g | Err _ => gs end) /\
  (say (ANew R) m h).2 = (match r with Ok g => Ok (ANew R (size gs)) | Err e => Err e end).
Proof. by rewrite /makes /say /hbind; case: r => [g|e] [s ->]. Qed.
Lemma say1 A (m : hm A) (f : A -> answer R) i r : agree1 m i r -> agree1 (say f m) i (fun g => do o <- r g; Ok (f o)).
Proof. by move=> hm; apply: agree1_bind hm _ => a; exact: agree1_lift. Qed.
Lemma say2 A (m : hm A) (f : A -> answer R) i j r : agree2 m i j r -> agree2 (say f m) i j (fun g g' => do o <- r g g'; Ok (f o)).
Proof. by move=> hm; apply: agree2_bind hm _ => a; exact: agree2_lift. Qed.
Lemma name_bind A i (m : hm A) h : hbind (@name R i) (fun _ => m) h = if i < size h then m h else (h, Err IndexErr).
Proof. by rewrite /hbind /name /=; case: (i < size h). Qed.
Lemma step_correct c : step_ok c.
Proof.
case: c => [m v|p q|dim|dim|i j|i j|i x|i|a i|i j|i x|i x|i] h gs s /=.
- exact: (say_makes (r := Ok (gaussian m v)) (new_moment_sim m v s)).
- exact: (say_makes (r := Ok (from_natural p q)) (new_natural_sim p q s)).
- exact: (say_makes (r := Ok (as_factor dim)) (new_natural_sim _ _ s)).
- exact: (say_makes (r := Ok (as_marginal dim)) (new_moment_sim _ _ s)).
- rewrite !name_bind s.1 /vstep /=; case hi: (i < size gs); last by rewrite (at_out hi).
  case hj: (j < size gs); last by rewrite (at_out hj) (at_in hi).
  rewrite ?(at_in hi) ?(at_in hj) /bind; have := say_makes (mul_makes s hi hj); by case: (gmul _ _ _).
- rewrite !name_bind s.1 /vstep /=; case hi: (i < size gs); last by rewrite (at_out hi).
  case hj: (j < size gs); last by rewrite (at_out hj) (at_in hi).
  rewrite ?(at_in hi) ?(at_in hj) /bind; have := say_makes (div_makes s hi hj); by case: (gdiv _ _ _).
- rewrite !name_bind s.1 /vstep /=; case hi: (i < size gs); last by rewrite (at_out hi).
  rewrite ?(at_in hi) ?(at_in hj) /bind; have := say_makes (pow_makes x s hi hi); by case: (gpow _ _ _).
- rewrite !name_bind s.1 /vstep /=; case hi: (i < size gs); last by rewrite (at_out hi).
  rewrite ?(at_in hi) ?(at_in hj) /=; exact: (say_makes (copy_makes s hi hi)).
- rewrite !name_bind s.1 /vstep /=; case hi: (i < size gs); last by rewrite (at_out hi).
  rewrite ?(at_in hi) ?(at_in hj) /=; by have := @say1 _ _ (@AOut R) i _ (@agree_attribute a i) h gs s hi.
- rewrite !name_bind s.1 /vstep /=; case hi: (i < size gs); last by rewrite (at_out hi).
  case hj: (j < size gs); last by rewrite (at_out hj) (at_in hi).
  rewrite ?(at_in hi) ?(at_in hj) /=.
  have hh : agree2 (o_eq illcond i j) i j (geq illcond).
    have h2 : agree2 (o_eq illcond i j) i j (fun a b => do ma <- arr a AMean; do mb <- arr b AMean; do me <- allclose ma mb;
      do ca <- arr a ACov; do cb <- arr b ACov; do ce <- allclose ca cb; Ok (me && ce)).
      apply: agree2_bind; first exact/agree2_l/agree_array.
      move=> ma; apply: agree2_bind; first exact/agree2_r/agree_array.
      move=> mb; apply: agree2_bind; first exact: agree2_lift.
      move=> me; apply: agree2_bind; first exact/agree2_l/agree_array.
      move=> ca; apply: agree2_bind; first exact/agree2_r/agree_array.
      move=> cb; apply: agree2_bind; first exact: agree2_lift.
      move=> ce; exact: agree2_lift.
    move=> h' gs' s' hi' hj'; have [s2 e2] := h2 h' gs' s' hi' hj'; split=> //; rewrite e2 /geq.
    by rewrite !arrE.
  by have := @say2 _ _ (ABool R) i j _ hh h gs s hi hj.
- rewrite !name_bind s.1 /vstep /=; case hi: (i < size gs); last by rewrite (at_out hi).
  rewrite ?(at_in hi) ?(at_in hj) /=.
  have hh : agree1 (o_nll illcond logpdf i x) i (fun g => g_nll illcond logpdf g x).
    have h2 : agree1 (o_nll illcond logpdf i x) i (fun a => do m <- arr a AMean; do c <- arr a ACov; do l <- logpdf x m c; Ok (- l)%R).
      apply: agree1_bind; first exact: agree_array.
      move=> ma; apply: agree1_bind; first exact: agree_array.
      move=> mb; apply: agree1_bind; first exact: agree1_lift.
      move=> ce; exact: agree1_lift.
    move=> h' gs' s' hi'; have [s2 e2] := h2 h' gs' s' hi'; split=> //; rewrite e2 /g_nll.
    by rewrite !arrE.
  by have := @say1 _ _ (@ANum R) i _ hh h gs s hi.
- rewrite !name_bind s.1 /vstep /=; case hi: (i < size gs); last by rewrite (at_out hi).
  rewrite ?(at_in hi) ?(at_in hj) /=.
  have hh : agree1 (o_squared_error illcond i x) i (fun g => g_squared_error illcond g x).
    have h2 : agree1 (o_squared_error illcond i x) i (fun a => do m <- arr a AMean; do d <- nsub m x; Ok (nsumsq d)).
      apply: agree1_bind; first exact: agree_array.
      move=> ma; apply: agree1_bind; first exact: agree1_lift.
      move=> ce; exact: agree1_lift.
    move=> h' gs' s' hi'; have [s2 e2] := h2 h' gs' s' hi'; split=> //; rewrite e2 /g_squared_error.
    by rewrite !arrE.
  by have := @say1 _ _ (@ANum R) i _ hh h gs s hi.
- rewrite !name_bind s.1 /vstep /=; case hi: (i < size gs); last by rewrite (at_out hi).
  rewrite ?(at_in hi) ?(at_in hj) /=.
  have hh : agree1 (o_validate illcond i) i (gvalidate illcond).
    have h2 : agree1 (o_validate illcond i) i (fun a => do c <- arr a ACov; validate_cov c).
      apply: agree1_bind; first exact: agree_array.
      move=> ce; exact: agree1_lift.
    move=> h' gs' s' hi'; have [s2 e2] := h2 h' gs' s' hi'; split=> //; rewrite e2 /gvalidate.
    by rewrite !arrE.
  by have := @say1 _ _ (fun=> ADone R) i _ hh h gs s hi.
Qed.

(** programs *)
Lemma run_sim prog n : sim (run illcond logpdf prog n).1 (vrun illcond logpdf prog n).1 /\
  (run illcond logpdf prog n).2 = (vrun illcond logpdf prog n).2.
Proof.
elim: n => [|n [s e]] /=; first by split.
by have [s' e'] := step_correct (prog (run illcond logpdf prog n).2) s; rewrite -e; split=> //; rewrite e'.
Qed.
Lemma run_values prog n : (run illcond logpdf prog n).2 = (vrun illcond logpdf prog n).2.
Proof. by case: (run_sim prog n). Qed.

(** straight-line programs *)
Definition vplay (l : seq (cmd R)) (gs : seq gauss) : seq gauss * seq (res (answer R)) :=
  foldl (fun st c => let r := vstep illcond logpdf st.1 c in (r.1, rcons st.2 r.2)) (gs, [::]) l.
Lemma vplay_rcons l c gs : vplay (rcons l c) gs = let st := vplay l gs in let r := vstep illcond logpdf st.1 c in (r.1, rcons st.2 r.2).
Proof. by rewrite /vplay foldl_rcons. Qed.
Lemma size_vplay l gs : size (vplay l gs).2 = size l.
Proof. by elim/last_ind: l => // l c ih; rewrite vplay_rcons /= !size_rcons ih. Qed.
Lemma vrun_script l n : n <= size l -> vrun illcond logpdf (script l) n = vplay (take n l) [::].
Proof.
elim: n => [|n ih] hn; first by rewrite take0.
rewrite [LHS]/= ih; last exact: ltnW.
rewrite (take_nth (KFactor R 0) hn) vplay_rcons /= /script size_vplay size_take hn //.
Qed.
Lemma vplay_cat l1 l2 gs : vplay (l1 ++ l2) gs = let st := vplay l1 gs in let st' := vplay l2 st.1 in (st'.1, st.2 ++ st'.2).
Proof.
elim/last_ind: l2 => [|l2 c ih]; first by rewrite cats0 /= cats0; case: (vplay l1 gs).
by rewrite -rcons_cat vplay_rcons ih; cbv zeta; rewrite vplay_rcons; cbv zeta; rewrite -rcons_cat.
Qed.
Lemma vplay_cons c l gs gs' a : vstep illcond logpdf gs c = (gs', a) -> (vplay (c :: l) gs).2 = a :: (vplay l gs').2.
Proof. by move=> e; rewrite -cat1s vplay_cat /= e. Qed.
Lemma run_script l : (run illcond logpdf (script l) (size l)).2 = (vplay l [::]).2.
Proof. by rewrite run_values vrun_script // take_size. Qed.
Lemma vstep_query gs c : query c -> (vstep illcond logpdf gs c).1 = gs.
Proof. by case: c. Qed.
Lemma query_free l1 c l2 : query c ->
  let a := (run illcond logpdf (script (l1 ++ l2)) (size (l1 ++ l2))).2 in
  let b := (run illcond logpdf (script (l1 ++ c :: l2)) (size (l1 ++ c :: l2))).2 in
  a = take (size l1) b ++ drop (size l1).+1 b.
Proof.
move=> hc /=; rewrite !run_values !vrun_script // !take_size !vplay_cat /=.
rewrite -[c :: l2]cat1s vplay_cat /= vstep_query // take_size_cat ?size_vplay //.
by rewrite -add1n -drop_drop drop_size_cat ?size_vplay //= drop0.
Qed.
(** values stay *)
Lemma vstep_prefix gs c : exists t, (vstep illcond logpdf gs c).1 = gs ++ t.
Proof.
rewrite /vstep; case: (creates _ _ _) => [[g|e]|]; first by exists [:: g]; rewrite cats1.
- by exists [::]; rewrite cats0.
- by exists [::]; rewrite cats0.
Qed.
Lemma vrun_prefix prog n k : exists t, (vrun illcond logpdf prog (n + k)).1 = (vrun illcond logpdf prog n).1 ++ t.
Proof.
elim: k => [|k [t e]]; first by exists [::]; rewrite addn0 cats0.
rewrite addnS /= e; have [t' ->] := vstep_prefix ((vrun illcond logpdf prog n).1 ++ t) (prog (vrun illcond logpdf prog (n + k)).2).
by exists (t ++ t'); rewrite catA.
Qed.
Lemma at_cat (gs t : seq gauss) i : i < size gs -> at_ (gs ++ t) i = at_ gs i.
Proof. by move=> hi; rewrite !at_in ?size_cat ?nth_cat ?hi // ltn_addr. Qed.
Lemma asks_cat gs t c : query c -> (forall i, i \in used c -> i < size gs) -> asks illcond logpdf (gs ++ t) c = asks illcond logpdf gs c.
Proof.
case: c => //= [a i|i j|i x|i x|i] _ h; rewrite ?(at_cat t (h i _)) ?(at_cat t (h j _)) ?inE ?eqxx ?orbT //.
Qed.
Lemma query_later prog n k c : query c -> (forall i, i \in used c -> i < size (run illcond logpdf prog n).1) ->
  (exec illcond logpdf c (run illcond logpdf prog (n + k)).1).2 = (exec illcond logpdf c (run illcond logpdf prog n).1).2.
Proof.
move=> hq hu; have [s1 _] := run_sim prog n; have [s2 _] := run_sim prog (n + k).
have [_ ->] := step_correct c s1; have [_ ->] := step_correct c s2.
have [t ->] := vrun_prefix prog n k; move: hu; rewrite s1.1 => hu.
have e gs : (vstep illcond logpdf gs c).2 = asks illcond logpdf gs c by case: c hq {hu}.
by rewrite !e asks_cat.
Qed.
End Facts.
