(** * Proofs about the caching Gaussian object *)
Set Warnings "-notation-overridden,-ambiguous-paths".
From mathcomp Require Import all_ssreflect.
From Verif Require Import Base GaussObj.
Set Implicit Arguments.
Unset Strict Implicit.
Unset Printing Implicit Defensive.

Section Facts.
Variable V : Type.
Variable al : V -> V.
Variable n2m : option V -> option V -> res (V * V).
Variable m2n : option V -> option V -> res (V * V).
Variable chol : option V -> res V.
Variable shp0 : option V -> res nat.
Notation obj := (obj V).
Notation init := (init al).
Notation read := (read n2m m2n chol shp0).
Notation reads := (reads n2m m2n chol shp0).
Notation copy := (copy al n2m m2n).

(** [o] is [o0] with some caches filled with what the solvers return on [o0]'s data *)
Record inv (o0 o : obj) : Prop := Inv {
  inv_mode : o_mode o = o_mode o0;
  inv_mc : (o_mean o = o_mean o0 /\ o_cov o = o_cov o0) \/
           [/\ o_mode o0 = MNatural, o_mean o0 = None, o_cov o0 = None &
               exists mc, [/\ n2m (o_prec o0) (o_shift o0) = Ok mc, o_mean o = Some mc.1 &
                              o_cov o = Some mc.2]];
  inv_ps : (o_prec o = o_prec o0 /\ o_shift o = o_shift o0) \/
           [/\ o_mode o0 = MMoment, o_prec o0 = None, o_shift o0 = None &
               exists ps, [/\ m2n (o_mean o0) (o_cov o0) = Ok ps, o_prec o = Some ps.1 &
                              o_shift o = Some ps.2]];
  inv_dim : o_dim o = None \/ exists2 d, o_dim o = Some d & (get_dim n2m m2n shp0 o0).2 = Ok d;
  inv_chol : o_chol o = None \/ exists2 l, o_chol o = Some l & (get_chol n2m chol o0).2 = Ok l }.

(** the shape of freshly constructed objects; [mixed] is the constructor call that passes
    both a mean and a shift but no covariance *)
Definition mixed (mean cov shift : option V) : bool :=
  isSome mean && isSome shift && ~~ isSome cov.

Definition fresh (o : obj) : Prop :=
  [/\ o_dim o = None, o_chol o = None &
   match o_mode o with
   | MNone => [/\ o_mean o = None, o_cov o = None, o_prec o = None & o_shift o = None]
   | MMoment => [/\ isSome (o_mean o), o_prec o = None & o_shift o = None]
   | MNatural => isSome (o_shift o) /\ isSome (o_mean o) = isSome (o_cov o)
   end].

Lemma init_fresh mean cov prec shift : ~~ mixed mean cov shift -> fresh (init mean cov prec shift).
Proof. by case: mean; case: cov; case: shift. Qed.

Lemma inv_refl o : fresh o -> inv o o.
Proof. by case=> hd hc _; split=> //; left. Qed.

Lemma get_prec_inv o0 o : fresh o0 -> inv o0 o ->
  inv o0 (get_prec m2n o).1 /\ (get_prec m2n o).2 = (get_prec m2n o0).2.
Proof.
case: o0 => m0 c0 d0 p0 s0 [] l0; case: o => m c d p s md l [/= hd hl hf] [/= hm hmc hps hdim hch];
  rewrite /get_prec hm /=.
- case: hps => [[hp hs]|[//]]; subst; split=> //=; split=> //=; by left.
- case: hf => hm0 hp0 hs0; subst p0 s0.
  case: hmc => [[hm1 hc1]|[//]]; subst m c.
  case: hps => [[hp hs]|[_ _ _ [ps [e hp hs]]]]; subst p s.
    case e: (m2n m0 c0) => [ps|er] //=; last by split=> //; split=> //=; left.
    split=> //; split=> //=; first by left.
    by right; split=> //; exists ps.
  rewrite e /=; split=> //; split=> //=; first by left.
  by right; split=> //; exists ps.
- case: hps => [[hp hs]|[//]]; subst; split=> //=; split=> //=; by left.
Qed.
Lemma get_shift_inv o0 o : fresh o0 -> inv o0 o ->
  inv o0 (get_shift m2n o).1 /\ (get_shift m2n o).2 = (get_shift m2n o0).2.
Proof.
case: o0 => m0 c0 d0 p0 s0 [] l0; case: o => m c d p s md l [/= hd hl hf] [/= hm hmc hps hdim hch];
  rewrite /get_shift hm /=.
- case: hps => [[hp hs]|[//]]; subst; split=> //=; split=> //=; by left.
- case: hf => hm0 hp0 hs0; subst p0 s0.
  case: hmc => [[hm1 hc1]|[//]]; subst m c.
  case: hps => [[hp hs]|[_ _ _ [ps [e hp hs]]]]; subst p s.
    case e: (m2n m0 c0) => [ps|er] //=; last by split=> //; split=> //=; left.
    split=> //; split=> //=; first by left.
    by right; split=> //; exists ps.
  rewrite e /=; split=> //; split=> //=; first by left.
  by right; split=> //; exists ps.
- case: hps => [[hp hs]|[//]]; subst; split=> //=; split=> //=; by left.
Qed.
Lemma get_mean_inv o0 o : fresh o0 -> inv o0 o ->
  inv o0 (get_mean n2m o).1 /\ (get_mean n2m o).2 = (get_mean n2m o0).2.
Proof.
case: o0 => m0 c0 d0 p0 s0 [] l0; case: o => m c d p s md l [/= hd hl hf] [/= hm hmc hps hdim hch];
  rewrite /get_mean hm /=.
- case: hmc => [[hp hs]|[//]]; subst; split=> //=; split=> //=; by left.
- case: hmc => [[hp hs]|[//]]; subst; split=> //=; split=> //=; by left.
- case: hps => [[hp1 hs1]|[//]]; subst p s.
  case: hf => hs0 hmc0; case: m0 c0 hdim hch hmc hmc0 => [m0|] [c0|] //= hdim hch hmc hmc0.
    case: hmc => [[hp hs]|[//]]; subst; split=> //=; split=> //=; by left.
  case: hmc => [[hp hs]|[_ _ _ [ps [e hp hs]]]]; subst m c.
    case e: (n2m p0 s0) => [ps|er] //=; last by split=> //; split=> //=; left.
    split=> //; split=> //=; last by left.
    by right; split=> //; exists ps.
  rewrite e /=; split=> //; split=> //=; last by left.
  by right; split=> //; exists ps.
Qed.
Lemma get_cov_inv o0 o : fresh o0 -> inv o0 o ->
  inv o0 (get_cov n2m o).1 /\ (get_cov n2m o).2 = (get_cov n2m o0).2.
Proof.
case: o0 => m0 c0 d0 p0 s0 [] l0; case: o => m c d p s md l [/= hd hl hf] [/= hm hmc hps hdim hch];
  rewrite /get_cov hm /=.
- case: hmc => [[hp hs]|[//]]; subst; split=> //=; split=> //=; by left.
- case: hmc => [[hp hs]|[//]]; subst; split=> //=; split=> //=; by left.
- case: hps => [[hp1 hs1]|[//]]; subst p s.
  case: hf => hs0 hmc0; case: m0 c0 hdim hch hmc hmc0 => [m0|] [c0|] //= hdim hch hmc hmc0.
    case: hmc => [[hp hs]|[//]]; subst; split=> //=; split=> //=; by left.
  case: hmc => [[hp hs]|[_ _ _ [ps [e hp hs]]]]; subst m c.
    case e: (n2m p0 s0) => [ps|er] //=; last by split=> //; split=> //=; left.
    split=> //; split=> //=; last by left.
    by right; split=> //; exists ps.
  rewrite e /=; split=> //; split=> //=; last by left.
  by right; split=> //; exists ps.
Qed.

Lemma get_dim_inv o0 o : fresh o0 -> inv o0 o ->
  inv o0 (get_dim n2m m2n shp0 o).1 /\ (get_dim n2m m2n shp0 o).2 = (get_dim n2m m2n shp0 o0).2.
Proof.
move=> f i; case: (inv_dim i) => [hd|[d hd hr]]; last by rewrite {1 2}/get_dim hd /=.
have hr0 := f; case: hr0 => hd0 _ _.
have [i1 r1] := get_shift_inv f i; have [i2 r2] := get_mean_inv f i.
have E : (get_dim n2m m2n shp0 o).2 = (get_dim n2m m2n shp0 o0).2.
  rewrite /get_dim hd hd0 (inv_mode i) /=.
  case: (o_mode o0) => /=.
  - by rewrite r2; case: (get_mean n2m o0).2 => //= v; case: (shp0 v).
  - by rewrite r2; case: (get_mean n2m o0).2 => //= v; case: (shp0 v).
  - by rewrite r1; case: (get_shift m2n o0).2 => //= v; case: (shp0 v).
split=> //; move: E; rewrite {1 3}/get_dim hd /=.
case: (o_mode o) => /=; [move: i2 | move: i2 | move: i1].
- case: (get_mean n2m o) => o' [] /=; last by [].
  by move=> v i'; case: (shp0 v) => //= d E; case: i' => *; split=> //=; right; exists d.
- case: (get_mean n2m o) => o' [] /=; last by [].
  by move=> v i'; case: (shp0 v) => //= d E; case: i' => *; split=> //=; right; exists d.
- case: (get_shift m2n o) => o' [] /=; last by [].
  by move=> v i'; case: (shp0 v) => //= d E; case: i' => *; split=> //=; right; exists d.
Qed.

Lemma get_chol_inv o0 o : fresh o0 -> inv o0 o ->
  inv o0 (get_chol n2m chol o).1 /\ (get_chol n2m chol o).2 = (get_chol n2m chol o0).2.
Proof.
move=> f i; case: (inv_chol i) => [hd|[d hd hr]]; last by rewrite {1 2}/get_chol hd /=.
have hr0 := f; case: hr0 => _ hd0 _.
have [i2 r2] := get_cov_inv f i.
have E : (get_chol n2m chol o).2 = (get_chol n2m chol o0).2.
  rewrite /get_chol hd hd0 /=.
  by rewrite r2; case: (get_cov n2m o0).2 => //= v; case: (chol v).
split=> //; move: E; rewrite {1 3}/get_chol hd /=; move: i2.
case: (get_cov n2m o) => o' [] /=; last by [].
by move=> v i'; case: (chol v) => //= d E; case: i' => *; split=> //=; right; exists d.
Qed.

Lemma read_inv o0 o a : fresh o0 -> inv o0 o ->
  inv o0 (read a o).1 /\ (read a o).2 = (read a o0).2.
Proof.
move=> f i; case: a => /=; rewrite /omap /=.
- by have [h ->] := get_mean_inv f i.
- by have [h ->] := get_cov_inv f i.
- by have [h ->] := get_prec_inv f i.
- by have [h ->] := get_shift_inv f i.
- by have [h ->] := get_dim_inv f i.
- by have [h ->] := get_chol_inv f i.
Qed.

Lemma reads_inv o0 l : fresh o0 -> inv o0 (reads l o0).
Proof.
move=> f; rewrite /reads; move: (inv_refl f).
elim: l {2 4}o0 => //= a l IH o i; apply: IH.
by have [] := read_inv a f i.
Qed.

Theorem reads_stable mean cov prec shift l a : ~~ mixed mean cov shift ->
  let o := init mean cov prec shift in (read a (reads l o)).2 = (read a o).2.
Proof. by move=> /init_fresh f /=; have [] := read_inv a (f prec) (reads_inv l (f prec)). Qed.

(** the corner that is excluded: a mean, a shift and no covariance *)
Lemma mixed_unstable (m s m' c' : V) prec : n2m prec (Some (al s)) = Ok (m', c') -> m' <> al m ->
  let o := init (Some m) None prec (Some s) in
  (read AMean o).2 = Ok (OV (Some (al m))) /\
  (read AMean (reads [:: ACov] o)).2 = Ok (OV (Some m')).
Proof. by move=> h ne; rewrite /= /get_cov /= h. Qed.

(** ** copy *)
Hypothesis al_idem : forall v, al (al v) = al v.

(** objects built from a mean and covariance only, or from a precision and shift only *)
Definition pure_init (o : obj) : Prop :=
  (exists m c, o = init (Some m) c None None) \/ (exists p s, o = init None None p (Some s)).

Lemma pure_init_fresh o : pure_init o -> fresh o.
Proof. by case=> [[m [c ->]]|[p [s ->]]]; apply: init_fresh; rewrite /mixed ?andbF. Qed.

Lemma pure_init_copy o : pure_init o -> copy o = (o, Ok o).
Proof. by case=> [[m [c ->]]|[p [s ->]]]; rewrite /copy /= /init /= bindE bindE al_idem. Qed.

Lemma copy_inv o0 o : pure_init o0 -> inv o0 o -> copy o = (o, Ok o0).
Proof.
move=> hp; case: o => m c d p s md l.
case: hp => [[m0 [c0 ->]]|[p0 [s0 ->]]] [/= -> hmc hps _ _]; rewrite /copy /=.
  case: hmc => [[-> ->]|[//]]; rewrite /get_mean /get_cov /= bindE bindE /init /=.
  by rewrite al_idem.
case: hps => [[-> ->]|[//]]; rewrite /get_prec /get_shift /= bindE bindE /init /=.
by rewrite al_idem.
Qed.

(** original and copy as two objects; the history interleaves reads on both *)
Definition reads2 (l : seq (bool * attr)) (st : obj * obj) : obj * obj :=
  foldl (fun st ba => if ba.1 then ((read ba.2 st.1).1, st.2) else (st.1, (read ba.2 st.2).1)) st l.

Lemma reads2_split l st : reads2 l st =
  (reads [seq ba.2 | ba <- l & ba.1] st.1, reads [seq ba.2 | ba <- l & ~~ ba.1] st.2).
Proof.
elim: l st => [|[[] a] l IH] st /=; first by case: st.
  by rewrite /reads2 /= -/(reads2 _ _) IH.
by rewrite /reads2 /= -/(reads2 _ _) IH.
Qed.

Theorem copy_correct o0 l : pure_init o0 ->
  exists g c, copy (reads l o0) = (g, Ok c) /\
  forall l' a, (read a (reads2 l' (g, c)).1).2 = (read a o0).2 /\
               (read a (reads2 l' (g, c)).2).2 = (read a o0).2.
Proof.
move=> hp; have f := pure_init_fresh hp.
exists (reads l o0), o0; split; first exact: copy_inv (reads_inv l f).
move=> l' a; rewrite reads2_split /= /reads -foldl_cat; split.
  exact: (proj2 (read_inv a f (reads_inv (l ++ _) f))).
exact: (proj2 (read_inv a f (reads_inv _ f))).
Qed.

(** ** Setters *)

(** assigning [mean] or [cov] of a moment-mode object after its natural parameters have been
    read does not invalidate them *)
Definition reads_nat (a : attr) : bool := match a with APrec | AShift => true | _ => false end.

Lemma reads_cached m c ps l : m2n (Some (al m)) (Some c) = Ok ps -> has reads_nat l ->
  let o := reads l (init (Some m) (Some c) None None) in
  o_prec o = Some ps.1 /\ o_shift o = Some ps.2.
Proof.
move=> e hl o; rewrite {}/o; set o0 := init _ _ _ _.
have f : fresh o0 by apply: init_fresh; rewrite /mixed andbF.
have [l1 [a [l2 [-> na]]]] : exists l1 a l2, l = l1 ++ a :: l2 /\ reads_nat a.
  elim: l hl => //= a l IH /orP [ha|/IH [l1 [b [l2 [-> hb]]]]]; first by exists [::], a, l.
  by exists (a :: l1), b, l2.
rewrite /reads foldl_cat /=; set o1 := foldl _ o0 l1.
have i1 : inv o0 o1 by exact: reads_inv.
have cached o : inv o0 o -> isSome (o_prec o) -> o_prec o = Some ps.1 /\ o_shift o = Some ps.2.
  move=> i; case: (inv_ps i) => [[-> _] //|[_ _ _ [ps' [e' -> ->]]]] _.
  by move: e'; rewrite e => -[<-].
have keep o : inv o0 o -> isSome (o_prec o) -> forall b, isSome (o_prec (read b o).1).
  move=> i hs b; have [i' _] := read_inv b f i.
  case: o hs i i' => m1 c1 d1 p1 s1 md l' /= hs i _.
  case: p1 hs i => // p1 _ i; have /= hm := inv_mode i; subst md.
  case: b; rewrite /= /get_mean /get_cov /get_prec /get_shift /get_dim /get_chol /=.
  - by [].
  - by [].
  - by [].
  - by case: s1 i => //= i; case: m2n.
  - by case: d1 i => //= i; case: shp0.
  - by case: l' i => //= i; case: chol.
suff : inv o0 (foldl (fun o b => (read b o).1) (read a o1).1 l2) /\
       isSome (o_prec (foldl (fun o b => (read b o).1) (read a o1).1 l2)).
  by case=> i hs; apply: cached.
have : inv o0 (read a o1).1 /\ isSome (o_prec (read a o1).1).
  split; first by have [] := read_inv a f i1.
  case: o1 i1 => m1 c1 d1 p1 s1 md l' i; have /= hm := inv_mode i; subst md.
  case: (inv_mc i) => /= [[h1 h2]|[//]]; subst m1 c1.
  case: a na => //= _; rewrite /get_prec /get_shift /=.
    by case: p1 i => //= i; rewrite e.
  case: s1 i => [s1|] i /=; last by rewrite e.
  by case: (inv_ps i) => /= [[_ //]|[_ _ _ [ps' [_ -> _]]]].
elim: l2 ((read a o1).1) => //= b l2 IH o [i hs]; apply: IH; split; last exact: keep.
by have [] := read_inv b f i.
Qed.

Theorem stale_after_read m c v ps l w : w = WMean \/ w = WCov ->
  m2n (Some (al m)) (Some c) = Ok ps -> has reads_nat l ->
  let o := write w (Some v) (reads l (init (Some m) (Some c) None None)) in
  (read APrec o).2 = Ok (OV (Some ps.1)) /\ (read AShift o).2 = Ok (OV (Some ps.2)).
Proof.
move=> hw e hl; have /= := reads_cached e hl.
case: (reads l _) => m1 c1 d1 p1 s1 md l' /= [-> ->].
by case: hw => -> /=; rewrite /get_prec /get_shift /=; case: md.
Qed.

Lemma reads_uncached m c l : ~~ has reads_nat l ->
  let o := reads l (init (Some m) (Some c) None None) in
  [/\ o_prec o = None, o_shift o = None, o_mode o = MMoment, o_mean o = Some (al m) & o_cov o = Some c].
Proof.
move=> hl o; rewrite {}/o /reads; set o0 := init _ _ _ _.
suff H o : [/\ o_prec o = None, o_shift o = None, o_mode o = MMoment, o_mean o = Some (al m) & o_cov o = Some c] ->
  let o' := foldl (fun o b => (read b o).1) o l in
  [/\ o_prec o' = None, o_shift o' = None, o_mode o' = MMoment, o_mean o' = Some (al m) & o_cov o' = Some c].
  exact: H.
elim: l hl o => //= a l IH; rewrite negb_or => /andP [na hl] o ho; apply: IH => //.
case: o ho => m1 c1 d1 p1 s1 md l' [/= -> -> -> -> ->].
case: a na => //= _; rewrite /get_mean /get_cov /get_dim /get_chol /=.
  by case: d1 => //=; case: shp0.
by case: l' => //=; case: chol.
Qed.

(** without an earlier read of the natural parameters the new values are used *)
Theorem fresh_after_write m c v l : ~~ has reads_nat l ->
  let rd w a := (read a (write w (Some v) (reads l (init (Some m) (Some c) None None)))).2 in
  let pr f r := match r with Ok ps => Ok (OV (Some (f ps))) | Err e => Err e end in
  [/\ rd WMean APrec = pr fst (m2n (Some v) (Some c)), rd WMean AShift = pr snd (m2n (Some v) (Some c)),
      rd WCov APrec = pr fst (m2n (Some (al m)) (Some v)) & rd WCov AShift = pr snd (m2n (Some (al m)) (Some v))].
Proof.
move=> hl /=; have /= := reads_uncached m c hl.
case: (reads l _) => m1 c1 d1 p1 s1 md l' [/= -> -> -> -> ->].
by rewrite /get_prec /get_shift /=; split; case: m2n.
Qed.

(** ** the cached Cholesky factor and dimension, and the moments cached by a natural-mode object *)
Definition is_chol (a : attr) : bool := if a is AChol then true else false.
Definition is_dim (a : attr) : bool := if a is ADim then true else false.
Lemma caches_moment m c L d l : chol (Some c) = Ok L -> shp0 (Some (al m)) = Ok d ->
  let o := reads l (init (Some m) (Some c) None None) in
  [/\ o_mode o = MMoment, o_mean o = Some (al m), o_cov o = Some c, o_chol o = (if has is_chol l then Some L else None)
    & o_dim o = (if has is_dim l then Some d else None)].
Proof.
move=> ec ed; elim/last_ind: l => [|l a IH] //=.
rewrite /reads foldl_rcons -/(reads l _) !has_rcons; move: IH => /=.
case: (reads l _) => m1 c1 d1 p1 s1 md l1 [/= -> -> -> -> ->].
case: a => /=; rewrite /get_mean /get_cov /get_prec /get_shift /get_dim /get_chol /=; try by [].
- by case: p1 => //=; case: m2n.
- by case: s1 => //=; case: m2n.
- by case: (has is_dim l) => //=; rewrite ed.
- by case: (has is_chol l) => //=; rewrite ec.
Qed.
Theorem stale_chol m c L d v l w : chol (Some c) = Ok L -> shp0 (Some (al m)) = Ok d ->
  let o := write w (Some v) (reads l (init (Some m) (Some c) None None)) in
  (has is_chol l -> (read AChol o).2 = Ok (OV (Some L))) /\ (has is_dim l -> (read ADim o).2 = Ok (ON V d)).
Proof.
move=> ec ed; have := caches_moment l ec ed; cbv zeta; case: (reads l _) => m1 c1 d1 p1 s1 md l1 [/= -> -> -> -> ->].
by split=> ->; case: w.
Qed.
Theorem fresh_chol m c L d v l : chol (Some c) = Ok L -> shp0 (Some (al m)) = Ok d ->
  let rd w a := (read a (write w (Some v) (reads l (init (Some m) (Some c) None None)))).2 in
  [/\ ~~ has is_chol l -> rd WCov AChol = match chol (Some v) with Ok L' => Ok (OV (Some L')) | Err e => Err e end,
      ~~ has is_dim l -> rd WMean ADim = match shp0 (Some v) with Ok d' => Ok (ON V d') | Err e => Err e end,
      rd WMean AMean = Ok (OV (Some v)) & rd WCov ACov = Ok (OV (Some v))].
Proof.
move=> ec ed; have := caches_moment l ec ed; cbv zeta; case: (reads l _) => m1 c1 d1 p1 s1 md l1 [/= -> -> -> -> ->].
split=> [/negbTE->|/negbTE->||] //; rewrite /= /get_chol /get_dim /=; [by case: chol | by case: shp0].
Qed.
Definition reads_mom (a : attr) : bool := match a with AMean | ACov | AChol => true | _ => false end.
Lemma caches_natural p s mc l : n2m (Some p) (Some (al s)) = Ok mc ->
  let o := reads l (init None None (Some p) (Some s)) in
  [/\ o_mode o = MNatural, o_prec o = Some p, o_shift o = Some (al s), o_mean o = (if has reads_mom l then Some mc.1 else None)
    & o_cov o = (if has reads_mom l then Some mc.2 else None)] /\ (isSome (o_chol o) -> has reads_mom l).
Proof.
move=> e; elim/last_ind: l => [|l a IH] //=.
rewrite /reads foldl_rcons -/(reads l _) !has_rcons; move: IH => /=.
case: (reads l _) => m1 c1 d1 p1 s1 md l1 [[/= -> -> -> -> ->] hl].
case: a => /=; rewrite /get_mean /get_cov /get_prec /get_shift /get_dim /get_chol /=; try by [].
- by case: (has reads_mom l) => //=; rewrite e.
- by case: (has reads_mom l) => //=; rewrite e.
- by case: d1 => //=; case: shp0.
- case: l1 hl => [L|] /= hl; first by rewrite (hl isT).
  case: (has reads_mom l) => /=; rewrite /get_cov /= ?e /=; by case: (chol _).
Qed.
(** assigning the precision or the shift after the moments have been read leaves them as they were *)
Theorem stale_natural p s mc v l w : w = WPrec \/ w = WShift -> n2m (Some p) (Some (al s)) = Ok mc -> has reads_mom l ->
  let o := write w (Some v) (reads l (init None None (Some p) (Some s))) in
  (read AMean o).2 = Ok (OV (Some mc.1)) /\ (read ACov o).2 = Ok (OV (Some mc.2)).
Proof.
move=> hw e hl; have [] := caches_natural l e; rewrite hl; case: (reads l _) => m1 c1 d1 p1 s1 md l1 /= [-> -> -> -> ->] _.
by case: hw => ->.
Qed.
Theorem fresh_natural p s mc v l : n2m (Some p) (Some (al s)) = Ok mc -> ~~ has reads_mom l ->
  let rd w a := (read a (write w (Some v) (reads l (init None None (Some p) (Some s))))).2 in
  let pr f r := match r with Ok ps => Ok (OV (Some (f ps))) | Err e => Err e end in
  [/\ rd WPrec AMean = pr fst (n2m (Some v) (Some (al s))), rd WPrec ACov = pr snd (n2m (Some v) (Some (al s))),
      rd WShift AMean = pr fst (n2m (Some p) (Some v)) & rd WShift ACov = pr snd (n2m (Some p) (Some v))].
Proof.
move=> e hl /=; have [] := caches_natural l e; rewrite (negbTE hl); case: (reads l _) => m1 c1 d1 p1 s1 md l1 /= [-> -> -> -> ->] _.
by rewrite /get_mean /get_cov /=; split; case: n2m.
Qed.

End Facts.
