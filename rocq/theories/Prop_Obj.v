(** * Properties C04, C05, C49 (the Gaussian object and its caches) *)
Set Warnings "-notation-overridden,-ambiguous-paths".
From mathcomp Require Import all_ssreflect all_algebra.
From mathcomp Require Import real_closed.realalg.
From Verif Require Import Base ND LinAlg Gauss GaussObj GaussObjFacts GaussLink.
Set Implicit Arguments.
Unset Strict Implicit.
Unset Printing Implicit Defensive.

Section Props.
(** arbitrary arrays, solvers and factorisations *)
Variable V : Type.
Variable al : V -> V.
Variable n2m m2n : option V -> option V -> res (V * V).
Variable chol : option V -> res V.
Variable shp0 : option V -> res nat.
Notation init := (init al).
Notation read := (read n2m m2n chol shp0).
Notation reads := (reads n2m m2n chol shp0).
Notation reads2 := (reads2 n2m m2n chol shp0).
Notation copy := (copy al n2m m2n).

(** C04: after any sequence of reads an attribute reads as on the fresh object, for every constructor
    call except (mean, no covariance, shift) *)
Theorem C04_reads_stable mean cov prec shift l a :
  ~~ (isSome mean && isSome shift && ~~ isSome cov) ->
  let o := init mean cov prec shift in (read a (reads l o)).2 = (read a o).2.
Proof. exact: reads_stable. Qed.

(** the excluded call really is unstable *)
Theorem C04_mixed_unstable (m s m' c' : V) prec : n2m prec (Some (al s)) = Ok (m', c') -> m' <> al m ->
  let o := init (Some m) None prec (Some s) in
  (read AMean o).2 = Ok (OV (Some (al m))) /\ (read AMean (reads [:: ACov] o)).2 = Ok (OV (Some m')).
Proof. exact: mixed_unstable. Qed.

(** C05: copy after any history [l] of reads; [l'] interleaves reads on the original ([true]) and
    on the copy ([false]) *)
Theorem C05_copy (o0 : obj V) l : (forall v, al (al v) = al v) ->
  (exists m c, o0 = init (Some m) c None None) \/ (exists p s, o0 = init None None p (Some s)) ->
  exists g c, copy (reads l o0) = (g, Ok c) /\
  forall l' a, (read a (reads2 l' (g, c)).1).2 = (read a o0).2 /\
               (read a (reads2 l' (g, c)).2).2 = (read a o0).2.
Proof. by move=> al_idem; exact: copy_correct. Qed.

(** C49: a setter of mean or cov used after the natural parameters have been read leaves them stale;
    used before, it takes effect *)
Theorem C49_stale m c v ps l w : w = WMean \/ w = WCov ->
  m2n (Some (al m)) (Some c) = Ok ps -> has reads_nat l ->
  let o := write w (Some v) (reads l (init (Some m) (Some c) None None)) in
  (read APrec o).2 = Ok (OV (Some ps.1)) /\ (read AShift o).2 = Ok (OV (Some ps.2)).
Proof. exact: stale_after_read. Qed.
Theorem C49_fresh m c v l : ~~ has reads_nat l ->
  let rd w a := (read a (write w (Some v) (reads l (init (Some m) (Some c) None None)))).2 in
  let pr f r := match r with Ok ps => Ok (OV (Some (f ps))) | Err e => Err e end in
  [/\ rd WMean APrec = pr fst (m2n (Some v) (Some c)), rd WMean AShift = pr snd (m2n (Some v) (Some c)),
      rd WCov APrec = pr fst (m2n (Some (al m)) (Some v)) & rd WCov AShift = pr snd (m2n (Some (al m)) (Some v))].
Proof. exact: fresh_after_write. Qed.
(** the same for the Cholesky factor and the dimension, whichever attribute is assigned *)
Theorem C49_stale_chol m c L d v l w : chol (Some c) = Ok L -> shp0 (Some (al m)) = Ok d ->
  let o := write w (Some v) (reads l (init (Some m) (Some c) None None)) in
  (has is_chol l -> (read AChol o).2 = Ok (OV (Some L))) /\ (has is_dim l -> (read ADim o).2 = Ok (ON V d)).
Proof. exact: stale_chol. Qed.
Theorem C49_fresh_chol m c L d v l : chol (Some c) = Ok L -> shp0 (Some (al m)) = Ok d ->
  let rd w a := (read a (write w (Some v) (reads l (init (Some m) (Some c) None None)))).2 in
  [/\ ~~ has is_chol l -> rd WCov AChol = match chol (Some v) with Ok L' => Ok (OV (Some L')) | Err e => Err e end,
      ~~ has is_dim l -> rd WMean ADim = match shp0 (Some v) with Ok d' => Ok (ON V d') | Err e => Err e end,
      rd WMean AMean = Ok (OV (Some v)) & rd WCov ACov = Ok (OV (Some v))].
Proof. exact: fresh_chol. Qed.
(** and the other way round: precision or shift assigned after the moments have been read *)
Theorem C49_stale_natural p s mc v l w : w = WPrec \/ w = WShift -> n2m (Some p) (Some (al s)) = Ok mc -> has reads_mom l ->
  let o := write w (Some v) (reads l (init None None (Some p) (Some s))) in
  (read AMean o).2 = Ok (OV (Some mc.1)) /\ (read ACov o).2 = Ok (OV (Some mc.2)).
Proof. exact: stale_natural. Qed.
Theorem C49_fresh_natural p s mc v l : n2m (Some p) (Some (al s)) = Ok mc -> ~~ has reads_mom l ->
  let rd w a := (read a (write w (Some v) (reads l (init None None (Some p) (Some s))))).2 in
  let pr f r := match r with Ok ps => Ok (OV (Some (f ps))) | Err e => Err e end in
  [/\ rd WPrec AMean = pr fst (n2m (Some v) (Some (al s))), rd WPrec ACov = pr snd (n2m (Some v) (Some (al s))),
      rd WShift AMean = pr fst (n2m (Some p) (Some v)) & rd WShift ACov = pr snd (n2m (Some p) (Some v))].
Proof. exact: fresh_natural. Qed.
End Props.

(** C04/C05 with the exact solvers: the object answers like the value model of Gauss.v *)
Theorem C04_value (R : rcfType) (illcond : forall n, 'M[R]_n -> bool) (g : gauss R) l a : built g ->
  (read (n2m_o illcond) (m2n_o illcond) (@chol_o R) (@shp0_o R) a
    (reads (n2m_o illcond) (m2n_o illcond) (@chol_o R) (@shp0_o R) l (obj_of g))).2 = value illcond g a.
Proof. exact: read_value. Qed.
Theorem C05_value (R : rcfType) (g : gauss R) : built g -> g_copy g = g.
Proof. exact: copy_value. Qed.
Print Assumptions C04_reads_stable. Print Assumptions C04_mixed_unstable. Print Assumptions C04_value.
Print Assumptions C05_copy. Print Assumptions C05_value.
Print Assumptions C49_stale. Print Assumptions C49_fresh. Print Assumptions C49_stale_chol.
Print Assumptions C49_fresh_chol. Print Assumptions C49_stale_natural. Print Assumptions C49_fresh_natural.

(** ** Non-vacuity: arrays are natural numbers, [n2m] and [m2n] add and multiply, a None operand raises *)
Section Examples.
Let f (x y : option nat) : res (nat * nat) :=
  match x, y with Some x, Some y => Ok (x + y, x * y) | _, _ => Err TypeErr end.
Let ch (x : option nat) : res nat := if x is Some x then Ok x else Err LinAlgErr.
Let rd := read f f ch ch.
Let rds := reads f f ch ch.

Example C04_example :
  let o := init id (Some 3) (Some 4) None None in
  o_prec (rds [:: AShift; ADim; AChol] o) = Some 7 /\ o_prec o = None /\
  (rd APrec (rds [:: AShift; ADim; AChol] o)).2 = (rd APrec o).2.
Proof. by []. Qed.
Example C04_mixed_example :
  f (Some 3) (Some 4) = Ok (7, 12) /\ 7 <> 1 /\
  (rd AMean (rds [:: ACov] (init id (Some 1) None (Some 3) (Some 4)))).2 = Ok (OV (Some 7)).
Proof. by []. Qed.
Example C05_example : exists m c, init id (Some 3) (Some 4) None None = init id (Some m) c None None.
Proof. by exists 3, (Some 4). Qed.
Example C49_example :
  f (Some 3) (Some 4) = Ok (7, 12) /\ has reads_nat [:: AMean; APrec] /\ ~~ has reads_nat [:: AMean; ADim] /\
  (rd APrec (write WMean (Some 5) (rds [:: APrec] (init id (Some 3) (Some 4) None None)))).2 = Ok (OV (Some 7)) /\
  (rd APrec (write WMean (Some 5) (rds [:: ADim] (init id (Some 3) (Some 4) None None)))).2 = Ok (OV (Some 9)).
Proof. by []. Qed.
Example C49_chol_example : ch (Some 4) = Ok 4 /\ ch (Some (id 3)) = Ok 3 /\
  (rd AChol (write WCov (Some 5) (rds [:: AChol; ADim] (init id (Some 3) (Some 4) None None)))).2 = Ok (OV (Some 4)) /\
  (rd AChol (write WCov (Some 5) (rds [:: ADim] (init id (Some 3) (Some 4) None None)))).2 = Ok (OV (Some 5)) /\
  (rd ADim (write WMean (Some 5) (rds [:: AChol; ADim] (init id (Some 3) (Some 4) None None)))).2 = Ok (ON _ 3).
Proof. by []. Qed.
Example C49_natural_example : f (Some 3) (Some (id 4)) = Ok (7, 12) /\
  (rd AMean (write WShift (Some 5) (rds [:: AChol] (init id None None (Some 3) (Some 4))))).2 = Ok (OV (Some 7)) /\
  (rd AMean (write WShift (Some 5) (rds [:: ADim] (init id None None (Some 3) (Some 4))))).2 = Ok (OV (Some 8)).
Proof. by []. Qed.
Example C04_value_example (R := [rcfType of realalg]) :
  @built R (gaussian (Nd0 1%R) (Nd2 (1%:M : 'M_1)%R)).
Proof. by left; exists (Nd0 1%R), (Nd2 (1%:M : 'M_1)%R). Qed.
End Examples.
