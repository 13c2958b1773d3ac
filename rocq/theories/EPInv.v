(** * The EP consistency invariant, for any natural parameterisation

    [nat_of g u] says that Gaussian [g] has natural parameters [u] in a vector space; the operators
    are homomorphisms where they succeed. *)
Set Warnings "-notation-overridden,-ambiguous-paths".
From mathcomp Require Import all_ssreflect all_algebra.
From Verif Require Import Base Nodes NodesFacts.
Set Implicit Arguments.
Unset Strict Implicit.
Unset Printing Implicit Defensive.
Import GRing.Theory.
Local Open Scope ring_scope.

Section EPInv.
Variables (K : fieldType) (U : lmodType K).
Variables (G Sc Fn Hn Y W : Type).
Variable gmul gdiv : G -> G -> res G.
Variable gpow : G -> Sc -> res G.
Variable gvalid : G -> res unit.
Variable one_over : Sc -> res Sc.
Variable one_minus : Sc -> res Sc.
Variable sdiv : Sc -> Sc -> res Sc.

Variable val : Sc -> K.
Hypothesis one_overE : forall p q, one_over p = Ok q -> val q = (val p)^-1.
Hypothesis one_minusE : forall p q, one_minus p = Ok q -> val q = 1 - val p.
Hypothesis sdivE : forall p q r, sdiv p q = Ok r -> val r = val p / val q.
Variable nat_of : G -> U -> Prop.
Hypothesis gmul_nat : forall a b c u v, gmul a b = Ok c -> nat_of a u -> nat_of b v -> nat_of c (u + v).
Hypothesis gdiv_nat : forall a b c u v, gdiv a b = Ok c -> nat_of a u -> nat_of b v -> nat_of c (u - v).
Hypothesis gpow_nat : forall a p c u, gpow a p = Ok c -> nat_of a u -> nat_of c (val p *: u).

Notation node := (node G Sc Fn Hn Y W).
Notation state := (state G Sc Fn Hn Y W).
Notation do_ev := (@do_ev G Sc Fn Hn Y W gmul gdiv gpow gvalid one_over one_minus sdiv).
Notation produced := (@produced G Sc Fn Hn Y W gdiv gpow one_over).
Notation fwd_commit := (@fwd_commit G Sc Fn Hn Y W gmul gdiv gpow gvalid one_over one_minus).
Notation pow_commit := (@pow_commit G Sc Fn Hn Y W gmul gdiv gpow gvalid sdiv).

(** natural parameters of the marginal and of the three factors *)
Record params (n : node) (m f z b : U) : Prop := Params {
  p_marg : nat_of (n_marg n) m; p_fwd : nat_of (n_fwd n) f;
  p_meas : nat_of (n_meas n) z; p_back : nat_of (n_back n) b }.

Definition has_nat (g : G) : Prop := exists u, nat_of g u.
(** an operator has read the natural parameters of [s] *)
Definition readable (s : G) : Prop := (exists p c, gpow s p = Ok c) \/ (exists b c, gdiv s b = Ok c).

Lemma fwd_commit_nat (Q : G -> Prop) n f m um uf : (forall s, Q s -> readable s -> has_nat s) ->
  fwd_commit Q n f m -> nat_of (n_marg n) um -> nat_of (n_fwd n) uf ->
  exists dm pw s us, [/\ n_damp n = Some dm, n_power n = Some pw, Q s /\ nat_of s us,
    nat_of f ((1 - val dm) *: uf + val dm *: us) &
    nat_of m (um + (val dm / val pw) *: (us - uf))].
Proof.
move=> hQ [st [dm [pw [om [ip [f1 [f2 [q [qp [[hq _ _] [h1 h2] [h3 h4] [h5 h6 h7] [h8 h9 h10]]]]]]]]]]] hm hf.
have [us hus] : has_nat st by apply: hQ hq _; left; exists dm, f2.
exists dm, pw, st, us; split=> //.
  by rewrite -(one_minusE h3); apply: gmul_nat h7 (gpow_nat h5 hf) (gpow_nat h6 hus).
have hF := gmul_nat h7 (gpow_nat h5 hf) (gpow_nat h6 hus).
have := gmul_nat h10 hm (gpow_nat h9 (gdiv_nat h8 hF hf)).
rewrite (one_overE h4) (one_minusE h3); congr nat_of; congr (_ + _).
rewrite mulrC -scalerA; congr (_ *: _); rewrite scalerBl scale1r scalerBr.
by rewrite [LHS]addrAC [uf - _]addrC addrK addrC.
Qed.

Lemma addrKl (V : zmodType) (a b : V) : a + b - a = b.
Proof. by rewrite addrAC subrr add0r. Qed.
Lemma pow_commit_nat (Q : G -> Prop) n fac f m um uf : (forall s, Q s -> readable s -> has_nat s) ->
  pow_commit Q n fac f m -> nat_of (n_marg n) um -> nat_of fac uf ->
  exists dm pw s us, [/\ n_damp n = Some dm, n_power n = Some pw, Q s /\ nat_of s us,
    nat_of f (uf + val dm *: (us - um)) &
    nat_of m (um + (val dm / val pw) *: (us - um))].
Proof.
move=> hQ [st [dm [pw [dp [r [rd [rp [[hq _ _] [h1 h2] h3 [h4 h5 h6] [h7 h8]]]]]]]]] hm hf.
have [us hus] : has_nat st by apply: hQ hq _; right; exists (n_marg n), r.
exists dm, pw, st, us; have hr := gdiv_nat h4 hus hm; split=> //.
  by apply: gmul_nat h6 hf (gpow_nat h5 hr).
by rewrite -(sdivE h3); apply: gmul_nat h8 hm (gpow_nat h7 hr).
Qed.

(** [marginal = base * (fwd * meas * back) ** (1/power)] *)
Definition consistent (base : nat -> U) (h : heap G Sc Fn Hn Y W) : Prop :=
  forall j n, lookup h j = Some n ->
  exists pw m f z b, [/\ n_power n = Some pw, val pw != 0, params n m f z b &
    m = base j + (val pw)^-1 *: (f + z + b)].

(** admissible functions and observations *)
Variables (okf : option Fn -> Prop) (okh : option Hn -> Prop) (oky : Y -> Prop).
(** the projections installed in node [n] map Gaussians with natural parameters to such Gaussians
    (if an operator can read the result), for admissible functions and observations *)
Definition good_node (n : node) : Prop :=
  [/\ [/\ okf (n_trans n), okh (n_measf n), forall y, n_y n = Some y -> oky y & forall g, n_prior n = Some g -> has_nat g],
      forall p, kwval (n_ufwd n) None = Some p -> forall f c w w' s, okf f -> has_nat c ->
        p f c w = (w', Ok s) -> readable s -> has_nat s,
      forall p, kwval (n_umeas n) None = Some p -> forall h c y w w' s, okh h -> oky y -> has_nat c ->
        p h c y w = (w', Ok s) -> readable s -> has_nat s &
      forall p, kwval (n_uback n) None = Some p ->
        forall f c c' g w w' s, okf f -> has_nat c -> has_nat c' -> has_nat g ->
        p f c c' (Some g) w = (w', Ok s) -> readable s -> has_nat s].
Definition good (h : heap G Sc Fn Hn Y W) : Prop := forall j n, lookup h j = Some n -> good_node n.
Definition nat_heap (h : heap G Sc Fn Hn Y W) : Prop := forall j n, lookup h j = Some n ->
  [/\ has_nat (n_marg n), has_nat (n_fwd n), has_nat (n_meas n) & has_nat (n_back n)].

Lemma gdiv_has a b c : gdiv a b = Ok c -> has_nat a -> has_nat b -> has_nat c.
Proof. by move=> h [u hu] [v hv]; exists (u - v); exact: gdiv_nat h hu hv. Qed.
Lemma gpow_has a p c : gpow a p = Ok c -> has_nat a -> has_nat c.
Proof. by move=> h [u hu]; exists (val p *: u); exact: gpow_nat h hu. Qed.

Lemma produced_nat h e n s : good h -> nat_heap h -> lookup h (ev_node e) = Some n ->
  produced h e n s -> readable s -> has_nat s.
Proof.
move=> gh nh hn; have [[o1 o2 o3 o4] g1 g2 g3] := gh _ _ hn; have [m1 m2 m3 m4] := nh _ _ hn.
case: e hn => i /= hn.
- case=> p [c [w [w' [h1 hc h2]]]]; apply: g1 h1 _ _ _ _ _ o1 _ h2.
  case: hc => [|/o4 //] [k [pn [pw [ip [bf [[_ hk] _ _ e1 e2]]]]]].
  have [q1 q2 q3 q4] := nh _ _ hk; exact: gdiv_has e2 q1 (gpow_has e1 q4).
- case=> p [c [y [w [w' [h1 hy hc h2]]]]]; apply: g2 h1 _ _ _ _ _ _ o2 (o3 _ hy) _ h2.
  exact: gdiv_has hc m1 m3.
- case=> p [pn [c [c' [w [w' [h1 hc [k [pw [ip [ff [[_ hk] _ _ e1 e2]]]]] h2]]]]]].
  have [q1 q2 q3 q4] := nh _ _ hk; have [[oo _ _ _] _ _ _] := gh _ _ hk.
  exact: g3 h1 _ _ _ _ _ _ _ oo (gdiv_has hc m1 m4) (gdiv_has e2 q1 (gpow_has e1 q2)) q1 h2.
Qed.

Lemma consistent_nat base h : consistent base h -> nat_heap h.
Proof.
by move=> hc j n hj; have [pw [m [f [z [b [_ _ [h1 h2 h3 h4] _]]]]]] := hc _ _ hj; split; eexists; eauto.
Qed.

Lemma do_ev_good e st : good st.1 -> good (do_ev e st).1.1.
Proof.
move=> h; have /= := ev_outcome gmul gdiv gpow gvalid one_over one_minus sdiv e st.
case=> [-> //|[n [f [m [h1 _ -> _]]]]] j x; rewrite lookup_update; case: eqP => _; last exact: h.
rewrite h1 /= => -[<-]; have := h _ _ h1; by case: (e).
Qed.

Lemma do_ev_consistent e base st : good st.1 -> consistent base st.1 -> consistent base (do_ev e st).1.1.
Proof.
move=> hg hc; have /= := ev_outcome gmul gdiv gpow gvalid one_over one_minus sdiv e st.
case=> [-> //|[n [f [m [h1 _ -> hcm]]]]] j x; rewrite lookup_update; case: eqP => [->|_]; last exact: hc.
rewrite h1 /= => -[<-].
have [pw [um [uf [uz [ub [hpw pw0 [pm pf pz pb] he]]]]]] := hc _ _ h1.
have hp s : produced st.1 e n s -> readable s -> has_nat s by apply: produced_nat => //; exact: consistent_nat hc.
case: e h1 he hcm hp => i /= h1 he hcm hp.
- have [dm [pw' [s [us [e1 e2 _ e3 e4]]]]] := fwd_commit_nat hp hcm pm pf.
  move: e2; rewrite hpw => -[epw]; subst pw'.
  exists pw, (um + (val dm / val pw) *: (us - uf)), ((1 - val dm) *: uf + val dm *: us), uz, ub; split=> //.
  rewrite he -addrA; congr (_ + _); rewrite mulrC -scalerA -scalerDr; congr (_ *: _).
  rewrite scalerBl scale1r scalerBr -!addrA; congr (_ + _).
  by rewrite [LHS]addrA [LHS]addrC -addrA addrCA.
- have [dm [pw' [s [us [e1 e2 _ e3 e4]]]]] := pow_commit_nat hp hcm pm pz.
  move: e2; rewrite hpw => -[epw]; subst pw'.
  exists pw, (um + (val dm / val pw) *: (us - um)), uf, (uz + val dm *: (us - um)), ub; split=> //.
  rewrite {1}he -addrA; congr (_ + _); rewrite mulrC -scalerA -scalerDr; congr (_ *: _).
  by rewrite [in RHS]addrA [RHS]addrAC.
- have [dm [pw' [s [us [e1 e2 _ e3 e4]]]]] := pow_commit_nat hp hcm pm pb.
  move: e2; rewrite hpw => -[epw]; subst pw'.
  exists pw, (um + (val dm / val pw) *: (us - um)), uf, uz, (ub + val dm *: (us - um)); split=> //.
  rewrite {1}he -addrA; congr (_ + _); rewrite mulrC -scalerA -scalerDr; congr (_ *: _).
  by rewrite addrA.
Qed.

(** a schedule whose caller catches every exception *)
Definition schedule (l : seq ev) (st : state) : state := foldl (fun st e => (do_ev e st).1) st l.

Theorem ep_consistent l base st : good st.1 -> consistent base st.1 ->
  good (schedule l st).1 /\ consistent base (schedule l st).1.
Proof.
elim: l st => //= e l IH st hg hc; apply: IH; [exact: do_ev_good|exact: do_ev_consistent].
Qed.

(** what a committed measurement or backward update does to the marginal *)
Theorem damped_move e st n um : (if e is Fwd _ then False else True) -> good st.1 -> nat_heap st.1 ->
  lookup st.1 (ev_node e) = Some n -> nat_of (n_marg n) um ->
  (do_ev e st).1.1 = st.1 \/
  exists n' dm pw s us, [/\ lookup (do_ev e st).1.1 (ev_node e) = Some n', n_damp n = Some dm /\ n_power n = Some pw,
    produced st.1 e n s, nat_of s us & nat_of (n_marg n') (um + (val dm / val pw) *: (us - um))].
Proof.
move=> he hg hh hn hm; have [_ _ [fz hz] [fb hb]] := hh _ _ hn; have /= := ev_outcome gmul gdiv gpow gvalid one_over one_minus sdiv e st.
case=> [->|[n0 [f [m [h1 _ -> hcm]]]]]; first by left.
move: h1; rewrite hn => -[e0]; subst n0; right.
have hp s : produced st.1 e n s -> readable s -> has_nat s by apply: produced_nat.
rewrite lookup_update eqxx hn /=.
case: e he hn hcm hp => // i _ hn /= hcm hp.
- have [dm [pw [s [us [e1 e2 [e3 e3'] _ e4]]]]] := pow_commit_nat hp hcm hm hz.
  by exists (set_meas f m n), dm, pw, s, us.
- have [dm [pw [s [us [e1 e2 [e3 e3'] _ e4]]]]] := pow_commit_nat hp hcm hm hb.
  by exists (set_back f m n), dm, pw, s, us.
Qed.

End EPInv.
