(** * EP with the Taylor transform on a scalar chain: shapes *)
Set Warnings "-notation-overridden,-ambiguous-paths".
From mathcomp Require Import all_ssreflect all_algebra.
From Verif Require Import Base ND NDFacts PosDef LinAlg LinAlgFacts Gauss GaussFacts Nodes NodesFacts EPInv EPGauss
  Transforms TransformFacts CondGauss Estimator EstimatorFacts EPEst SpecAssumed EPValue EPChain EPSweep KalmanFacts EPSetup.
Set Implicit Arguments.
Unset Strict Implicit.
Unset Printing Implicit Defensive.
Import GRing.Theory Num.Theory Order.Theory.
Local Open Scope ring_scope.

Section Taylor.
Variable R : rcfType.
Variable illcond : forall n, 'M[R]_n -> bool.
Hypothesis ic : forall A : 'M[R]_1, ~~ illcond A.
Variable W : Type.
Notation nd := (nd R).
Notation gauss := (gauss R).
Notation dfun := (dfun R).
Notation V := ('M[R]_1 * 'M[R]_1)%type.
Notation node := (node gauss R dfun dfun nd W).
Notation heap := (heap gauss R dfun dfun nd W).
Notation state := (state gauss R dfun dfun nd W).

(** a scalar function applied to every entry, and what autograd returns for it: the Jacobian of an output
    of shape s with respect to an input of shape s has shape s ++ s *)
Definition elementwise (phi dphi : R -> R) (F : dfun) : Prop :=
  [/\ forall v : 'M[R]_1, call F (Nd1 v) = Ok (Nd1 (map_mx phi v)),
      forall v : 'M[R]_1, jac F (Nd1 v) = Ok (JLow (Nd2 (map_mx dphi v))),
      forall v : 'M[R]_1, call F (Nd2 v) = Ok (Nd2 (map_mx phi v)) &
      forall v : 'M[R]_1, jac F (Nd2 v) = Ok (JHigh [:: 1; 1; 1; 1]%N [:: dphi (v 0 0)])].

Lemma tt_square phi dphi F g (x : 'M[R]_1) P : elementwise phi dphi F -> g_mean illcond g = Ok (Nd2 x) ->
  g_cov illcond g = Ok P -> tt_transform illcond F g = Err ValueErr.
Proof. by case=> _ _ h1 h2 e1 e2; rewrite /tt_transform e1 bindE /tt_jacobian h2 bindE /= bindE h1 bindE /= e2 bindE. Qed.
Lemma squeeze1 (v : 'M[R]_1) : natleast1 (nsqueeze (Nd1 v)) = Nd1 v.
Proof. exact: squeeze_1. Qed.
Lemma tt_flat phi dphi F g (x P : 'M[R]_1) : elementwise phi dphi F -> g_mean illcond g = Ok (Nd1 x) ->
  g_cov illcond g = Ok (Nd2 P) ->
  tt_transform illcond F g = let J := map_mx dphi x in Ok (nsqueeze (Nd1 (map_mx phi x)), Nd2 (J *m P *m J^T), Nd2 (P *m J^T)).
Proof.
case=> h1 h2 _ _ e1 e2; rewrite /tt_transform e1 bindE /tt_jacobian h2 !bindE h1 bindE e2 bindE /=.
by rewrite nmatmulmm bindE nmatmulmm bindE nmatmulmm bindE.
Qed.

(** ** natural parameters with the shape of the shift: (1,) or (1,1) *)
Definition sh (b : bool) (v : 'M[R]_1) : nd := if b then Nd2 v else Nd1 v.
Definition nvb (g : gauss) (u : V) (b : bool) : Prop :=
  [/\ g_precision illcond g = Ok (Nd2 u.1), g_shift illcond g = Ok (sh b u.2) &
    trace_min R <= u.1 0 0 -> g_mean illcond g = Ok (sh b (invmx u.1 *m u.2)) /\ g_cov illcond g = Ok (Nd2 (invmx u.1))].
Lemma nvb_nat (L S : 'M[R]_1) b : nvb (Nat (Nd2 L) (sh b S)) (L, S) b.
Proof.
split=> //= hL; have pL : posdef L by apply/posdef11/(lt_le_trans (trace_min_gt0 R)).
have e : natural_to_moment illcond (Nd2 L) (sh b S) = do mean <- ndot (Nd2 (invmx L)) (sh b S); Ok (mean, Nd2 (invmx L)).
  rewrite /natural_to_moment bindE ntraceE bindE trace11 ltNge hL /= sp_solve_pos_pd //= bindE symmetrize_inv ?pL.1 // bindE.
by rewrite e; case: b {e}; rewrite /= ?ndotmv ?ndotmm !bindE.
Qed.
Lemma nvb_mom (m P : 'M[R]_1) b : posdef P -> nvb (gaussian (sh b m) (Nd2 P)) (invmx P, invmx P *m m) b.
Proof.
move=> pP; have e : moment_to_natural illcond (natleast1 (sh b m)) (Nd2 P) = Ok (Nd2 (invmx P), sh b (invmx P *m m)).
  rewrite /moment_to_natural bindE /= sp_solve_pos_pd //= bindE symmetrize_inv ?pP.1 // bindE.
  by case: b; rewrite /= ?nmatmulmv ?nmatmulmm bindE.
split; rewrite /= ?e ?bindE // => _.
by rewrite invmxK mulmxA mulmxV ?mul1mx ?posdef_unit //; case: (b).
Qed.
Lemma nop_sh op (z : op 0 0 = 0 :> R) a b (v w : 'M[R]_1) (r : 'M[R]_1) : r 0 0 = op (v 0 0) (w 0 0) ->
  bop op (sh a v) (sh b w) = Ok (sh (a || b) r).
Proof.
move=> hr; have en (u : 'M[R]_1) : ent u 0 0 = u 0 0 by rewrite -[0%N]/(nat_of_ord (0 : 'I_1)) entE.
by case: a; case: b; rewrite /bop /= /bop2 /bdim /= /sh; congr Ok; first [congr Nd1|congr Nd2];
  apply: mx11_eq; rewrite !mxE /bent /= !en ?mxE hr.
Qed.
Lemma nadd_sh a b (v w : 'M[R]_1) : nadd (sh a v) (sh b w) = Ok (sh (a || b) (v + w)).
Proof. by apply: nop_sh; rewrite ?mxE ?addr0. Qed.
Lemma nsub_sh a b (v w : 'M[R]_1) : nsub (sh a v) (sh b w) = Ok (sh (a || b) (v - w)).
Proof. by apply: nop_sh; rewrite ?mxE ?subr0. Qed.
Lemma from_nvb (L S : 'M[R]_1) b : nvb (from_natural (Nd2 L) (sh b S)) (L, S) b.
Proof. by have := nvb_nat L S b; case: b. Qed.
Lemma nvb_mul g g' u u' b b' : nvb g u b -> nvb g' u' b' -> exists2 c, gmul illcond g g' = Ok c & nvb c (u + u') (b || b').
Proof.
move=> [p1 s1 _] [p2 s2 _]; rewrite /gmul p1 bindE p2 bindE naddmm bindE symmetrize_sym ?tr11 // bindE s1 bindE s2 bindE.
by rewrite nadd_sh bindE; eexists; first reflexivity; exact: from_nvb.
Qed.
Lemma nvb_div g g' u u' b b' : nvb g u b -> nvb g' u' b' -> exists2 c, gdiv illcond g g' = Ok c & nvb c (u - u') (b || b').
Proof.
move=> [p1 s1 _] [p2 s2 _]; rewrite /gdiv p1 bindE p2 bindE nsubmm bindE s1 bindE s2 bindE.
by rewrite nsub_sh bindE; eexists; first reflexivity; exact: from_nvb.
Qed.
Lemma nvb_pow g u b p : nvb g u b -> exists2 c, gpow illcond g p = Ok c & nvb c (p *: u) b.
Proof.
move=> [p1 s1 _]; rewrite /gpow p1 bindE s1 bindE; eexists; first reflexivity.
by have := from_nvb (p *: u.1) (p *: u.2) b; case: (b).
Qed.
Lemma nvb_factor : nvb (as_factor 1) 0 false.
Proof. exact: (nvb_nat 0 0 false). Qed.
Lemma nvb_marginal : nvb (as_marginal 1) ((trace_min R)%:M, 0) false.
Proof.
have := nvb_mom 0 false (posdefZ1 1 (large_gt0 R)).
by rewrite mulmx0 scalemx1 invmx_scalar -[_^-1]/(trace_min R) -scalemx1.
Qed.
Lemma nvb_valid g u b : nvb g u b -> big u -> gvalidate illcond g = Ok tt.
Proof.
move=> [_ _ h] hb; have [_ h2] := h hb; rewrite /gvalidate h2 bindE; have := big_posdef hb => pP.
by apply/validate_covP => //; exact: pP.1.
Qed.

(** ** the nodes of a chain that was just built, for any estimator *)
Variables (Kw T Y0 : Type) (t_zero : T) (tadd : T -> T -> T) (kw_tu0 : T -> Kw) (squeeze : Y0 -> nd).
Notation system := (system gauss dfun dfun Kw T).
Notation kw_at := (kw_at t_zero tadd kw_tu0).
Notation estimator := (estimator gauss R dfun dfun nd W).
Variables (N : nat) (e : estimator) (p dm : R) (sy : system) (ys : seq Y0) (fa : option (seq Kw))
  (kws : nat -> Kw) (y0 : Y0) (w : W).
Hypothesis ep : e_power e = Some p.
Hypothesis ed : e_damp e = Some dm.
Hypothesis hN : (1 < N)%N.
Hypothesis hys : size ys = N.
Hypothesis hkw : forall i, (i < N)%N -> kw_at fa (sy_dt sy) i = Some (kws i).
Definition built : state := (node_system t_zero tadd kw_tu0 squeeze (iota 0 N) sy ys fa
    (@build_nodes gauss R dfun dfun nd W (@as_factor R) (@as_marginal R) 1 Kw T N 1 (Some e) None ([::], w)).1).1.
Definition fresh_at (i : nat) (n : node) : Prop :=
  [/\ n_prev n = (if i is i'.+1 then Some i' else None) /\ [/\ n_marg n = as_marginal 1, n_fwd n = as_factor 1,
        n_meas n = as_factor 1 & n_back n = as_factor 1],
      [/\ n_trans n = Some (sy_trans sy (kws i)), n_measf n = Some (sy_meas sy), n_y n = Some (squeeze (nth y0 ys i)) &
        i = 0%N -> n_prior n = Some (sy_init sy)],
      n_power n = Some p /\ n_damp n = Some dm &
      [/\ kwval (n_ufwd n) None = Some (e_trans e), kwval (n_umeas n) None = Some (e_meas e) &
          kwval (n_uback n) None = Some (e_back e)]].
Lemma built_fresh i : (i < N)%N -> exists2 n, lookup built.1 i = Some n & fresh_at i n.
Proof.
rewrite /built.
have := @build_nodes_spec gauss R dfun dfun nd W (@as_factor R) (@as_marginal R) 1 Kw T N 1 (Some e) None [::] w hN.
case: build_nodes => -[h w'] r /= [_ hs _ _ hb].
have an : all (fun j => j < size (h, w').1)%N (iota 0 N) by apply/allP=> j; rewrite mem_iota hs !add0n.
have := @node_system_spec gauss R dfun dfun nd W Kw T Y0 t_zero tadd kw_tu0 squeeze (iota 0 N) sy ys fa (h, w') (iota_uniq _ _) an.
case: node_system => -[h1 w1] r1 /= [_ _ _ hl _] hi.
have hfa : (N <= if fa is Some l then size l else size ys)%N.
  have hp : (N.-1 < N)%N by rewrite prednK // ltnW.
  have := hkw hp; rewrite /NodesFacts.kw_at; case: (fa) => [l|_]; last by rewrite hys.
  rewrite leqNgt => hd; apply/negP => hlt; move: hd; rewrite drop_oversize //.
  by rewrite -ltnS prednK // ltnW.
have hn : minn (size (iota 0 N)) (minn (size ys) (if fa is Some l then size l else size ys)) = N.
  by move: hfa; rewrite size_iota hys => hfa; rewrite (minn_idPl hfa) minnn.
have hy : ohead (drop i ys) = Some (nth y0 ys i) by rewrite (drop_nth y0) ?hys.
have := hl i _ _ _ _ (etrans _ (hb i hi)) hy (hkw hi); rewrite hn nth_iota // !add0n => /(_ hi erefl) h2.
eexists; first exact: h2.
rewrite /fresh_at; case: i hi {hy h2} => [|i] hi /=.
  by split; [split=> //|split=> //|rewrite ep ed|split].
by split; [split; [rewrite add0n|]|split=> //|rewrite ep ed|split].
Qed.
End Taylor.

(** ** the first two nodes of a sweep *)
Section Abort.
Variable R : rcfType.
Variable illcond : forall n, 'M[R]_n -> bool.
Hypothesis ic : forall A : 'M[R]_1, ~~ illcond A.
Variable W : Type.
Notation nd := (nd R).
Notation gauss := (gauss R).
Notation dfun := (dfun R).
Notation V := ('M[R]_1 * 'M[R]_1)%type.
Notation node := (node gauss R dfun dfun nd W).
Notation heap := (heap gauss R dfun dfun nd W).
Notation nvb := (nvb illcond).
Notation tt := (pure_transform (W := W) (tt_transform illcond)).
Notation do_ev := (@do_ev gauss R dfun dfun nd W (gmul illcond) (gdiv illcond) (gpow illcond)
  (gvalidate illcond) (@r_one_over R) (@r_one_minus R) (@r_sdiv R)).
Notation run := (@run gauss R dfun dfun nd W (gmul illcond) (gdiv illcond) (gpow illcond)
  (gvalidate illcond) (@r_one_over R) (@r_one_minus R) (@r_sdiv R)).
Variables (p dm : R) (Q Rm : 'M[R]_1).
Hypothesis p0 : 0 < p.
Hypothesis d0 : 0 <= dm.
Hypothesis pQ : posdef Q.
Hypothesis pR : posdef Rm.
Let e := mk_estimator illcond tt tt (Nd2 Q) (Nd2 Rm) p dm.
Let base : V := ((trace_min R)%:M, 0).
Lemma over_p : r_one_over p = Ok p^-1. Proof. by rewrite /r_one_over gt_eqF. Qed.
Lemma div_p : r_sdiv dm p = Ok (dm / p). Proof. by rewrite /r_sdiv gt_eqF. Qed.
Lemma posdefZ (c : R) (M : 'M[R]_1) : 0 < c -> posdef M -> posdef (c *: M).
Proof. by move=> c0 /posdef11 h; apply/posdef11; rewrite mxE mulr_gt0. Qed.
Lemma congr_pd (J P S : 'M[R]_1) : posdef P -> posdef S -> posdef (J *m P *m J^T + S).
Proof. by move=> pP pS; apply: posdefDr => //; apply: possemi_congr; exact: posdef_semi. Qed.

(** forward update of node 0 from the prior *)
Lemma fwd0 (h : heap) w n phi dphi F (m P : 'M[R]_1) g : lookup h 0 = Some n -> n_prev n = None -> n_prior n = Some g ->
  g_mean illcond g = Ok (Nd1 m) -> g_cov illcond g = Ok (Nd2 P) -> posdef P -> n_trans n = Some F -> elementwise phi dphi F ->
  n_power n = Some p -> n_damp n = Some dm -> kwval (n_ufwd n) None = Some (e_trans e) ->
  n_fwd n = as_factor 1 -> n_marg n = as_marginal 1 ->
  exists f mg u, [/\ do_ev (Fwd 0) (h, w) = ((update h 0 (set_fwd f mg), w), Ok Datatypes.tt), nvb mg u false & big u].
Proof.
move=> hn hpv hpr hm hP pP hF he hp hd hu hf hmg.
set J := map_mx dphi m; have pC : posdef (p^-1 *: (J *m P *m J^T + Q)).
  by apply: posdefZ; [rewrite invr_gt0|exact: congr_pd].
set C := (_ *: _) in pC; set s := gaussian (Nd1 (map_mx phi m)) (Nd2 C).
have es : e_trans e (Some F) g w = (w, Ok s).
  rewrite /= /proj_trans /andthen /pure_transform (tt_flat he hm hP) /= bindE.
  by rewrite (time_stepE _ p0 (tr11 _) (tr11 _) pC (squeeze_1 _)).
have ns : nvb s (invmx C, invmx C *m map_mx phi m) false := nvb_mom ic _ false pC.
have gs : gvalidate illcond s = Ok Datatypes.tt by rewrite /gvalidate bindE; apply/validate_covP => //; exact: pC.1.
set us := (invmx C, _) in ns.
have [f1 e1 v1] := nvb_pow ic (1 - dm) (nvb_factor ic); have [f2 e2 v2] := nvb_pow ic dm ns.
have [f e3 v3] := nvb_mul ic v1 v2; have [q e4 v4] := nvb_div ic v3 (nvb_factor ic).
have [qp e5 v5] := nvb_pow ic p^-1 v4; have [mg e6 v6] := nvb_mul ic (nvb_marginal ic) v5.
set u := (_ + _) in v6; have hb : big u.
  rewrite /big /u /= !mxE eqxx mulr1n ler_addl mulr_ge0 ?invr_ge0 ?(ltW p0) //.
  rewrite !mulr0 add0r subr0 mulr_ge0 //; apply/ltW/posdef11; exact: posdef_inv.
exists f, mg, u; split=> //.
move: es hu; move: (e_trans e) => pe es hu.
rewrite /= /call_fwd /mbind /get /= hn hu /fwd_update /mbind /get /= hn /fwd_cavity /mtry /mbind /lift /= hpv hpr /=.
rewrite /fwd_project /mtry /mbind /mworld /lift /ret hF.
rewrite -[(h, w).2]/w es gs hd hp /= hf hmg e1 e2 e3 e4 over_p e5 e6 (nvb_valid v6 hb).
by [].
Qed.

(** measurement update of node 0: the mean of the marginal becomes an array of shape (1,1) *)
Lemma meas0 (h : heap) w n psi dpsi H ya (y : 'M[R]_1) u : lookup h 0 = Some n -> n_measf n = Some H -> elementwise psi dpsi H ->
  n_y n = Some ya -> natleast1 ya = Nd1 y ->
  n_power n = Some p -> n_damp n = Some dm -> kwval (n_umeas n) None = Some (e_meas e) ->
  n_meas n = as_factor 1 -> nvb (n_marg n) u false -> big u ->
  exists f mg u', [/\ do_ev (Meas 0) (h, w) = ((update h 0 (set_meas f mg), w), Ok Datatypes.tt), nvb mg u' true & big u'].
Proof.
move=> hn hH he hy ey hp hd hu hf nm bu.
have [g eg ng] := nvb_div ic nm (nvb_factor ic); rewrite subr0 in ng.
have [_ _ /(_ bu) [hm hP]] := ng; set m := _ *m _ in hm; set P := invmx u.1 in hP m hm.
have pP : posdef P := big_posdef bu.
set J := map_mx dpsi m.
have pRp : posdef (p^-1 *: Rm) by apply: posdefZ; rewrite ?invr_gt0.
have [pZ pC] := affine_proper J 0 pRp m pP; rewrite /r_cov /r_cross /= in pZ pC.
set Z := _ + _ in pZ pC; set K := P *m J^T *m invmx Z; set C := P - _ in pC.
have es : exists x, e_meas e (Some H) g ya w = (w, Ok (gaussian (sh true x) (Nd2 C))).
  eexists; rewrite /= /proj_meas hP bindE; have := np_cholesky_ok pP; case: np_cholesky => //= L _.
  rewrite /andthen /pure_transform (tt_flat he hm hP) /= bindE ey.
  by rewrite (meas_stepE _ y p0 hm (arr1_vec (or_introl erefl)) hP (tr11 _) (squeeze_1 _) pZ).
have [x {}es] := es; set s := gaussian _ _ in es.
have ns : nvb s (invmx C, invmx C *m x) true := nvb_mom ic _ true pC.
set us := (invmx C, _) in ns.
have gs : gvalidate illcond s = Ok Datatypes.tt by rewrite /gvalidate bindE; apply/validate_covP => //; exact: pC.1.
have [r e1 v1] := nvb_div ic ns nm; have [rd e2 v2] := nvb_pow ic dm v1.
have [f e3 v3] := nvb_mul ic (nvb_factor ic) v2; have [rp e4 v4] := nvb_pow ic (dm / p) v1.
have [mg e5 v5] := nvb_mul ic nm v4; set u' := (_ + _) in v5.
have hb : big u'.
  have le : u.1 0 0 <= us.1 0 0.
    have -> : u.1 = invmx P by rewrite invmxK.
    apply: inv_le => //; rewrite /C mxE ger_addl mxE oppr_le0.
    by apply/possemi11/possemi_congr/posdef_semi/posdef_inv.
  apply: le_trans bu _; rewrite /u' /= [X in _ <= X]mxE ler_addl mxE mulr_ge0 ?divr_ge0 ?(ltW p0) //.
  by rewrite [X in _ <= X]mxE [X in _ <= _ + X]mxE subr_ge0.
exists f, mg, u'; split=> //.
move: es hu; move: (e_meas e) => pe es hu.
rewrite /= /call_meas /mbind /get /= hn hu /meas_update /mbind /get /= hn /lift hf eg /mtry hy /= /mworld /= hH.
rewrite es gs /power_update /mbind /lift hd hp /= e1 e2 e3 div_p e4 e5 (nvb_valid v5 hb).
by [].
Qed.

(** forward update of the next node: the Jacobian is squeezed to a scalar and the matrix product raises *)
Lemma fwd1 (h : heap) w n n' phi dphi F u : lookup h 0 = Some n -> lookup h 1 = Some n' -> n_prev n' = Some 0%N ->
  n_trans n' = Some F -> elementwise phi dphi F -> n_power n' = Some p -> kwval (n_ufwd n') None = Some (e_trans e) ->
  n_back n = as_factor 1 -> nvb (n_marg n) u true -> big u ->
  do_ev (Fwd 1) (h, w) = ((h, w), Err ValueErr).
Proof.
move=> hn hn' hpv hF he hp hu hb nm bu.
have [b e1 v1] := nvb_pow ic p^-1 (nvb_factor ic); have [g e2 v2] := nvb_div ic nm v1.
rewrite scaler0 subr0 in v2; have [_ _ /(_ bu) [hm hP]] := v2.
have es : e_trans e (Some F) g w = (w, Err ValueErr).
  by rewrite /= /proj_trans /andthen /pure_transform (tt_square he hm hP).
move: es hu; move: (e_trans e) => pe es hu.
rewrite /= /call_fwd /mbind /get /= hn' hu /fwd_update /mbind /get /= hn' /fwd_cavity /mtry /mbind /lift /get /= hpv /= hn hp /= over_p hb e1 e2.
rewrite /fwd_project /mtry /mbind /mworld /lift /ret hF.
by rewrite -[(h, w).2]/w es.
Qed.
End Abort.
