(** * A chain of one-dimensional nodes with any power and damping, by value

    [f], [z], [b] are the messages of a node in natural parameters; the code stores their powers. *)
Set Warnings "-notation-overridden,-ambiguous-paths".
From Coq Require Import Ring Field.
From mathcomp Require Import all_ssreflect all_algebra ssrAC.
From Verif Require Import Base FieldTac ND NDFacts PosDef LinAlg LinAlgFacts Gauss GaussFacts Nodes NodesFacts EPInv EPGauss
  Transforms TransformFacts Estimator EstimatorFacts EPEst SpecGauss SpecAssumed EPValue EPChain EPSweep.
Set Implicit Arguments.
Unset Strict Implicit.
Unset Printing Implicit Defensive.
Import GRing.Theory Num.Theory Order.Theory.
Local Open Scope ring_scope.

(** ** identities in a module *)
Section Lmod.
Variables (R : rcfType) (U : lmodType R).
Implicit Types (a f z b u c : U) (p g : R).
Lemma mix p g f u : (1 - g) *: (p *: f) + g *: (p *: u) = p *: (f + g *: (u - f)).
Proof.
rewrite scalerDr [in RHS]scalerA [p * g]mulrC -scalerA scalerBr scalerBr scalerBl scale1r.
by rewrite -!addrA; congr (_ + _); rewrite addrC.
Qed.
Lemma mix_diff p g f u : p *: (f + g *: (u - f)) - p *: f = p *: (g *: (u - f)).
Proof. by rewrite -scalerBr addrC addKr. Qed.
Lemma unscale p u : p != 0 -> p^-1 *: (p *: u) = u.
Proof. by move=> h; rewrite scalerA mulVf ?scale1r. Qed.
(** cavity and change of a factor whose stored power is divided out *)
Lemma cav_part p s z : s + z - p *: z = s + (1 - p) *: z.
Proof. by rewrite scalerBl scale1r addrA. Qed.
Lemma res_part p s z v : s + (1 - p) *: z + p *: v - (s + z) = p *: (v - z).
Proof.
rewrite scalerBl scale1r scalerBr !addrA opprD !addrA.
by rewrite [LHS](ACl ((1*5)*(2*6)*(4*3)))/= !subrr !add0r.
Qed.
End Lmod.

Section Power.
Variable R : rcfType.
Variable illcond : forall n, 'M[R]_n -> bool.
Hypothesis ic : forall A : 'M[R]_1, ~~ illcond A.
Variable W : Type.
Notation nd := (nd R).
Notation gauss := (gauss R).
Notation dfun := (dfun R).
Notation transform := (transform R W).
Notation estimator := (estimator gauss R dfun dfun nd W).
Notation V := ('M[R]_1 * 'M[R]_1)%type.
Notation mom := ('cV[R]_1 * 'M[R]_1)%type.
Notation node := (node gauss R dfun dfun nd W).
Notation heap := (heap gauss R dfun dfun nd W).
Notation state := (state gauss R dfun dfun nd W).
Notation nv := (nv illcond).
Notation momv := (momv illcond).
Notation acts := (acts illcond).
Notation fwd_update := (@fwd_update gauss R dfun dfun nd W (gmul illcond) (gdiv illcond) (gpow illcond) (gvalidate illcond)
  (@r_one_over R) (@r_one_minus R)).
Notation meas_update := (@meas_update gauss R dfun dfun nd W (gmul illcond) (gdiv illcond) (gpow illcond) (gvalidate illcond)
  (@r_sdiv R)).
Notation back_update := (@back_update gauss R dfun dfun nd W (gmul illcond) (gdiv illcond) (gpow illcond) (gvalidate illcond)
  (@r_one_over R) (@r_sdiv R)).
Notation fwd_cavity := (@fwd_cavity gauss R dfun dfun nd W (gdiv illcond) (gpow illcond) (@r_one_over R)).
Notation fwd_project := (@fwd_project gauss R dfun dfun nd W (gmul illcond) (gdiv illcond) (gpow illcond) (gvalidate illcond)
  (@r_one_over R) (@r_one_minus R)).
Notation power_update := (@power_update gauss R dfun dfun nd W (gmul illcond) (gdiv illcond) (gpow illcond) (gvalidate illcond)
  (@r_sdiv R)).
Notation do_ev := (@do_ev gauss R dfun dfun nd W (gmul illcond) (gdiv illcond) (gpow illcond)
  (gvalidate illcond) (@r_one_over R) (@r_one_minus R) (@r_sdiv R)).
Notation run := (@run gauss R dfun dfun nd W (gmul illcond) (gdiv illcond) (gpow illcond)
  (gvalidate illcond) (@r_one_over R) (@r_one_minus R) (@r_sdiv R)).

Variables (p g : R).
Hypothesis p0 : 0 < p.
Let pn0 : p != 0. Proof. exact: lt0r_neq0. Qed.
Let pi0 : 0 < p^-1. Proof. by rewrite invr_gt0. Qed.
Lemma one_over_p : r_one_over p = Ok p^-1.
Proof. by rewrite /r_one_over (negbTE pn0). Qed.
Lemma sdiv_p : r_sdiv g p = Ok (g / p).
Proof. by rewrite /r_sdiv (negbTE pn0). Qed.

(** *** the projections *)
Lemma proj_trans_valp (T : transform) F (r : rule R 1 1) (Q : 'M[R]_1) s m P w : acts T F r -> proper r Q -> momv s m P -> posdef P ->
  exists w', proj_trans T (Nd2 Q) p F s w = (w', Ok (gaussian (Nd1 (r_mean r m P)) (Nd2 (p^-1 *: (r_cov r m P + Q))))).
Proof.
move=> hT hr hg pP; have [w' [a [h1 h2]]] := hT s m P w hg pP; exists w'; have [pC _] := hr m P pP.
by rewrite /proj_trans h1 /andthen /= bindE (time_stepE _ p0 (tr11 _) (tr11 _) _ h2) //; apply: PosDef.posdefZ.
Qed.
Lemma proj_meas_valp (T : transform) F k (r : rule R 1 k) (Rm : 'M[R]_k) s m P ya (y : 'cV[R]_k) w : acts T F r ->
  proper r (p^-1 *: Rm) -> momv s m P -> posdef P -> natleast1 ya = Nd1 y ->
  let K := r_cross r m P *m invmx (r_cov r m P + p^-1 *: Rm) in
  exists w', proj_meas illcond T (Nd2 Rm) p F s ya w =
    (w', Ok (gaussian (Nd2 (m + K *m (y - r_mean r m P))) (Nd2 (P - K *m (r_cross r m P)^T)))).
Proof.
move=> hT hr hg pP hy K; have [w' [a [h1 h2]]] := hT s m P w hg pP; exists w'.
have [pZ _] := hr m P pP; have [[ma hm vm] hP] := hg.
rewrite /proj_meas hP bindE; have := np_cholesky_ok pP; case: np_cholesky => //= L _.
rewrite h1 /andthen /= bindE hy (meas_stepE _ y p0 hm (arr1_vec vm) hP (tr11 _) h2) //.
by rewrite outer_add1 tr11.
Qed.
(** [t]: the state the smoother conditions on *)
Lemma proj_back_valp (T : transform) F (r : rule R 1 1) (Q : 'M[R]_1) s m P cav nx (t : mom) w : acts T F r ->
  proper r (p^-1 *: Q) -> momv s m P -> posdef P ->
  (forall a, natleast1 a = Nd1 (r_mean r m P) -> exists2 ms, back_target illcond p cav nx a (Nd2 (r_cov r m P + p^-1 *: Q)) = Ok (ms, Nd2 t.2) & arr1 ms t.1) ->
  let J := r_cross r m P *m invmx (r_cov r m P + p^-1 *: Q) in
  exists w' b, proj_back illcond T (Nd2 Q) p F s cav nx w =
    (w', Ok (gaussian b (Nd2 (P + J *m (t.2 - (r_cov r m P + p^-1 *: Q)) *m J^T)))) /\
    arr1 b (m + J *m (t.1 - r_mean r m P)).
Proof.
move=> hT hr hg pP ht J; have [w' [a [h1 h2]]] := hT s m P w hg pP; exists w'.
have [pC _] := hr m P pP; have [[ma hm vm] hP] := hg; have [ms et vs] := ht a h2.
have [d1 e1 v1] := nsub_arr01 vs h2; have [d2 e2 v2] := ndot_arr1 J v1; have [d3 e3 v3] := nadd_arr1 vm v2.
exists d3; split=> //; rewrite /proj_back h1 /andthen /= bindE; congr (_, _).
rewrite /back_step ndivs_ok // bindE /= niaddmm bindE symmetrize_sym ?tr11 // bindE.
rewrite np_solvemm ?posdef_unit // bindE et bindE hm bindE e1 bindE /=.
have -> : (invmx (r_cov r m P + p^-1 *: Q) *m r_cross r m P)^T = J by rewrite tr11 mulC11.
by rewrite e2 bindE e3 bindE hP bindE nsubmm bindE nmatmulmm bindE nmatmulmm bindE naddmm bindE symmetrize_sym ?tr11 // bindE.
Qed.
(** a power other than 1: the prediction times the cavity of the next node *)
Lemma target_lt1 cav nx a (m C : 'M[R]_1) L : p != 1 -> natleast1 a = Nd1 m -> posdef C -> nv cav L ->
  let u := toV (m, C) + p *: L in big u ->
  exists2 ms, back_target illcond p cav nx a (Nd2 C) = Ok (ms, Nd2 (ofV u).2) & arr1 ms (ofV u).1.
Proof.
move=> p1 ha pC hL u hu; rewrite /back_target (negbTE p1).
have [cp e1 v1] := nv_pow ic p hL.
have na : nv (gaussian (Nd1 m) (Nd2 C)) (toV (m, C)) by apply: (nv_mom ic) => //; left.
have [q e2 v2] := nv_mul ic na v1; have [[[ms e3 v3] e4] _] := nv_momv v2 hu.
have eg : gaussian a (Nd2 C) = gaussian (Nd1 m) (Nd2 C) by rewrite /gaussian ha.
by exists ms => //; rewrite e1 bindE eg e2 bindE e3 bindE e4 bindE.
Qed.
(** power 1: the marginal of the next node *)
Lemma target_1 cav s a X u : p = 1 -> nv s u -> big u ->
  exists2 ms, back_target illcond p cav (Some s) a X = Ok (ms, Nd2 (ofV u).2) & arr1 ms (ofV u).1.
Proof.
move=> e1 hs hu; have [[[ms e3 v3] e4] _] := nv_momv hs hu.
by exists ms => //; rewrite /back_target e1 eqxx e3 bindE e4 bindE.
Qed.

(** *** the steps of an update *)
Lemma fwd_project_valp (n : node) (pt : PT gauss dfun W) cav st w' s u0 u um :
  n_power n = Some p -> n_damp n = Some g -> pt (n_trans n) cav st.2 = (w', Ok s) -> gvalidate illcond s = Ok tt ->
  nv s (p *: u) -> nv (n_fwd n) (p *: u0) -> nv (n_marg n) um -> big (um + g *: (u - u0)) ->
  exists f m, [/\ fwd_project n pt cav st = ((st.1, w'), Ok (Some (f, m))), nv f (p *: (u0 + g *: (u - u0))) & nv m (um + g *: (u - u0))].
Proof.
move=> hp hd e gs hs h0 hm hb.
have [f1 e1 v1] := nv_pow ic (1 - g) h0; have [f2 e2 v2] := nv_pow ic g hs; have [f e3 v3] := nv_mul ic v1 v2.
rewrite mix in v3; have [q e4 v4] := nv_div ic v3 h0; rewrite mix_diff in v4.
have [qp e5 v5] := nv_pow ic p^-1 v4; rewrite unscale // in v5; have [m e6 v6] := nv_mul ic hm v5.
exists f, m; split=> //.
rewrite /fwd_project /mtry /mbind /mworld /lift /ret e gs hd hp /= e1 e2 e3 e4 one_over_p e5 e6.
by rewrite (nv_valid v6 hb).
Qed.
Lemma power_update_valp (n : node) st s fac cav us uf um d :
  n_power n = Some p -> n_damp n = Some g -> nv s us -> nv fac (p *: uf) -> nv (n_marg n) um -> us - um = p *: d -> big (um + g *: d) ->
  exists f m, [/\ power_update n s fac (n_marg n) cav st = (st, Ok (f, m)), nv f (p *: (uf + g *: d)) & nv m (um + g *: d)].
Proof.
move=> hp hd hs hf hm ed hb; have [r e1 v1] := nv_div ic hs hm; rewrite ed in v1.
have [rd e2 v2] := nv_pow ic g v1; have [rp e5 v5] := nv_pow ic (g / p) v1.
have [f e3 v3] := nv_mul ic hf v2; rewrite scalerA [g * p]mulrC -scalerA -scalerDr in v3.
rewrite -scalerA unscale // in v5; have [m e4 v4] := nv_mul ic hm v5.
exists f, m; split=> //.
by rewrite /power_update /mbind /lift /ret hd hp /= e1 e2 e3 sdiv_p e5 e4 (nv_valid v4 hb).
Qed.

(** *** the chain *)
Variables (k N : nat) (tm mm : transform) (F : nat -> dfun) (H : dfun) (A : approx R 1 k) (y : nat -> 'cV[R]_k)
  (ys : nat -> nd) (g0 : gauss) (base : V).
Let e := mk_estimator illcond tm mm (Nd2 (a_Q A)) (Nd2 (a_R A)) p g.
(** the model with both noises divided by the power *)
Definition weaker : approx R 1 k := Approx (a_f A) (a_h A) (p^-1 *: a_Q A) (p^-1 *: a_R A) (a_m0 A) (a_P0 A).

Definition pnode_at (i : nat) (n : node) : Prop :=
  [/\ n_prev n = (if i is i'.+1 then Some i' else None) /\ n_next n = (if (i.+1 < N)%N then Some i.+1 else None),
      [/\ n_trans n = Some (F i), n_measf n = Some H, n_y n = Some (ys i) & i = 0%N -> n_prior n = Some g0],
      n_power n = Some p /\ n_damp n = Some g &
      [/\ kwval (n_ufwd n) None = Some (e_trans e), kwval (n_umeas n) None = Some (e_meas e) &
          kwval (n_uback n) None = Some (e_back e)]].
Definition pvals (n : node) (f z b : V) : Prop :=
  [/\ nv (n_fwd n) (p *: f), nv (n_meas n) (p *: z), nv (n_back n) (p *: b) & nv (n_marg n) (base + f + z + b)].
Definition pchain (h : heap) (f z b : nat -> V) : Prop := forall i, (i < N)%N ->
  exists n, [/\ lookup h i = Some n, pnode_at i n & pvals n (f i) (z i) (b i)].

Lemma pchain_ext h f z b f' z' b' : (forall i, (i < N)%N -> [/\ f i = f' i, z i = z' i & b i = b' i]) ->
  pchain h f z b -> pchain h f' z' b'.
Proof. by move=> he hc i hi; have [<- <- <-] := he i hi; exact: hc. Qed.
Lemma pnode_set i n n' : pnode_at i n ->
  n_prev n' = n_prev n /\ n_next n' = n_next n -> 
  [/\ n_trans n' = n_trans n, n_measf n' = n_measf n, n_y n' = n_y n & n_prior n' = n_prior n] ->
  n_power n' = n_power n /\ n_damp n' = n_damp n ->
  [/\ n_ufwd n' = n_ufwd n, n_umeas n' = n_umeas n & n_uback n' = n_uback n] -> pnode_at i n'.
Proof.
rewrite /pnode_at => -[[a1 a2] [a3 a4 a5 a6] [a7 a8] [a9 a10 a11]] [-> ->] [-> -> -> ->] [-> ->] [-> -> ->].
by split.
Qed.

Hypothesis mod : forall i, (i < N)%N -> [/\ acts tm (F i) (a_f A i), acts mm H (a_h A i), proper (a_f A i) (a_Q A) /\ proper (a_f A i) (p^-1 *: a_Q A),
  proper (a_h A i) (p^-1 *: a_R A) & natleast1 (ys i) = Nd1 (y i)].
Hypothesis prior : momv g0 (a_m0 A) (a_P0 A) /\ posdef (a_P0 A).

Lemma fwd_cavity_valp h w f z b i n : pchain h f z b -> (i < N)%N -> lookup h i = Some n -> pnode_at i n -> cav_big base f z i ->
  exists2 s, fwd_cavity n (h, w) = ((h, w), Ok s) & momv s (cav_fwd A base f z i).1 (cav_fwd A base f z i).2 /\ posdef (cav_fwd A base f z i).2.
Proof.
move=> hc hi hn [[hp _] [_ _ _ h0] [hpw _] _] hb; case: i hi hp h0 hb hn => [|i] hi hp h0 hb hn.
  exists g0 => //; rewrite /fwd_cavity /mtry /mbind /lift /get hp /= (h0 erefl); by [].
have [pn [hl _ [v1 v2 v3 v4]]] := hc i (ltnW hi).
have [bf e1 w1] := nv_pow ic p^-1 v3; rewrite unscale // in w1; have [s e2 w2] := nv_div ic v4 w1.
rewrite addrK in w2; exists s; last exact: nv_momv.
by rewrite /fwd_cavity /mtry /mbind /lift /get hp /= hl hpw /= one_over_p e1 e2.
Qed.

Lemma toVZ (m C : 'M[R]_1) : posdef C -> toV (m, p^-1 *: C) = p *: toV (m, C).
Proof.
move=> pC; rewrite /toV /= invmxZ ?unitmxZ ?unitfE ?invr_eq0 ?posdef_unit // invrK -scalemxAl.
by rewrite /GRing.scale /=.
Qed.
Lemma swap4g (a f z b u : V) : a + f + z + b + g *: (u - f) = a + (f + g *: (u - f)) + z + b.
Proof. by rewrite [a + (_ + _)]addrA [LHS](ACl ((1*2*5)*3*4)). Qed.
Lemma fwd_valp h w f z b i : pchain h f z b -> (i < N)%N -> cav_big base f z i ->
  let u := f i + g *: (toV (a_pred A i (cav_fwd A base f z i)) - f i) in big (base + u + z i + b i) ->
  exists h' w', do_ev (Fwd i) (h, w) = ((h', w'), Ok tt) /\ pchain h' (upd f i u) z b.
Proof.
move=> hc hi hcb u hb; have [n [hn hna [v1 v2 v3 v4]]] := hc i hi.
have [s eg [mg pg]] := fwd_cavity_valp w hc hi hn hna hcb.
have [a1 a2 [a3 _] a4 a5] := mod hi.
have [w' ew] := proj_trans_valp w a1 a3 mg pg.
set m := r_mean _ _ _ in ew; set P := r_cov _ _ _ + _ in ew.
have pP : posdef P := (a3 _ _ pg).1; have pP' : posdef (p^-1 *: P) by apply: PosDef.posdefZ.
have ms : momv (gaussian (Nd1 m) (Nd2 (p^-1 *: P))) m (p^-1 *: P) by apply: momv_gaussian; left.
have ns : nv (gaussian (Nd1 m) (Nd2 (p^-1 *: P))) (p *: toV (m, P)).
  by rewrite -toVZ //; apply: (nv_mom ic) => //; left.
have [_ [ht _ _ _] [hp hd] [hu _ _]] := hna.
have hb' : big (base + f i + z i + b i + g *: (toV (m, P) - f i)) by rewrite swap4g.
have ep : e_trans e (n_trans n) s (h, w).2 = (w', Ok (gaussian (Nd1 m) (Nd2 (p^-1 *: P)))) by rewrite ht /=.
have [ff [mm' [e1 w1 w2]]] := fwd_project_valp hp hd ep (momv_valid ms pP') ns v1 v4 hb'.
exists (update h i (set_fwd ff mm')), w'; split.
  by rewrite /= /call_fwd /mbind /get /= hn hu /fwd_update /mbind /get /= hn eg e1.
move=> j hj; rewrite lookup_update /upd; case: eqP => [->|_]; last exact: hc.
rewrite hn /=; eexists; split; [reflexivity|exact: pnode_set hna _ _ _ _|].
by split=> //=; rewrite -swap4g.
Qed.

Lemma swapzg (a f z b u : V) : a + f + z + b + g *: u = a + f + (z + g *: u) + b.
Proof. by rewrite [a + f + (_ + _)]addrA [LHS](ACl (1*2*3*5*4)). Qed.
Lemma swapbg (a f z b u : V) : a + f + z + b + g *: u = a + f + z + (b + g *: u).
Proof. by rewrite addrA. Qed.
Lemma meas_valp h w f z b i v : pchain h f z b -> (i < N)%N -> let C := base + f i + b i + (1 - p) *: z i in
  big C -> toV (a_corr weaker y i (ofV C)) = C + p *: v ->
  let u := z i + g *: (v - z i) in big (base + f i + u + b i) ->
  exists h' w', do_ev (Meas i) (h, w) = ((h', w'), Ok tt) /\ pchain h' f (upd z i u) b.
Proof.
move=> hc hi C hcb ev u hb; have [n [hn hna [v1 v2 v3 v4]]] := hc i hi.
have [s eg ng] := nv_div ic v4 v2; rewrite [base + f i + z i + b i]addrAC cav_part -/C in ng.
have [mg pg] := nv_momv ng hcb.
have [a1 a2 a3 a4 a5] := mod hi.
have [w' ew] := proj_meas_valp w a2 a4 mg pg a5.
set m := (ofV C).1 + _ in ew; set P := (ofV C).2 - _ in ew.
have pP : posdef P by have [_] := a4 (ofV C).1 _ pg.
have ms : momv (gaussian (Nd2 m) (Nd2 P)) m P by apply: momv_gaussian; right.
have ns : nv (gaussian (Nd2 m) (Nd2 P)) (C + p *: v) by rewrite -ev; apply: (nv_mom ic) => //; right.
have [_ [_ ht hy _] [hp hd] [_ hu _]] := hna.
have ep : e_meas e (n_measf n) s (ys i) w = (w', Ok (gaussian (Nd2 m) (Nd2 P))) by rewrite ht /=.
have ed : C + p *: v - (base + f i + z i + b i) = p *: (v - z i) by rewrite [base + f i + z i + b i]addrAC res_part.
have hb' : big (base + f i + z i + b i + g *: (v - z i)) by rewrite swapzg.
have [ff [mm' [e1 w1 w2]]] := power_update_valp (h, w') s hp hd ns v2 v4 ed hb'.
exists (update h i (set_meas ff mm')), w'; split.
  move: ep hu; move: (e_meas e) => pm ep hu.
  rewrite /= /call_meas /mbind /get /= hn hu /meas_update /mbind /get /= hn /lift eg.
  by rewrite /mtry hy /= /mworld /= ep (momv_valid ms pP) e1.
move=> j hj; rewrite lookup_update /upd; case: eqP => [->|_]; last exact: hc.
rewrite hn /=; eexists; split; [reflexivity|exact: pnode_set hna _ _ _ _|].
by split=> //=; rewrite -swapzg.
Qed.

(** what the smoother conditions on *)
Definition target (f z b : nat -> V) (i : nat) (C : V) : V :=
  if p == 1 then base + f i.+1 + z i.+1 + b i.+1
  else toV (a_pred weaker i.+1 (ofV C)) + p *: (base + z i.+1 + b i.+1).
Lemma back_valp h w f z b i v : pchain h f z b -> (i.+1 < N)%N -> let C := base + f i + z i + (1 - p) *: b i in
  big C -> let t := target f z b i C in big t ->
  posdef (a_back weaker i.+1 (ofV C) (ofV t)).2 -> toV (a_back weaker i.+1 (ofV C) (ofV t)) = C + p *: v ->
  let u := b i + g *: (v - b i) in big (base + f i + z i + u) ->
  exists h' w', do_ev (Back i) (h, w) = ((h', w'), Ok tt) /\ pchain h' f z (upd b i u).
Proof.
move=> hc hi C hcb t hbt pu ev u hb; have [n [hn hna [v1 v2 v3 v4]]] := hc i (ltnW hi).
have [n2 [hn2 hna2 [x1 x2 x3 x4]]] := hc i.+1 hi.
have [s eg ng] := nv_div ic v4 v3; rewrite cav_part -/C in ng.
have [mg pg] := nv_momv ng hcb.
have [a1 _ [_ a3] _ _] := mod hi.
have [ff ef vf] := nv_pow ic p^-1 x1; rewrite unscale // in vf; have [cav ec vc] := nv_div ic x4 vf.
have ecav : base + f i.+1 + z i.+1 + b i.+1 - f i.+1 = base + z i.+1 + b i.+1.
  by rewrite [LHS](ACl ((1*3*4)*(2*5)))/= subrr addr0.
rewrite ecav in vc.
have [pC _] := a3 (ofV C).1 _ pg.
have ht : forall a, natleast1 a = Nd1 (r_mean (a_f A i.+1) (ofV C).1 (ofV C).2) ->
    exists2 ms, back_target illcond p cav (Some (n_marg n2)) a (Nd2 (r_cov (a_f A i.+1) (ofV C).1 (ofV C).2 + p^-1 *: a_Q A)) = Ok (ms, Nd2 (ofV t).2) & arr1 ms (ofV t).1.
  move=> a ha; rewrite /t /target in hbt *; case: eqP hbt => [e1|/eqP ne] hbt; first exact: target_1 e1 x4 hbt.
  exact: target_lt1 ne ha pC vc hbt.
have [w' [bb [ew hbb]]] := proj_back_valp w a1 a3 mg pg ht.
set m := (_ + _) in hbb; set P := (ofV C).2 + _ in ew.
have pP : posdef P := pu.
have ms : momv (gaussian bb (Nd2 P)) m P by apply: momv_gaussian.
have ns : nv (gaussian bb (Nd2 P)) (C + p *: v) by rewrite -ev; apply: (nv_mom ic).
have [[_ hx] _ [hp hd] [_ _ hu]] := hna; have [_ [htr _ _ _] _ _] := hna2.
have ep : e_back e (n_trans n2) s cav (Some (n_marg n2)) w = (w', Ok (gaussian bb (Nd2 P))) by rewrite htr /=.
have ed : C + p *: v - (base + f i + z i + b i) = p *: (v - b i) by rewrite res_part.
have hb' : big (base + f i + z i + b i + g *: (v - b i)) by rewrite swapbg.
have [ff' [mm' [e1 w1 w2]]] := power_update_valp (h, w') s hp hd ns v3 v4 ed hb'.
exists (update h i (set_back ff' mm')), w'; split.
  move: ep hu; move: (e_back e) => pb ep hu.
  rewrite /= /call_back /mbind /get /= hn hu /back_update /mbind /get /= hn /lift eg.
  rewrite /mtry hx hi /= /mbind /get /= hn2 hp /= one_over_p ef ec /ret /= /mworld /= ep (momv_valid ms pP) e1.
  by [].
move=> j hj; rewrite lookup_update /upd; case: eqP => [->|_]; last exact: hc.
rewrite hn /=; eexists; split; [reflexivity|exact: pnode_set hna _ _ _ _|].
by split=> //=; rewrite -swapbg.
Qed.
Lemma back_lastp h w f z b i : pchain h f z b -> (i < N)%N -> (N <= i.+1)%N -> exists w', do_ev (Back i) (h, w) = ((h, w'), Ok tt).
Proof.
move=> hc hi hN.
have [n [hn [[_ hx] _ _ [_ _ hu]] [v1 v2 v3 v4]]] := hc _ hi; have [s eg _] := nv_div ic v4 v3; exists w.
rewrite ltnNge hN /= in hx.
by rewrite /= /call_back /mbind /get /= hn hu /back_update /mbind /get /= hn /lift eg /mtry hx.
Qed.
End Power.
