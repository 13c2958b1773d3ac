(** * A chain of one-dimensional nodes with power = damping = 1, by value *)
Set Warnings "-notation-overridden,-ambiguous-paths".
From mathcomp Require Import all_ssreflect all_algebra ssrAC.
From Verif Require Import Base ND NDFacts PosDef LinAlg LinAlgFacts Gauss GaussFacts Nodes NodesFacts EPInv EPGauss
  Transforms TransformFacts Estimator EstimatorFacts EPEst SpecAssumed EPValue.
Set Implicit Arguments.
Unset Strict Implicit.
Unset Printing Implicit Defensive.
Import GRing.Theory Num.Theory Order.Theory.
Local Open Scope ring_scope.

Section Chain.
Variable R : rcfType.
Variable illcond : forall n, 'M[R]_n -> bool.
Hypothesis ic : forall A : 'M[R]_1, ~~ illcond A.
Variable W : Type.
Notation nd := (nd R).
Notation gauss := (gauss R).
Notation dfun := (dfun R).
Notation transform := (transform R W).
Notation estimator := (estimator gauss R dfun dfun nd W).
Notation V := ('M[R]_1 * 'M[R]_1)%type.
Notation node := (node gauss R dfun dfun nd W).
Notation heap := (heap gauss R dfun dfun nd W).
Notation state := (state gauss R dfun dfun nd W).
Notation nv := (nv illcond).
Notation momv := (momv illcond).
Notation acts := (acts illcond).
Notation fwd_update := (@fwd_update gauss R dfun dfun nd W (gmul illcond) (gdiv illcond) (gpow illcond) (gvalidate illcond)
  (@r_one_over R) (@r_one_minus R)).
Notation meas_update := (@meas_update gauss R dfun dfun nd W (gmul illcond) (gdiv illcond) (gpow illcond) (gvalidate illcond)
  (@r_sdiv R)).
Notation back_update := (@back_update gauss R dfun dfun nd W (gmul illcond) (gdiv illcond) (gpow illcond) (gvalidate illcond)
  (@r_one_over R) (@r_sdiv R)).
Notation fwd_cavity := (@fwd_cavity gauss R dfun dfun nd W (gdiv illcond) (gpow illcond) (@r_one_over R)).
Notation fwd_project := (@fwd_project gauss R dfun dfun nd W (gmul illcond) (gdiv illcond) (gpow illcond) (gvalidate illcond)
  (@r_one_over R) (@r_one_minus R)).
Notation power_update := (@power_update gauss R dfun dfun nd W (gmul illcond) (gdiv illcond) (gpow illcond) (gvalidate illcond)
  (@r_sdiv R)).
Notation do_ev := (@do_ev gauss R dfun dfun nd W (gmul illcond) (gdiv illcond) (gpow illcond)
  (gvalidate illcond) (@r_one_over R) (@r_one_minus R) (@r_sdiv R)).
Notation run := (@run gauss R dfun dfun nd W (gmul illcond) (gdiv illcond) (gpow illcond)
  (gvalidate illcond) (@r_one_over R) (@r_one_minus R) (@r_sdiv R)).

Lemma one_over1 : r_one_over (1 : R) = Ok 1.
Proof. by rewrite /r_one_over oner_eq0 invr1. Qed.
Lemma one_minus1 : r_one_minus (1 : R) = Ok 0.
Proof. by rewrite /r_one_minus subrr. Qed.
Lemma sdiv11 : r_sdiv (1 : R) 1 = Ok 1.
Proof. by rewrite /r_sdiv oner_eq0 divr1. Qed.

(** precision not below the threshold *)
Definition big (u : V) : Prop := trace_min R <= u.1 0 0.
Lemma big_posdef u : big u -> posdef (invmx u.1).
Proof. by move=> h; apply/posdef_inv/posdef11/(lt_le_trans (trace_min_gt0 R)). Qed.
Lemma nv_valid g u : nv g u -> big u -> gvalidate illcond g = Ok tt.
Proof. by move=> [_ h] hb; apply: (momv_valid (h hb)); exact: big_posdef. Qed.

Lemma swap4 (U : zmodType) (a f z b u : U) : a + f + z + b + (u - f) = a + u + z + b.
Proof. by rewrite addrA [LHS](ACl ((1*5*3*4)*(2*6)))/= subrr addr0. Qed.
Lemma swap_z (U : zmodType) (a f z b u : U) : z + (u - (a + f + z + b)) = u - (a + f + b).
Proof. by rewrite !opprD !addrA [LHS](ACl ((2*3*4*6)*(1*5)))/= subrr addr0. Qed.
Lemma swap_b (U : zmodType) (a f z b u : U) : b + (u - (a + f + z + b)) = u - (a + f + z).
Proof. by rewrite !opprD !addrA [LHS](ACl ((2*3*4*5)*(1*6)))/= subrr addr0. Qed.
Lemma sum_z (U : zmodType) (a f b u : U) : a + f + (u - (a + f + b)) + b = u.
Proof. by rewrite addrAC addrC subrK. Qed.
Lemma sum_b (U : zmodType) (s u : U) : s + (u - s) = u.
Proof. by rewrite addrC subrK. Qed.

(** *** the steps of an update *)
Lemma fwd_project_val (n : node) (p : PT gauss dfun W) cav st w' s u0 u um :
  n_power n = Some 1 -> n_damp n = Some 1 -> p (n_trans n) cav st.2 = (w', Ok s) -> gvalidate illcond s = Ok tt ->
  nv s u -> nv (n_fwd n) u0 -> nv (n_marg n) um -> big (um + (u - u0)) ->
  exists f m, [/\ fwd_project n p cav st = ((st.1, w'), Ok (Some (f, m))), nv f u & nv m (um + (u - u0))].
Proof.
move=> hp hd e gs hs h0 hm hb.
have [f1 e1 v1] := nv_pow ic 0 h0; have [f2 e2 v2] := nv_pow ic 1 hs; have [f e3 v3] := nv_mul ic v1 v2.
have ef : 0 *: u0 + 1 *: u = u by rewrite scale0r add0r scale1r.
rewrite ef in v3; have [q e4 v4] := nv_div ic v3 h0; have [qp e5 v5] := nv_pow ic 1 v4.
rewrite scale1r in v5; have [m e6 v6] := nv_mul ic hm v5.
exists f, m; split=> //.
rewrite /fwd_project /mtry /mbind /mworld /lift /ret e gs hd hp /= subrr e1 e2 e3 e4 one_over1 e5 e6.
by rewrite (nv_valid v6 hb).
Qed.

Lemma power_update_val (n : node) st s fac cav us uf um :
  n_power n = Some 1 -> n_damp n = Some 1 -> nv s us -> nv fac uf -> nv (n_marg n) um -> big us ->
  exists f m, [/\ power_update n s fac (n_marg n) cav st = (st, Ok (f, m)), nv f (uf + (us - um)) & nv m us].
Proof.
move=> hp hd hs hf hm hb; have [r e1 v1] := nv_div ic hs hm; have [rd e2 v2] := nv_pow ic 1 v1.
rewrite scale1r in v2; have [f e3 v3] := nv_mul ic hf v2; have [m e4 v4] := nv_mul ic hm v2.
have em : um + (us - um) = us by rewrite addrC subrK.
rewrite em in v4; exists f, m; split=> //.
by rewrite /power_update /mbind /lift /ret hd hp /= e1 e2 e3 sdiv11 e2 e4 (nv_valid v4 hb).
Qed.

(** *** the chain *)
Variables (k N : nat) (tm mm : transform) (F : nat -> dfun) (H : dfun) (A : approx R 1 k) (y : nat -> 'cV[R]_k)
  (ys : nat -> nd) (g0 : gauss) (base : V).
Let e := mk_estimator illcond tm mm (Nd2 (a_Q A)) (Nd2 (a_R A)) 1 1.

Definition node_at (i : nat) (n : node) : Prop :=
  [/\ n_prev n = (if i is i'.+1 then Some i' else None) /\ n_next n = (if (i.+1 < N)%N then Some i.+1 else None),
      [/\ n_trans n = Some (F i), n_measf n = Some H, n_y n = Some (ys i) & i = 0%N -> n_prior n = Some g0],
      n_power n = Some 1 /\ n_damp n = Some 1 &
      [/\ kwval (n_ufwd n) None = Some (e_trans e), kwval (n_umeas n) None = Some (e_meas e) &
          kwval (n_uback n) None = Some (e_back e)]].
(** natural parameters of the factors and of the marginal of node [i] *)
Definition vals (n : node) (f z b : V) : Prop :=
  [/\ nv (n_fwd n) f, nv (n_meas n) z, nv (n_back n) b & nv (n_marg n) (base + f + z + b)].
Definition chain (h : heap) (f z b : nat -> V) : Prop := forall i, (i < N)%N ->
  exists n, [/\ lookup h i = Some n, node_at i n & vals n (f i) (z i) (b i)].
Definition upd (f : nat -> V) (i : nat) (u : V) : nat -> V := fun j => if j == i then u else f j.

Lemma chain_ext h f z b f' z' b' : (forall i, (i < N)%N -> [/\ f i = f' i, z i = z' i & b i = b' i]) ->
  chain h f z b -> chain h f' z' b'.
Proof. by move=> he hc i hi; have [<- <- <-] := he i hi; exact: hc. Qed.
Lemma node_set i n n' : node_at i n ->
  n_prev n' = n_prev n /\ n_next n' = n_next n -> 
  [/\ n_trans n' = n_trans n, n_measf n' = n_measf n, n_y n' = n_y n & n_prior n' = n_prior n] ->
  n_power n' = n_power n /\ n_damp n' = n_damp n ->
  [/\ n_ufwd n' = n_ufwd n, n_umeas n' = n_umeas n & n_uback n' = n_uback n] -> node_at i n'.
Proof.
rewrite /node_at => -[[a1 a2] [a3 a4 a5 a6] [a7 a8] [a9 a10 a11]] [-> ->] [-> -> -> ->] [-> ->] [-> -> ->].
by split.
Qed.

Hypothesis mod : forall i, (i < N)%N -> [/\ acts tm (F i) (a_f A i), acts mm H (a_h A i), proper (a_f A i) (a_Q A),
  proper (a_h A i) (a_R A) & natleast1 (ys i) = Nd1 (y i)].
Hypothesis prior : momv g0 (a_m0 A) (a_P0 A) /\ posdef (a_P0 A).

(** natural parameters of moments and back *)
Notation mom := ('cV[R]_1 * 'M[R]_1)%type.
Definition toV (g : mom) : V := (invmx g.2, invmx g.2 *m g.1).
Definition ofV (u : V) : mom := (invmx u.1 *m u.2, invmx u.1).
Lemma ofVK u : u.1 \in unitmx -> toV (ofV u) = u.
Proof. by case: u => a b ua; rewrite /toV /ofV /= invmxK mulmxA mulmxV ?mul1mx. Qed.
Lemma toVK g : g.2 \in unitmx -> ofV (toV g) = g.
Proof. by case: g => a b ub; rewrite /toV /ofV /= invmxK mulmxA mulmxV ?mul1mx. Qed.
Lemma nv_momv g u : nv g u -> big u -> momv g (ofV u).1 (ofV u).2 /\ posdef (ofV u).2.
Proof. by move=> [_ h] hb; split; [exact: h|exact: big_posdef]. Qed.

(** the cavity of the forward update of node [i] *)
Definition cav_fwd (f z : nat -> V) (i : nat) : mom := if i is i'.+1 then ofV (base + f i' + z i') else (a_m0 A, a_P0 A).
Definition cav_big (f z : nat -> V) (i : nat) : Prop := if i is i'.+1 then big (base + f i' + z i') else True.

Lemma fwd_cavity_val h w f z b i n : chain h f z b -> (i < N)%N -> lookup h i = Some n -> node_at i n -> cav_big f z i ->
  exists2 g, fwd_cavity n (h, w) = ((h, w), Ok g) & momv g (cav_fwd f z i).1 (cav_fwd f z i).2 /\ posdef (cav_fwd f z i).2.
Proof.
move=> hc hi hn [[hp _] [_ _ _ h0] [hpw _] _] hb; case: i hi hp h0 hb hn => [|i] hi hp h0 hb hn.
  exists g0 => //; rewrite /fwd_cavity /mtry /mbind /lift /get hp /= (h0 erefl); by [].
have [pn [hl _ [v1 v2 v3 v4]]] := hc i (ltnW hi).
have [bf e1 w1] := nv_pow ic 1 v3; rewrite scale1r in w1; have [g e2 w2] := nv_div ic v4 w1.
rewrite addrK in w2; exists g; last exact: nv_momv.
by rewrite /fwd_cavity /mtry /mbind /lift /get hp /= hl hpw /= one_over1 e1 e2.
Qed.

Lemma fwd_val h w f z b i : chain h f z b -> (i < N)%N -> cav_big f z i ->
  let u := toV (a_pred A i (cav_fwd f z i)) in big (base + u + z i + b i) ->
  exists h' w', do_ev (Fwd i) (h, w) = ((h', w'), Ok tt) /\ chain h' (upd f i u) z b.
Proof.
move=> hc hi hcb u hb; have [n [hn hna [v1 v2 v3 v4]]] := hc i hi.
have [g eg [mg pg]] := fwd_cavity_val w hc hi hn hna hcb.
have [a1 a2 a3 a4 a5] := mod hi.
have [w' ew] := proj_trans_val w a1 a3 mg pg.
set m := r_mean _ _ _ in ew; set P := r_cov _ _ _ + _ in ew.
have pP : posdef P := (a3 _ _ pg).1.
have ms : momv (gaussian (Nd1 m) (Nd2 P)) m P by apply: momv_gaussian; left.
have ns : nv (gaussian (Nd1 m) (Nd2 P)) u by apply: (nv_mom ic) => //; left.
have [_ [ht _ _ _] [hp hd] [hu _ _]] := hna.
have hb' : big (base + f i + z i + b i + (u - f i)).
  by rewrite swap4.
have ep : e_trans e (n_trans n) g (h, w).2 = (w', Ok (gaussian (Nd1 m) (Nd2 P))) by rewrite ht /=.
have [ff [mm' [e1 w1 w2]]] := fwd_project_val hp hd ep (momv_valid ms pP) ns v1 v4 hb'.
exists (update h i (set_fwd ff mm')), w'; split.
  by rewrite /= /call_fwd /mbind /get /= hn hu /fwd_update /mbind /get /= hn eg e1.
move=> j hj; rewrite lookup_update /upd; case: eqP => [->|_]; last exact: hc.
rewrite hn /=; eexists; split; [reflexivity|exact: node_set hna _ _ _ _|].
by split=> //=; rewrite -(swap4 _ (f i)).
Qed.

Lemma meas_val h w f z b i : chain h f z b -> (i < N)%N -> big (base + f i + b i) ->
  let u := toV (a_corr A y i (ofV (base + f i + b i))) in big u ->
  exists h' w', do_ev (Meas i) (h, w) = ((h', w'), Ok tt) /\ chain h' f (upd z i (u - (base + f i + b i))) b.
Proof.
move=> hc hi hcb u hb; have [n [hn hna [v1 v2 v3 v4]]] := hc i hi.
have [g eg ng] := nv_div ic v4 v2; rewrite addrAC addrK in ng.
have [mg pg] := nv_momv ng hcb.
have [a1 a2 a3 a4 a5] := mod hi.
have [w' ew] := proj_meas_val w a2 a4 mg pg a5.
set m := (ofV _).1 + _ in ew; set P := (ofV _).2 - _ in ew.
have pP : posdef P by have [_] := a4 (ofV (base + f i + b i)).1 _ pg.
have ms : momv (gaussian (Nd2 m) (Nd2 P)) m P by apply: momv_gaussian; right.
have ns : nv (gaussian (Nd2 m) (Nd2 P)) u by apply: (nv_mom ic) => //; right.
have [_ [_ ht hy _] [hp hd] [_ hu _]] := hna.
have ep : e_meas e (n_measf n) g (ys i) w = (w', Ok (gaussian (Nd2 m) (Nd2 P))) by rewrite ht /=.
have [ff [mm' [e1 w1 w2]]] := power_update_val (h, w') g hp hd ns v2 v4 hb.
exists (update h i (set_meas ff mm')), w'; split.
  move: ep hu; move: (e_meas e) => pm ep hu.
  rewrite /= /call_meas /mbind /get /= hn hu /meas_update /mbind /get /= hn /lift eg.
  by rewrite /mtry hy /= /mworld /= ep (momv_valid ms pP) e1.
move=> j hj; rewrite lookup_update /upd; case: eqP => [->|_]; last exact: hc.
rewrite hn /=; eexists; split; [reflexivity|exact: node_set hna _ _ _ _|].
by split=> //=; rewrite ?sum_z // -(swap_z _ _ (z i)).
Qed.

Lemma back_val h w f z b i : chain h f z b -> (i.+1 < N)%N -> big (base + f i + z i) ->
  big (base + f i.+1 + z i.+1 + b i.+1) ->
  let u := toV (a_back A i.+1 (ofV (base + f i + z i)) (ofV (base + f i.+1 + z i.+1 + b i.+1))) in
  posdef (a_back A i.+1 (ofV (base + f i + z i)) (ofV (base + f i.+1 + z i.+1 + b i.+1))).2 -> big u ->
  exists h' w', do_ev (Back i) (h, w) = ((h', w'), Ok tt) /\ chain h' f z (upd b i (u - (base + f i + z i))).
Proof.
move=> hc hi hcb hnb u pu hb; have [n [hn hna [v1 v2 v3 v4]]] := hc i (ltnW hi).
have [n2 [hn2 hna2 [x1 x2 x3 x4]]] := hc i.+1 hi.
have [g eg ng] := nv_div ic v4 v3; rewrite addrK in ng.
have [mg pg] := nv_momv ng hcb; have [mg2 _] := nv_momv x4 hnb.
have [a1 _ a3 _ _] := mod hi.
have [ff ef vf] := nv_pow ic 1 x1; have [cav ec _] := nv_div ic x4 vf.
have [w' [bb [ew hbb]]] := proj_back_val cav w a1 a3 mg pg mg2.
set m := (_ + _) in hbb; set P := (ofV (base + f i + z i)).2 + _ in ew.
have pP : posdef P := pu.
have ms : momv (gaussian bb (Nd2 P)) m P by apply: momv_gaussian.
have ns : nv (gaussian bb (Nd2 P)) u by apply: (nv_mom ic).
have [[_ hx] _ [hp hd] [_ _ hu]] := hna; have [_ [ht _ _ _] _ _] := hna2.
have ep : e_back e (n_trans n2) g cav (Some (n_marg n2)) w = (w', Ok (gaussian bb (Nd2 P))) by rewrite ht /=.
have [ff' [mm' [e1 w1 w2]]] := power_update_val (h, w') g hp hd ns v3 v4 hb.
exists (update h i (set_back ff' mm')), w'; split.
  move: ep hu; move: (e_back e) => pb ep hu.
  rewrite /= /call_back /mbind /get /= hn hu /back_update /mbind /get /= hn /lift eg.
  rewrite /mtry hx hi /= /mbind /get /= hn2 hp /= one_over1 ef ec /ret /= /mworld /= ep (momv_valid ms pP) e1.
  by [].
move=> j hj; rewrite lookup_update /upd; case: eqP => [->|_]; last exact: hc.
rewrite hn /=; eexists; split; [reflexivity|exact: node_set hna _ _ _ _|].
by split=> //=; rewrite ?sum_b // -(swap_b _ _ _ (b i)).
Qed.
Lemma back_last h w f z b : chain h f z b -> (0 < N)%N -> exists w', do_ev (Back N.-1) (h, w) = ((h, w'), Ok tt).
Proof.
move=> hc hN; have hi : (N.-1 < N)%N by rewrite prednK.
have [n [hn [[_ hx] _ _ [_ _ hu]] [v1 v2 v3 v4]]] := hc _ hi; have [g eg _] := nv_div ic v4 v3; exists w.
rewrite prednK // ltnn in hx.
by rewrite /= /call_back /mbind /get /= hn hu /back_update /mbind /get /= hn /lift eg /mtry hx.
Qed.
End Chain.
