(** * Facts about Float.v *)
Set Warnings "-notation-overridden,-ambiguous-paths".
From Coq Require Import ZArith Reals Lra Lia Psatz.
From Flocq Require Import Core IEEE754.BinarySingleNaN Plus_error Relative Sterbenz.
From Verif Require Import Float FloatSpec.
From Verif Require Nodes.
Local Open Scope R_scope.

Notation val := (@B2R 53 1024).
Notation fin := (@is_finite 53 1024).
Notation fex := (FLT_exp (-1074) 53).
Notation repr x := (generic_format radix2 fex x).
Notation rnd := (round radix2 fex ZnearestE).
Notation big := (bpow radix2 1024).

Lemma fexE : forall e, SpecFloat.fexp 53 1024 e = fex e.
Proof. reflexivity. Qed.
Global Instance vexp : Valid_exp fex.
Proof. apply FLT_exp_valid. reflexivity. Qed.
Lemma repr_val x : repr (val x).
Proof. exact (generic_format_B2R 53 1024 x). Qed.
Lemma val_small x : Rabs (val x) < big.
Proof. exact (abs_B2R_lt_emax 53 1024 x). Qed.

Lemma fadd_round x y : fin x = true -> fin y = true -> Rabs (rnd (val x + val y)) < big ->
  val (fadd x y) = rnd (val x + val y) /\ fin (fadd x y) = true.
Proof.
intros hx hy hb. generalize (Bplus_correct 53 1024 prec_ok emax_ok mode_NE x y hx hy).
change (round radix2 (SpecFloat.fexp 53 1024) (round_mode mode_NE) (val x + val y)) with (rnd (val x + val y)).
rewrite Rlt_bool_true by exact hb. intros (h1 & h2 & _). split; assumption.
Qed.
Lemma fsub_round x y : fin x = true -> fin y = true -> Rabs (rnd (val x - val y)) < big ->
  val (fsub x y) = rnd (val x - val y) /\ fin (fsub x y) = true.
Proof.
intros hx hy hb. generalize (Bminus_correct 53 1024 prec_ok emax_ok mode_NE x y hx hy).
change (round radix2 (SpecFloat.fexp 53 1024) (round_mode mode_NE) (val x - val y)) with (rnd (val x - val y)).
rewrite Rlt_bool_true by exact hb. intros (h1 & h2 & _). split; assumption.
Qed.
Lemma fmul_round x y : fin x = true -> fin y = true -> Rabs (rnd (val x * val y)) < big ->
  val (fmul x y) = rnd (val x * val y) /\ fin (fmul x y) = true.
Proof.
intros hx hy hb. generalize (Bmult_correct 53 1024 prec_ok emax_ok mode_NE x y).
change (round radix2 (SpecFloat.fexp 53 1024) (round_mode mode_NE) (val x * val y)) with (rnd (val x * val y)).
rewrite Rlt_bool_true by exact hb. intros (h1 & h2 & _). rewrite hx, hy in h2. split; assumption.
Qed.
Lemma fdiv_round x y : fin x = true -> val y <> 0 -> Rabs (rnd (val x / val y)) < big ->
  val (fdiv x y) = rnd (val x / val y) /\ fin (fdiv x y) = true.
Proof.
intros hx hy hb. generalize (Bdiv_correct 53 1024 prec_ok emax_ok mode_NE x y hy).
change (round radix2 (SpecFloat.fexp 53 1024) (round_mode mode_NE) (val x / val y)) with (rnd (val x / val y)).
rewrite Rlt_bool_true by exact hb. intros (h1 & h2 & _). rewrite hx in h2. split; assumption.
Qed.
Lemma rnd_id x : repr x -> rnd x = x.
Proof. intros h. now apply round_generic; [apply valid_rnd_N|]. Qed.
Lemma fadd_exact x y : fin x = true -> fin y = true -> repr (val x + val y) -> Rabs (val x + val y) < big ->
  val (fadd x y) = val x + val y /\ fin (fadd x y) = true.
Proof. intros hx hy hr hb. pose proof (fadd_round x y hx hy) as h. rewrite rnd_id in h by exact hr. auto. Qed.
Lemma fsub_exact x y : fin x = true -> fin y = true -> repr (val x - val y) -> Rabs (val x - val y) < big ->
  val (fsub x y) = val x - val y /\ fin (fsub x y) = true.
Proof. intros hx hy hr hb. pose proof (fsub_round x y hx hy) as h. rewrite rnd_id in h by exact hr. auto. Qed.
Lemma fmul_exact x y : fin x = true -> fin y = true -> repr (val x * val y) -> Rabs (val x * val y) < big ->
  val (fmul x y) = val x * val y /\ fin (fmul x y) = true.
Proof. intros hx hy hr hb. pose proof (fmul_round x y hx hy) as h. rewrite rnd_id in h by exact hr. auto. Qed.

(** integers *)
Lemma fint_exact z : repr (IZR z) -> Rabs (IZR z) < big -> val (fint z) = IZR z /\ fin (fint z) = true.
Proof.
intros hr hb. unfold fint. generalize (binary_normalize_correct 53 1024 prec_ok emax_ok mode_NE z 0 false). cbv zeta.
change (round radix2 (SpecFloat.fexp 53 1024) (round_mode mode_NE) (F2R (Float radix2 z 0))) with (rnd (F2R (Float radix2 z 0))).
replace (F2R (Float radix2 z 0)) with (IZR z) by (unfold F2R; cbn [Fnum Fexp bpow]; ring).
rewrite rnd_id by exact hr. rewrite Rlt_bool_true by exact hb. tauto.
Qed.
Lemma repr_int_exp m e : (Z.abs m < 2 ^ 53)%Z -> (-1074 <= e)%Z -> repr (IZR m * bpow radix2 e).
Proof.
intros hm he. apply generic_format_FLT. apply FLT_spec with (f := Float radix2 m e).
- reflexivity.
- exact hm.
- exact he.
Qed.
Lemma repr_int m : (Z.abs m < 2 ^ 53)%Z -> repr (IZR m).
Proof. intros h. replace (IZR m) with (IZR m * bpow radix2 0) by (cbn [bpow]; ring). apply repr_int_exp; [exact h|lia]. Qed.
Lemma repr_pow e : (-1074 <= e)%Z -> repr (bpow radix2 e).
Proof. intros h. replace (bpow radix2 e) with (IZR 1 * bpow radix2 e) by ring. apply repr_int_exp; [reflexivity|exact h]. Qed.
Lemma val_two : val (fint 2) = 2. Proof. apply fint_exact; [apply repr_int; reflexivity|]. rewrite <- abs_IZR. change (IZR (Z.abs 2)) with (bpow radix2 1). apply bpow_lt; reflexivity. Qed.
Lemma fin_two : fin (fint 2) = true. Proof. reflexivity. Qed.
Lemma val_one : val fone = 1. Proof. apply fint_exact; [apply repr_int; reflexivity|]. rewrite <- abs_IZR. change (IZR (Z.abs 1)) with (bpow radix2 0). apply bpow_lt; reflexivity. Qed.
Lemma fin_one : fin fone = true. Proof. reflexivity. Qed.

(** ** addition commutes; one and zero *)
Lemma Fplus_comm sx mx ex sy my ey ez : SpecFloat.cond_Zopp sx (Zpos mx) = SpecFloat.cond_Zopp sx (Zpos mx) ->
  Fplus_naive sx mx ex sy my ey ez = Fplus_naive sy my ey sx mx ex ez.
Proof. intros _. unfold Fplus_naive. apply Z.add_comm. Qed.
Lemma fadd_comm x y : fadd x y = fadd y x.
Proof.
destruct x as [sx|sx| |sx mx ex hx], y as [sy|sy| |sy my ey hy]; try reflexivity; unfold fadd, Bplus.
- destruct sx, sy; reflexivity.
- destruct sx, sy; reflexivity.
- cbv zeta. rewrite Z.min_comm. f_equal. now apply Fplus_comm.
Qed.
(** floats with the same finite value, up to the sign of zero *)
Lemma val_inj x y : fin x = true -> fin y = true -> val x = val y -> val x <> 0 -> x = y.
Proof.
intros hx hy e nz. apply B2R_inj.
- destruct x; try discriminate hx; [cbn in nz; lra|reflexivity].
- destruct y; try discriminate hy; [cbn in e; rewrite e in nz; cbn in nz; lra|reflexivity].
- exact e.
Qed.
Lemma fone_mul x : fmul fone x = x.
Proof.
destruct x as [s|s| |s m e h]; try (destruct s; reflexivity); [reflexivity|].
set (x := B754_finite s m e h : f64).
destruct (fmul_exact fone x) as [h1 h2].
- reflexivity.
- reflexivity.
- rewrite val_one, Rmult_1_l. apply repr_val.
- rewrite val_one, Rmult_1_l. apply val_small.
- rewrite val_one, Rmult_1_l in h1. symmetry. apply val_inj; [reflexivity|exact h2|now symmetry|].
  unfold x. cbn [B2R]. unfold F2R. cbn [Fnum Fexp]. intros q. apply Rmult_integral in q as [q|q].
  + apply eq_IZR in q. now destruct s.
  + pose proof (bpow_gt_0 radix2 e). lra.
Qed.
Lemma fsub_zero x : fsub x fzero = x.
Proof. destruct x as [s|s| |s m e h]; try (destruct s; reflexivity). reflexivity. Qed.
Lemma fsub_self x : fin x = true -> fsub x x = fzero.
Proof.
intros h. destruct x as [s|s| |s m e hx]; try discriminate; [destruct s; reflexivity|].
set (x := B754_finite s m e hx : f64). generalize (Bminus_correct 53 1024 prec_ok emax_ok mode_NE x x h h).
rewrite Rminus_diag_eq by reflexivity. rewrite round_0 by apply valid_rnd_N. rewrite Rabs_R0, Rlt_bool_true by apply bpow_gt_0.
rewrite Rcompare_Eq by reflexivity. intros (h1 & h2 & h3). fold (fsub x x) in *.
destruct (fsub x x) as [s'|s'| |s' m' e' h']; try discriminate h2.
- cbn [Bsign] in h3. subst s'. rewrite Bool.andb_negb_r. reflexivity.
- exfalso. cbn [B2R] in h1. unfold F2R in h1; cbn [Fnum Fexp] in h1. apply Rmult_integral in h1 as [q|q].
  + apply eq_IZR in q. now destruct s'.
  + pose proof (bpow_gt_0 radix2 e'). lra.
Qed.
Lemma zero_mul x p : fin x = true -> fin p = true -> val p = 0 -> val (fmul p x) = 0 /\ fin (fmul p x) = true.
Proof.
intros hx hp e. destruct (fmul_exact p x hp hx) as [h1 h2].
- rewrite e, Rmult_0_l. apply generic_format_0.
- rewrite e, Rmult_0_l, Rabs_R0. apply bpow_gt_0.
- rewrite h1, e. split; [ring|exact h2].
Qed.

(** ** symmetrising *)
Lemma repr_double x : repr x -> repr (2 * x).
Proof.
intros h. apply FLT_format_generic in h; [|exact prec_ok]. destruct h as [[m e] e1 e2 e3]. cbn [Fnum Fexp] in e2, e3.
replace (2 * x) with (IZR m * bpow radix2 (e + 1)); [apply repr_int_exp; [exact e2|lia]|].
rewrite bpow_plus, e1. unfold F2R. cbn [Fnum Fexp]. change (bpow radix2 1) with 2. ring.
Qed.
Definition mid := bpow radix2 1023.
Lemma mid2 : 2 * mid = big.
Proof. unfold mid. change 1024%Z with (1 + 1023)%Z. rewrite (bpow_plus radix2 1 1023). reflexivity. Qed.
Lemma double x y : fin x = true -> fin y = true -> val x = val y -> Rabs (val x) < mid ->
  val (fadd x y) = 2 * val x /\ fin (fadd x y) = true.
Proof.
intros hx hy e hb. destruct (fadd_exact x y hx hy) as [h1 h2].
- rewrite <- e. replace (val x + val x) with (2 * val x) by ring. apply repr_double, repr_val.
- rewrite <- e. replace (val x + val x) with (2 * val x) by ring. rewrite Rabs_mult, (Rabs_pos_eq 2) by lra. rewrite <- mid2. lra.
- split; [|exact h2]. rewrite h1, <- e. ring.
Qed.
Lemma half_double x y : fin x = true -> fin y = true -> val x = val y -> Rabs (val x) < mid ->
  val (fdiv (fadd x y) (fint 2)) = val x /\ fin (fdiv (fadd x y) (fint 2)) = true.
Proof.
intros hx hy e hb. destruct (double x y hx hy e hb) as [h1 h2].
destruct (fdiv_round (fadd x y) (fint 2) h2) as [h3 h4].
- rewrite val_two. lra.
- rewrite h1, val_two. replace (2 * val x / 2) with (val x) by field. rewrite rnd_id by apply repr_val. apply val_small.
- split; [|exact h4]. rewrite h3, h1, val_two. replace (2 * val x / 2) with (val x) by field. apply rnd_id, repr_val.
Qed.
Lemma sym_comm a i j : fsymmetrize a i j = fsymmetrize a j i.
Proof. unfold fsymmetrize. now rewrite fadd_comm. Qed.
Lemma fadd0 x y : fin x = true -> fin y = true -> val y = 0 -> val (fadd x y) = val x /\ fin (fadd x y) = true.
Proof.
intros hx hy e. destruct (fadd_exact x y hx hy) as [h1 h2].
- rewrite e, Rplus_0_r. apply repr_val.
- rewrite e, Rplus_0_r. apply val_small.
- split; [|exact h2]. rewrite h1, e. ring.
Qed.
Lemma f0add x y : fin x = true -> fin y = true -> val x = 0 -> val (fadd x y) = val y /\ fin (fadd x y) = true.
Proof. intros hx hy e. rewrite fadd_comm. now apply fadd0. Qed.
Lemma fone_div : fdiv fone fone = fone.
Proof.
destruct (fdiv_round fone fone fin_one) as [h1 h2].
- rewrite val_one. lra.
- rewrite val_one. replace (1 / 1) with (val fone) by (rewrite val_one; field). rewrite rnd_id by apply repr_val. apply val_small.
- assert (e : val (fdiv fone fone) = 1).
  { rewrite h1, val_one. replace (1 / 1) with (val fone) by (rewrite val_one; field). rewrite rnd_id by apply repr_val. apply val_one. }
  apply val_inj; [exact h2|exact fin_one| |]; rewrite e; [now rewrite val_one|lra].
Qed.

(** ** results that are finite *)
Lemma overflow_fin x s : B2SF x = binary_overflow 53 1024 mode_NE s -> fin x = false.
Proof. destruct x; cbn; [discriminate|reflexivity|reflexivity|discriminate]. Qed.
Lemma fadd_fin x y : fin (fadd x y) = true -> fin x = true /\ fin y = true /\ val (fadd x y) = rnd (val x + val y).
Proof.
intros h. assert (hx : fin x = true) by (destruct x as [[]|[]| |], y as [[]|[]| |]; try reflexivity; discriminate h).
assert (hy : fin y = true) by (destruct x as [[]|[]| |], y as [[]|[]| |]; try reflexivity; discriminate h).
split; [exact hx|]. split; [exact hy|]. generalize (Bplus_correct 53 1024 prec_ok emax_ok mode_NE x y hx hy).
change (round radix2 (SpecFloat.fexp 53 1024) (round_mode mode_NE) (val x + val y)) with (rnd (val x + val y)).
destruct (Rlt_bool _ _); [tauto|]. intros (q & _). apply overflow_fin in q. fold (fadd x y) in q. congruence.
Qed.
Lemma fsub_fin x y : fin (fsub x y) = true -> fin x = true /\ fin y = true /\ val (fsub x y) = rnd (val x - val y).
Proof.
intros h. assert (hx : fin x = true) by (destruct x as [[]|[]| |], y as [[]|[]| |]; try reflexivity; discriminate h).
assert (hy : fin y = true) by (destruct x as [[]|[]| |], y as [[]|[]| |]; try reflexivity; discriminate h).
split; [exact hx|]. split; [exact hy|]. generalize (Bminus_correct 53 1024 prec_ok emax_ok mode_NE x y hx hy).
change (round radix2 (SpecFloat.fexp 53 1024) (round_mode mode_NE) (val x - val y)) with (rnd (val x - val y)).
destruct (Rlt_bool _ _); [tauto|]. intros (q & _). apply overflow_fin in q. fold (fsub x y) in q. congruence.
Qed.
Lemma fmul_fin x y : fin (fmul x y) = true -> fin x = true /\ fin y = true /\ val (fmul x y) = rnd (val x * val y).
Proof.
intros h. assert (hx : fin x = true) by (destruct x as [[]|[]| |[]], y as [[]|[]| |[]]; try reflexivity; discriminate h).
assert (hy : fin y = true) by (destruct x as [[]|[]| |[]], y as [[]|[]| |[]]; try reflexivity; discriminate h).
split; [exact hx|]. split; [exact hy|]. generalize (Bmult_correct 53 1024 prec_ok emax_ok mode_NE x y).
change (round radix2 (SpecFloat.fexp 53 1024) (round_mode mode_NE) (val x * val y)) with (rnd (val x * val y)).
destruct (Rlt_bool _ _); [tauto|]. intros q. apply overflow_fin in q. fold (fmul x y) in q. congruence.
Qed.
Lemma fdiv2_fin x : fin (fdiv x (fint 2)) = true -> fin x = true.
Proof. destruct x as [[]|[]| |[]]; try reflexivity; intros h; discriminate h. Qed.
Lemma half_fin x y : fin (fdiv (fadd x y) (fint 2)) = true -> val x = val y ->
  fin x = true /\ fin y = true /\ val (fdiv (fadd x y) (fint 2)) = val x.
Proof.
intros h e. apply fdiv2_fin in h. destruct (fadd_fin x y h) as (hx & hy & q). split; [exact hx|]. split; [exact hy|].
assert (q' : val (fadd x y) = 2 * val x).
{ rewrite q, <- e. replace (val x + val x) with (2 * val x) by ring. apply rnd_id, repr_double, repr_val. }
destruct (fdiv_round (fadd x y) (fint 2) h) as [h3 h4].
- rewrite val_two. lra.
- rewrite q', val_two. replace (2 * val x / 2) with (val x) by field. rewrite rnd_id by apply repr_val. apply val_small.
- rewrite h3, q', val_two. replace (2 * val x / 2) with (val x) by field. apply rnd_id, repr_val.
Qed.

(** ** relative errors *)
Definition u := bpow radix2 (-53).
Lemma u_ro_u : u_ro radix2 53 = u.
Proof. unfold u_ro, u. change (-53 + 1)%Z with (-52)%Z. change (-53)%Z with (-1 + -52)%Z. rewrite (bpow_plus radix2 (-1) (-52)). reflexivity. Qed.
Lemma u_small : 0 < u < 1.
Proof. unfold u. split; [apply bpow_gt_0|]. change 1 with (bpow radix2 0). apply bpow_lt. lia. Qed.
Lemma plus_rel x y : repr x -> repr y -> exists e, Rabs e <= u /\ rnd (x + y) = (x + y) * (1 + e).
Proof.
intros hx hy. destruct (@FLT_plus_error_N_ex radix2 (-1074) 53 prec_ok (fun n => negb (Z.even n)) x y hx hy) as [e [h1 h2]].
exists e. split; [|exact h2]. eapply Rle_trans; [exact h1|]. rewrite <- u_ro_u. apply u_rod1pu_ro_le_u_ro.
Qed.
Lemma minus_rel x y : repr x -> repr y -> exists e, Rabs e <= u /\ rnd (x - y) = (x - y) * (1 + e).
Proof. intros hx hy. apply (plus_rel x (- y) hx). now apply generic_format_opp. Qed.
Definition eta_min := bpow radix2 (-1075).
Lemma any_rel x : exists e d, Rabs e <= u /\ Rabs d <= eta_min /\ rnd x = x * (1 + e) + d.
Proof.
destruct (error_N_FLT radix2 (-1074) 53 eq_refl (fun n => negb (Z.even n)) x) as (e & d & h1 & h2 & _ & h3).
exists e, d. split; [|split; [|exact h3]].
- eapply Rle_trans; [exact h1|]. unfold u. change (-53)%Z with (-1 + -52)%Z. rewrite (bpow_plus radix2 (-1) (-52)). apply Rle_refl.
- eapply Rle_trans; [exact h2|]. unfold eta_min. change (-1075)%Z with (-1 + -1074)%Z. rewrite (bpow_plus radix2 (-1) (-1074)). apply Rle_refl.
Qed.

(** ** natural parameters *)
Lemma ratio_exact x y : fin x = true -> fin y = true -> val y / 2 <= val x <= 2 * val y \/ 2 * val y <= val x <= val y / 2 ->
  val (fsub x y) = val x - val y /\ fin (fsub x y) = true.
Proof.
intros hx hy h. assert (hr : repr (val x - val y)).
{ assert (mono : Monotone_exp fex) by apply FLT_exp_monotone. destruct h as [h|h].
  - apply sterbenz; [exact vexp|exact mono|apply repr_val|apply repr_val|exact h].
  - replace (val x - val y) with (- (- val x - - val y)) by ring. apply generic_format_opp.
    apply sterbenz; [exact vexp|exact mono|apply generic_format_opp, repr_val|apply generic_format_opp, repr_val|lra]. }
apply fsub_exact; [exact hx|exact hy|exact hr|]. pose proof (val_small x). pose proof (val_small y).
apply Rle_lt_trans with (Rmax (Rabs (val x)) (Rabs (val y))); [|now apply Rmax_lub_lt].
destruct h as [h|h].
- assert (0 <= val y) by lra. rewrite (Rabs_pos_eq (val x)), (Rabs_pos_eq (val y)) by lra. unfold Rabs, Rmax.
  destruct (Rcase_abs _), (Rle_dec _ _); lra.
- assert (val y <= 0) by lra. rewrite (Rabs_left1 (val x)), (Rabs_left1 (val y)) by lra. unfold Rabs, Rmax.
  destruct (Rcase_abs _), (Rle_dec _ _); lra.
Qed.
Lemma back_exact x y : fin x = true -> fin y = true -> val (fsub x y) = val x - val y -> fin (fsub x y) = true ->
  val (fadd y (fsub x y)) = val x /\ fin (fadd y (fsub x y)) = true.
Proof.
intros hx hy e h. destruct (fadd_exact y (fsub x y) hy h) as [h1 h2].
- rewrite e. replace (val y + (val x - val y)) with (val x) by ring. apply repr_val.
- rewrite e. replace (val y + (val x - val y)) with (val x) by ring. apply val_small.
- split; [|exact h2]. rewrite h1, e. ring.
Qed.
Lemma undo x y : fin (fsub (fadd x y) y) = true -> exists e1 e2, Rabs e1 <= u /\ Rabs e2 <= u /\
  val (fsub (fadd x y) y) = (val x + (val x + val y) * e1) * (1 + e2).
Proof.
intros h. destruct (fsub_fin _ _ h) as (h1 & hy & q). destruct (fadd_fin _ _ h1) as (hx & _ & q1).
destruct (minus_rel (val (fadd x y)) (val y) (repr_val _) (repr_val _)) as (e2 & b2 & r2).
destruct (plus_rel (val x) (val y) (repr_val _) (repr_val _)) as (e1 & b1 & r1).
exists e1, e2. split; [exact b1|]. split; [exact b2|]. rewrite q, r2, q1, r1. ring.
Qed.
Lemma step f p m d : fin (fadd f (fmul d (fsub p m))) = true -> exists e1 e2 e3 z,
  Rabs e1 <= u /\ Rabs e2 <= u /\ Rabs e3 <= u /\ Rabs z <= eta_min /\
  val (fadd f (fmul d (fsub p m))) = (val f + (val d * ((val p - val m) * (1 + e1)) * (1 + e2) + z)) * (1 + e3).
Proof.
intros h. destruct (fadd_fin _ _ h) as (hf & h1 & q1). destruct (fmul_fin _ _ h1) as (hd & h2 & q2).
destruct (fsub_fin _ _ h2) as (hp & hm & q3).
destruct (minus_rel (val p) (val m) (repr_val _) (repr_val _)) as (e1 & b1 & r1).
destruct (any_rel (val d * val (fsub p m))) as (e2 & z & b2 & bz & r2).
destruct (plus_rel (val f) (val (fmul d (fsub p m))) (repr_val _) (repr_val _)) as (e3 & b3 & r3).
exists e1, e2, e3, z. do 4 (split; [assumption|]). rewrite q1, r3, q2, r2, q3, r1. reflexivity.
Qed.
Lemma step1 f p m : fin (fadd f (fmul fone (fsub p m))) = true -> exists e1 e2, Rabs e1 <= u /\ Rabs e2 <= u /\
  val (fadd f (fmul fone (fsub p m))) = (val f + (val p - val m) * (1 + e1)) * (1 + e2).
Proof.
rewrite fone_mul. intros h. destruct (fadd_fin _ _ h) as (hf & h2 & q1). destruct (fsub_fin _ _ h2) as (hp & hm & q3).
destruct (minus_rel (val p) (val m) (repr_val _) (repr_val _)) as (e1 & b1 & r1).
destruct (plus_rel (val f) (val (fsub p m)) (repr_val _) (repr_val _)) as (e3 & b3 & r3).
exists e1, e3. do 2 (split; [assumption|]). rewrite q1, r3, q3, r1. reflexivity.
Qed.
(** equal values give equal results *)
Lemma fadd_congr x y x' y' : fin (fadd x y) = true -> fin (fadd x' y') = true -> val x = val x' -> val y = val y' -> val (fadd x y) = val (fadd x' y').
Proof. intros h h' a b. destruct (fadd_fin _ _ h) as (_ & _ & q), (fadd_fin _ _ h') as (_ & _ & q'). now rewrite q, q', a, b. Qed.
Lemma fsub_congr x y x' y' : fin (fsub x y) = true -> fin (fsub x' y') = true -> val x = val x' -> val y = val y' -> val (fsub x y) = val (fsub x' y').
Proof. intros h h' a b. destruct (fsub_fin _ _ h) as (_ & _ & q), (fsub_fin _ _ h') as (_ & _ & q'). now rewrite q, q', a, b. Qed.
Lemma fmul_congr x y x' y' : fin (fmul x y) = true -> fin (fmul x' y') = true -> val x = val x' -> val y = val y' -> val (fmul x y) = val (fmul x' y').
Proof. intros h h' a b. destruct (fmul_fin _ _ h) as (_ & _ & q), (fmul_fin _ _ h') as (_ & _ & q'). now rewrite q, q', a, b. Qed.
Lemma half_fins x y : fin (fdiv (fadd x y) (fint 2)) = true -> fin x = true /\ fin y = true.
Proof. intros h. apply fdiv2_fin in h. destruct (fadd_fin x y h) as (hx & hy & _). now split. Qed.

(** ** times *)
Lemma small_int_exp m e n : (Z.abs m * Z.of_nat n < 2 ^ 53)%Z -> (-1074 <= e <= 971)%Z ->
  repr (IZR (Z.of_nat n * m) * bpow radix2 e) /\ Rabs (IZR (Z.of_nat n * m) * bpow radix2 e) < big.
Proof.
intros h he. assert (h' : (Z.abs (Z.of_nat n * m) < 2 ^ 53)%Z) by (rewrite Z.abs_mul; lia).
split; [apply repr_int_exp; [exact h'|lia]|]. rewrite Rabs_mult, (Rabs_pos_eq (bpow _ _)) by apply bpow_ge_0.
rewrite <- abs_IZR. apply Rlt_le_trans with (bpow radix2 53 * bpow radix2 e).
- apply Rmult_lt_compat_r; [apply bpow_gt_0|]. change (bpow radix2 53) with (IZR (2 ^ 53)). now apply IZR_lt.
- rewrite <- bpow_plus. apply bpow_le. lia.
Qed.
Lemma clock_exact dt m e N k : fin dt = true -> val dt = IZR m * bpow radix2 e -> (-1074 <= e <= 971)%Z ->
  (Z.abs m * Z.of_nat N < 2 ^ 53)%Z -> (k <= N)%nat -> val (clock dt k) = INR k * val dt /\ fin (clock dt k) = true.
Proof.
intros hd ed he hN. induction k as [|k IH]; intros hk.
- split; [cbn; ring|reflexivity].
- destruct IH as [h1 h2]; [lia|]. cbn [clock].
  assert (s : INR k * val dt + val dt = IZR (Z.of_nat (S k) * m) * bpow radix2 e).
  { rewrite ed, mult_IZR, <- INR_IZR_INZ, S_INR. ring. }
  destruct (small_int_exp m e (S k)) as [r b]; [nia|exact he|]. rewrite <- s in r, b.
  destruct (fadd_exact (clock dt k) dt h2 hd) as [h3 h4]; [now rewrite h1|now rewrite h1|].
  split; [|exact h4]. rewrite h3, h1, S_INR. ring.
Qed.
Lemma back_clock_exact dt m e N k : fin dt = true -> val dt = IZR m * bpow radix2 e -> (-1074 <= e <= 971)%Z ->
  (Z.abs m * Z.of_nat N < 2 ^ 53)%Z -> (Z.of_nat N <= 2 ^ 53)%Z -> (k < N)%nat ->
  val (back_clock dt N k) = INR (N - 1 - k) * val dt /\ fin (back_clock dt N k) = true.
Proof.
intros hd ed he hN hN'. induction k as [|k IH]; intros hk.
- cbn [back_clock]. destruct (fint_exact (Z.of_nat (N - 1))) as [i1 i2].
  { apply repr_int. lia. }
  { rewrite <- abs_IZR. apply Rlt_trans with (bpow radix2 54); [|apply bpow_lt; lia].
    change (bpow radix2 54) with (IZR (2 ^ 54)). apply IZR_lt. lia. }
  assert (s : val (fint (Z.of_nat (N - 1))) * val dt = IZR (Z.of_nat (N - 1) * m) * bpow radix2 e).
  { rewrite i1, ed, mult_IZR. ring. }
  destruct (small_int_exp m e (N - 1)) as [r b]; [nia|exact he|]. rewrite <- s in r, b.
  destruct (fmul_exact _ dt i2 hd r b) as [h1 h2]. split; [|exact h2]. rewrite h1, i1, Nat.sub_0_r, INR_IZR_INZ. reflexivity.
- destruct IH as [h1 h2]; [lia|]. cbn [back_clock]. replace (N - 1 - k)%nat with (S (N - 1 - S k)) in h1 by lia. rewrite S_INR in h1.
  assert (s : val (back_clock dt N k) - val dt = IZR (Z.of_nat (N - 1 - S k) * m) * bpow radix2 e).
  { rewrite h1, ed, mult_IZR, <- INR_IZR_INZ. ring. }
  destruct (small_int_exp m e (N - 1 - S k)) as [r b]; [nia|exact he|]. rewrite <- s in r, b.
  destruct (fsub_exact _ dt h2 hd r b) as [h3 h4]. split; [|exact h4]. rewrite h3, h1. ring.
Qed.
Lemma clock_fin dt k : fin (clock dt (S k)) = true -> fin (clock dt k) = true /\ fin dt = true /\
  val (clock dt (S k)) = rnd (val (clock dt k) + val dt).
Proof. cbn [clock]. intros h. now apply fadd_fin in h. Qed.
Lemma clock_mono dt k : 0 <= val dt -> fin (clock dt (S k)) = true -> 0 <= val (clock dt k) <= val (clock dt (S k)).
Proof.
intros hd. induction k as [|k IH]; intros h; destruct (clock_fin _ _ h) as (h1 & h2 & q).
- rewrite q. cbn [clock]. change (val fzero) with 0. rewrite Rplus_0_l, rnd_id by apply repr_val. lra.
- specialize (IH h1). split; [lra|]. rewrite q. apply round_ge_generic; [exact vexp|apply valid_rnd_N|apply repr_val|lra].
Qed.
Lemma clock_drift dt k : 0 <= val dt -> fin (clock dt (S k)) = true ->
  INR (S k) * val dt * (1 - u) ^ k <= val (clock dt (S k)) <= INR (S k) * val dt * (1 + u) ^ k.
Proof.
intros hd. pose proof u_small as hu. induction k as [|k IH]; intros h; destruct (clock_fin _ _ h) as (h1 & h2 & q); rewrite q.
- cbn [clock]. change (val fzero) with 0. rewrite Rplus_0_l, rnd_id by apply repr_val. cbn [INR pow]. lra.
- specialize (IH h1). destruct (plus_rel (val (clock dt (S k))) (val dt) (repr_val _) (repr_val _)) as (e & he & ->).
  apply Rabs_le_inv in he. rewrite (S_INR (S k)). cbn [pow].
  assert (p1 : (1 - u) ^ k <= 1) by (generalize (pow_incr (1 - u) 1 k); rewrite pow1; lra).
  assert (p0 : 0 <= (1 - u) ^ k) by (apply pow_le; lra).
  assert (p2 : 1 <= (1 + u) ^ k) by (apply pow_R1_Rle; lra).
  set (a := (1 - u) ^ k) in *. set (b := (1 + u) ^ k) in *. set (n := INR (S k)) in *. assert (hn : 0 <= n) by apply pos_INR.
  set (t := val (clock dt (S k))) in *. set (d := val dt) in *.
  assert (l1 : (n + 1) * d * a <= t + d) by nra. assert (l2 : t + d <= (n + 1) * d * b) by nra.
  assert (pos : 0 <= (n + 1) * d * a) by (apply Rmult_le_pos; [apply Rmult_le_pos|]; lra).
  split.
  + replace ((n + 1) * d * ((1 - u) * a)) with (((n + 1) * d * a) * (1 - u)) by ring. apply Rmult_le_compat; lra.
  + replace ((n + 1) * d * ((1 + u) * b)) with (((n + 1) * d * b) * (1 + u)) by ring. apply Rmult_le_compat; lra.
Qed.
Lemma stuck_at : fadd (fint (2 ^ 53)) fone = fint (2 ^ 53). Proof. apply B2SF_inj. vm_compute. reflexivity. Qed.
Lemma clock_one k : (Z.of_nat k <= 2 ^ 53)%Z -> val (clock fone k) = INR k /\ fin (clock fone k) = true.
Proof.
intros h. assert (e1 : val fone = IZR 1 * bpow radix2 0) by (rewrite val_one; cbn; ring).
destruct (Z_lt_le_dec (Z.of_nat k) (2 ^ 53)) as [q|q].
- destruct (clock_exact fone 1 0 k k fin_one e1) as [h1 h2]; [lia|lia|lia|]. rewrite val_one, Rmult_1_r in h1. now split.
- destruct k as [|k]; [lia|]. destruct (clock_exact fone 1 0 k k fin_one e1) as [h1 h2]; [lia|lia|lia|]. rewrite val_one, Rmult_1_r in h1.
  assert (s : val (clock fone k) + val fone = bpow radix2 53).
  { rewrite h1, val_one, INR_IZR_INZ, <- plus_IZR. replace (Z.of_nat k + 1)%Z with (2 ^ 53)%Z by lia. reflexivity. }
  cbn [clock]. destruct (fadd_exact (clock fone k) fone h2 fin_one) as [h3 h4].
  + rewrite s. apply repr_pow. lia.
  + rewrite s, Rabs_pos_eq by apply bpow_ge_0. apply bpow_lt. lia.
  + split; [|exact h4]. rewrite h3, h1, val_one, S_INR. ring.
Qed.
Lemma clock_stuck k : (2 ^ 53 <= Z.of_nat k)%Z -> val (clock fone k) = bpow radix2 53.
Proof.
intros h. assert (q : exists n j, k = (n + j)%nat /\ Z.of_nat n = (2 ^ 53)%Z).
{ exists (Z.to_nat (2 ^ 53)), (k - Z.to_nat (2 ^ 53))%nat. split; [lia|]. rewrite Z2Nat.id; lia. }
destruct q as (n & j & -> & hn). clear h.
assert (top : val (fint (2 ^ 53)) = bpow radix2 53 /\ fin (fint (2 ^ 53)) = true).
{ change (bpow radix2 53) with (IZR (2 ^ 53)). apply fint_exact; change (IZR (2 ^ 53)) with (bpow radix2 53).
  - apply repr_pow. lia.
  - rewrite Rabs_pos_eq by apply bpow_ge_0. apply bpow_lt. lia. }
destruct top as [t1 t2].
assert (e : clock fone (n + j) = fint (2 ^ 53)).
{ induction j as [|j IH].
  - rewrite Nat.add_0_r. destruct (clock_one n) as [h1 h2]; [lia|]. apply val_inj; [exact h2|exact t2| |].
    + rewrite h1, t1, INR_IZR_INZ, hn. reflexivity.
    + rewrite h1, INR_IZR_INZ, hn. apply IZR_neq. lia.
  - rewrite <- plus_n_Sm. cbn [clock]. rewrite IH. exact stuck_at. }
rewrite e. exact t1.
Qed.

(** ** the statements of Prop_Float.v *)
Section Goals.
Lemma mul_sym a b i j : fp (fg_mul a b) i j = fp (fg_mul a b) j i.
Proof. apply sym_comm. Qed.
Lemma mul_comm a b i j : fp (fg_mul a b) i j = fp (fg_mul b a) i j /\ fs (fg_mul a b) i = fs (fg_mul b a) i.
Proof.
split; [|apply fadd_comm]. cbn [fp fg_mul]. unfold fsymmetrize. now rewrite (fadd_comm (fp a i j)), (fadd_comm (fp a j i)).
Qed.
Lemma flat_mul a : all_ordinary a -> symmetric a -> moderate a -> equal_numbers (fg_mul a fg_factor) a.
Proof.
intros o s m. assert (p : forall i j, real (fp (fg_mul a fg_factor) i j) = real (fp a i j) /\ ordinary (fp (fg_mul a fg_factor) i j)).
{ intros i j. destruct (fadd0 (fp a i j) fzero (proj1 (o i j)) eq_refl eq_refl) as [h1 h2].
  destruct (fadd0 (fp a j i) fzero (proj1 (o j i)) eq_refl eq_refl) as [h3 h4].
  destruct (half_double _ _ h2 h4) as [h5 h6].
  - rewrite h1, h3. apply s.
  - rewrite h1. apply m.
  - split; [|exact h6]. unfold real. cbn [fp fg_mul fsymmetrize]. unfold fsymmetrize. now rewrite <- h1. }
assert (q : forall i, real (fs (fg_mul a fg_factor) i) = real (fs a i) /\ ordinary (fs (fg_mul a fg_factor) i)).
{ intros i. exact (fadd0 (fs a i) fzero (proj2 (o i 0%nat)) eq_refl eq_refl). }
split; intros i j; [split; [exact (proj2 (p i j))|exact (proj2 (q i))]|split; [exact (proj1 (p i j))|exact (proj1 (q i))]].
Qed.
Lemma fwd_undamped old state : all_ordinary old -> all_ordinary state -> symmetric state -> moderate state ->
  equal_numbers (fwd_factor old state fone) state.
Proof.
intros oo o s m.
assert (z : forall x y, fin x = true -> fin y = true -> val (fadd (fmul (fsub fone fone) x) (fmul fone y)) = val y /\ fin (fadd (fmul (fsub fone fone) x) (fmul fone y)) = true).
{ intros x y hx hy. rewrite fone_mul, fsub_self by exact fin_one. destruct (zero_mul x fzero hx eq_refl eq_refl) as [h1 h2]. now apply f0add. }
assert (p : forall i j, real (fp (fwd_factor old state fone) i j) = real (fp state i j) /\ ordinary (fp (fwd_factor old state fone) i j)).
{ intros i j. destruct (z (fp old i j) (fp state i j) (proj1 (oo i j)) (proj1 (o i j))) as [h1 h2].
  destruct (z (fp old j i) (fp state j i) (proj1 (oo j i)) (proj1 (o j i))) as [h3 h4].
  destruct (half_double _ _ h2 h4) as [h5 h6].
  - rewrite h1, h3. apply s.
  - rewrite h1. apply m.
  - split; [|exact h6]. unfold real. rewrite <- h1. exact h5. }
assert (q : forall i, real (fs (fwd_factor old state fone) i) = real (fs state i) /\ ordinary (fs (fwd_factor old state fone) i)).
{ intros i. exact (z (fs old i) (fs state i) (proj2 (oo i 0%nat)) (proj2 (o i 0%nat))). }
split; intros i j; [split; [exact (proj2 (p i j))|exact (proj2 (q i))]|split; [exact (proj1 (p i j))|exact (proj1 (q i))]].
Qed.
Lemma exact_visit projected marginal factor : all_ordinary projected -> all_ordinary marginal -> symmetric projected -> moderate projected ->
  (forall i j, within_two (real (fp projected i j)) (real (fp marginal i j)) /\ within_two (real (fs projected i)) (real (fs marginal i))) ->
  equal_numbers (snd (power_update projected marginal factor fone fone)) projected.
Proof.
intros o om s m w.
assert (z : forall x y, fin x = true -> fin y = true -> within_two (val x) (val y) ->
  val (fadd y (fmul (fdiv fone fone) (fsub x y))) = val x /\ fin (fadd y (fmul (fdiv fone fone) (fsub x y))) = true).
{ intros x y hx hy h. rewrite fone_div, fone_mul. destruct (ratio_exact x y hx hy h) as [h1 h2]. now apply back_exact. }
set (r := snd _).
assert (p : forall i j, real (fp r i j) = real (fp projected i j) /\ ordinary (fp r i j)).
{ intros i j. destruct (z (fp projected i j) (fp marginal i j) (proj1 (o i j)) (proj1 (om i j)) (proj1 (w i j))) as [h1 h2].
  destruct (z (fp projected j i) (fp marginal j i) (proj1 (o j i)) (proj1 (om j i)) (proj1 (w j i))) as [h3 h4].
  destruct (half_double _ _ h2 h4) as [h5 h6].
  - rewrite h1, h3. apply s.
  - rewrite h1. apply m.
  - split; [|exact h6]. unfold real. rewrite <- h1. exact h5. }
assert (q : forall i, real (fs r i) = real (fs projected i) /\ ordinary (fs r i)).
{ intros i. exact (z (fs projected i) (fs marginal i) (proj2 (o i 0%nat)) (proj2 (om i 0%nat)) (proj2 (w i 0%nat))). }
split; intros i j; [split; [exact (proj2 (p i j))|exact (proj2 (q i))]|split; [exact (proj1 (p i j))|exact (proj1 (q i))]].
Qed.
(** symmetric inputs: symmetrising is exact *)
Lemma mul_entry a b i j : symmetric a -> (forall i j, ordinary (fp b i j) -> ordinary (fp b j i) -> real (fp b i j) = real (fp b j i)) ->
  ordinary (fp (fg_mul a b) i j) -> real (fp (fg_mul a b) i j) = real (fadd (fp a i j) (fp b i j)) /\ ordinary (fadd (fp a i j) (fp b i j)).
Proof.
intros sa sb h. destruct (half_fins _ _ h) as [h1 h2]. destruct (fadd_fin _ _ h1) as (_ & b1 & _), (fadd_fin _ _ h2) as (_ & b2 & _).
destruct (half_fin _ _ h) as (_ & _ & q).
- apply fadd_congr; [exact h1|exact h2|apply sa|now apply sb].
- split; [exact q|exact h1].
Qed.
Lemma ratio_sym p m d i j : symmetric p -> symmetric m -> ordinary (fp (fg_pow (fg_div p m) d) i j) -> ordinary (fp (fg_pow (fg_div p m) d) j i) ->
  real (fp (fg_pow (fg_div p m) d) i j) = real (fp (fg_pow (fg_div p m) d) j i).
Proof.
intros sp sm h h'. destruct (fmul_fin _ _ h) as (_ & h1 & _), (fmul_fin _ _ h') as (_ & h1' & _).
apply fmul_congr; [exact h|exact h'|reflexivity|]. apply fsub_congr; [exact h1|exact h1'|apply sp|apply sm].
Qed.
Lemma move_step f p m d i j : symmetric f -> symmetric p -> symmetric m -> let r := fg_mul f (fg_pow (fg_div p m) d) in
  (ordinary (fp r i j) -> rounded_step (real (fp r i j)) (real (fp f i j)) (real (fp p i j)) (real (fp m i j)) (real d)) /\
  (ordinary (fs r i) -> rounded_step (real (fs r i)) (real (fs f i)) (real (fs p i)) (real (fs m i)) (real d)).
Proof.
intros sf sp sm r. split; intros h.
- destruct (mul_entry f _ i j sf (fun i j => ratio_sym p m d i j sp sm) h) as [e o]. unfold r. rewrite e. exact (step _ _ _ _ o).
- exact (step _ _ _ _ h).
Qed.
Lemma move_one f p m i j : symmetric f -> symmetric p -> symmetric m -> let r := fg_mul f (fg_pow (fg_div p m) fone) in
  (ordinary (fp r i j) -> rounded_move (real (fp r i j)) (real (fp f i j)) (real (fp p i j)) (real (fp m i j))) /\
  (ordinary (fs r i) -> rounded_move (real (fs r i)) (real (fs f i)) (real (fs p i)) (real (fs m i))).
Proof.
intros sf sp sm r. split; intros h.
- destruct (mul_entry f _ i j sf (fun i j => ratio_sym p m fone i j sp sm) h) as [e o]. unfold r. rewrite e. exact (step1 _ _ _ o).
- exact (step1 _ _ _ h).
Qed.
Lemma undo_entry a b i j : symmetric a -> symmetric b ->
  (ordinary (fp (fg_div (fg_mul a b) b) i j) -> exists e1 e2, relative e1 /\ relative e2 /\
     real (fp (fg_div (fg_mul a b) b) i j) = (real (fp a i j) + (real (fp a i j) + real (fp b i j)) * e1) * (1 + e2)) /\
  (ordinary (fs (fg_div (fg_mul a b) b) i) -> exists e1 e2, relative e1 /\ relative e2 /\
     real (fs (fg_div (fg_mul a b) b) i) = (real (fs a i) + (real (fs a i) + real (fs b i)) * e1) * (1 + e2)).
Proof.
intros sa sb. split; intros h; [|exact (undo _ _ h)].
destruct (fsub_fin _ _ h) as (h1 & hb & q). destruct (mul_entry a b i j sa (fun i j _ _ => sb i j) h1) as [e o].
destruct (fadd_fin _ _ o) as (_ & _ & q1).
destruct (minus_rel (val (fp (fg_mul a b) i j)) (val (fp b i j)) (repr_val _) (repr_val _)) as (e2 & b2 & r2).
destruct (plus_rel (val (fp a i j)) (val (fp b i j)) (repr_val _) (repr_val _)) as (e1 & b1 & r1).
exists e1, e2. split; [exact b1|]. split; [exact b2|]. unfold real in *. cbn [fp fg_div] in *. rewrite q, r2, e, q1, r1. ring.
Qed.
Lemma fargs_clock dt k N : Nodes.default_fargs fadd (fun t : f64 => t) N (clock dt k) dt = List.map (clock dt) (List.seq k N).
Proof. revert k. induction N as [|N IH]; intros k; [reflexivity|]. cbn [Nodes.default_fargs List.seq List.map]. f_equal. exact (IH (S k)). Qed.
Lemma visit_any projected marginal factor damping power i j : symmetric projected -> symmetric marginal -> symmetric factor ->
  let new := power_update projected marginal factor damping power in
  let step := real (fdiv damping power) in
  (ordinary (fp (fst new) i j) -> rounded_step (real (fp (fst new) i j)) (real (fp factor i j)) (real (fp projected i j)) (real (fp marginal i j)) (real damping)) /\
  (ordinary (fs (fst new) i) -> rounded_step (real (fs (fst new) i)) (real (fs factor i)) (real (fs projected i)) (real (fs marginal i)) (real damping)) /\
  (ordinary (fp (snd new) i j) -> rounded_step (real (fp (snd new) i j)) (real (fp marginal i j)) (real (fp projected i j)) (real (fp marginal i j)) step) /\
  (ordinary (fs (snd new) i) -> rounded_step (real (fs (snd new) i)) (real (fs marginal i)) (real (fs projected i)) (real (fs marginal i)) step).
Proof.
intros sp sm sf. cbv zeta. destruct (move_step factor projected marginal damping i j sf sp sm) as [h1 h2].
destruct (move_step marginal projected marginal (fdiv damping power) i j sm sp sm) as [h3 h4].
split; [exact h1|]. split; [exact h2|]. split; [exact h3|exact h4].
Qed.
Lemma visit_one projected marginal factor i j : symmetric projected -> symmetric marginal -> symmetric factor ->
  let new := power_update projected marginal factor fone fone in
  (ordinary (fp (fst new) i j) -> rounded_move (real (fp (fst new) i j)) (real (fp factor i j)) (real (fp projected i j)) (real (fp marginal i j))) /\
  (ordinary (fs (fst new) i) -> rounded_move (real (fs (fst new) i)) (real (fs factor i)) (real (fs projected i)) (real (fs marginal i))) /\
  (ordinary (fp (snd new) i j) -> rounded_move (real (fp (snd new) i j)) (real (fp marginal i j)) (real (fp projected i j)) (real (fp marginal i j))) /\
  (ordinary (fs (snd new) i) -> rounded_move (real (fs (snd new) i)) (real (fs marginal i)) (real (fs projected i)) (real (fs marginal i))).
Proof.
intros sp sm sf. cbv zeta. unfold power_update. rewrite fone_div. destruct (move_one factor projected marginal i j sf sp sm) as [h1 h2].
destruct (move_one marginal projected marginal i j sm sp sm) as [h3 h4].
split; [exact h1|]. split; [exact h2|]. split; [exact h3|exact h4].
Qed.
Lemma small_int p : (Z.abs p < 2 ^ 53)%Z -> val (fint p) = IZR p /\ fin (fint p) = true.
Proof.
intros h. apply fint_exact; [now apply repr_int|]. rewrite <- abs_IZR. apply Rlt_trans with (bpow radix2 53); [|apply bpow_lt; lia].
change (bpow radix2 53) with (IZR (2 ^ 53)). now apply IZR_lt.
Qed.
Lemma small_mid p : (Z.abs p < 2 ^ 53)%Z -> Rabs (IZR p) < bpow radix2 1023.
Proof.
intros h. rewrite <- abs_IZR. apply Rlt_trans with (bpow radix2 53); [|apply bpow_lt; lia].
change (bpow radix2 53) with (IZR (2 ^ 53)). now apply IZR_lt.
Qed.
Lemma undo_lost : exists a b, all_ordinary a /\ all_ordinary b /\ symmetric a /\ symmetric b /\ moderate a /\ moderate b /\
  ~ equal_numbers (fg_div (fg_mul a b) b) a.
Proof.
assert (t1 : val (fint (2 ^ 53)) = bpow radix2 53).
{ change (bpow radix2 53) with (IZR (2 ^ 53)). apply fint_exact; change (IZR (2 ^ 53)) with (bpow radix2 53).
  - apply repr_pow. lia.
  - rewrite Rabs_pos_eq by apply bpow_ge_0. apply bpow_lt. lia. }
exists (FG (fun _ _ => fone) (fun _ => fone)), (FG (fun _ _ => fint (2 ^ 53)) (fun _ => fint (2 ^ 53))).
split; [intros i j; split; reflexivity|]. split; [intros i j; split; reflexivity|].
split; [intros i j; reflexivity|]. split; [intros i j; reflexivity|].
split; [intros i j; unfold real; cbn [fp]; rewrite val_one; exact (small_mid 1 eq_refl)|].
split; [intros i j; unfold real; cbn [fp]; rewrite t1, Rabs_pos_eq by apply bpow_ge_0; apply bpow_lt; lia|].
intros [_ h]. destruct (h 0%nat 0%nat) as [_ q]. unfold real in q. cbn [fs fg_div fg_mul] in q. rewrite val_one in q.
rewrite (fadd_comm fone), stuck_at, fsub_self in q by reflexivity. cbn in q. lra.
Qed.
Lemma swap_and (P Q : Prop) : P /\ Q -> Q /\ P.
Proof. tauto. Qed.
Lemma back_same dt m e N k : ordinary dt -> real dt = IZR m * bpow radix2 e -> (-1074 <= e <= 971)%Z ->
  (Z.abs m * Z.of_nat N < 2 ^ 53)%Z -> (Z.of_nat N <= 2 ^ 53)%Z -> (k < N)%nat ->
  ordinary (back_clock dt N k) /\ real (back_clock dt N k) = real (clock dt (N - 1 - k)).
Proof.
intros o d he hN hN' hk. destruct (back_clock_exact dt m e N k o d he hN hN' hk) as [h1 h2].
destruct (clock_exact dt m e N (N - 1 - k) o d he hN) as [h3 _]; [lia|]. split; [exact h2|]. unfold real. now rewrite h1, h3.
Qed.
Definition tenth : f64 := fdiv fone (fint 10).
Lemma quarter : real (fdiv fone (fint 4)) = IZR 1 * bpow radix2 (-2).
Proof.
destruct (small_int 4 eq_refl) as [a _]. assert (q : val fone / val (fint 4) = IZR 1 * bpow radix2 (-2)).
{ rewrite val_one, a. cbn. lra. }
assert (r : repr (IZR 1 * bpow radix2 (-2))) by (apply repr_int_exp; [reflexivity|lia]).
destruct (fdiv_round fone (fint 4) fin_one) as [h _].
- rewrite a. lra.
- rewrite q, rnd_id by exact r. rewrite Rmult_1_l, Rabs_pos_eq by apply bpow_ge_0. apply bpow_lt. lia.
- unfold real. now rewrite h, q, rnd_id by exact r.
Qed.
Lemma tenth_pos : 0 < real tenth.
Proof.
destruct (small_int 10 eq_refl) as [a _]. destruct (fdiv_round fone (fint 10) fin_one) as [h _].
- rewrite a. lra.
- apply Rle_lt_trans with (bpow radix2 0); [|apply bpow_lt; lia]. apply abs_round_le_generic; [exact vexp|apply valid_rnd_N|apply repr_pow; lia|].
  rewrite val_one, a, Rabs_pos_eq; cbn; lra.
- unfold real, tenth. rewrite h. apply Rlt_le_trans with (bpow radix2 (-4)); [apply bpow_gt_0|].
  apply round_ge_generic; [exact vexp|apply valid_rnd_N|apply repr_pow; lia|]. rewrite val_one, a. cbn. lra.
Qed.
Lemma tenth_differs : exists dt N k, ordinary dt /\ 0 < real dt /\ (k < N)%nat /\ ordinary (clock dt N) /\
  real (back_clock dt N k) <> real (clock dt (N - 1 - k)).
Proof.
exists tenth, 4%nat, 1%nat. split; [reflexivity|]. split; [exact tenth_pos|]. split; [lia|]. split; [reflexivity|].
intros q. assert (w : B2SF (back_clock tenth 4 1) = B2SF (clock tenth (4 - 1 - 1))).
{ f_equal. apply B2R_inj; [reflexivity|reflexivity|exact q]. }
vm_compute in w. discriminate w.
Qed.
End Goals.
