(** * Facts about the example systems *)
Set Warnings "-notation-overridden,-ambiguous-paths".
From Coq Require Import Reals List Lra Lia Psatz.
From Verif Require Import Base Systems SpecSys.
Import ListNotations.
Local Open Scope R_scope.

Ltac conses := repeat match goal with |- cons _ _ = cons _ _ => apply f_equal2 end; try reflexivity.

(** ** growth model *)
Lemma sat_bound x : Rabs ((25 * x) / (1 + x ^ 2)) <= 25 / 2.
Proof.
assert (h : 0 < 1 + x ^ 2) by nra.
assert (ha : (25 * x) / (1 + x ^ 2) * (1 + x ^ 2) = 25 * x) by (field; lra).
set (q := (25 * x) / (1 + x ^ 2)) in *; apply Rabs_le; split.
- apply Rmult_le_reg_r with (1 + x ^ 2); [exact h|]. rewrite ha. pose proof (pow2_ge_0 (x + 1)). nra.
- apply Rmult_le_reg_r with (1 + x ^ 2); [exact h|]. rewrite ha. pose proof (pow2_ge_0 (x - 1)). nra.
Qed.

Lemma ungm_step t x : Rabs (ungm_f1 t x) <= Rabs x / 2 + 41 / 2.
Proof.
unfold ungm_f1.
eapply Rle_trans; [apply Rabs_triang|].
assert (h1 : Rabs (8 * cos (12 / 10 * t)) <= 8).
{ rewrite Rabs_mult. rewrite (Rabs_right 8) by lra. 
  pose proof (COS_bound (12 / 10 * t)) as [a b].
  assert (Rabs (cos (12 / 10 * t)) <= 1) by (apply Rabs_le; lra). lra. }
assert (h2 : Rabs (1 / 2 * x + 25 * x / (1 + x ^ 2)) <= Rabs x / 2 + 25 / 2).
{ eapply Rle_trans; [apply Rabs_triang|]. pose proof (sat_bound x).
  rewrite Rabs_mult, (Rabs_right (1/2)) by lra. lra. }
lra.
Qed.

Lemma ungm_traj (t x w : nat -> R) B : 0 <= B ->
  (forall k, Rabs (w k) <= B) -> (forall k, x (S k) = ungm_f1 (t k) (x k) + w k) ->
  forall k, Rabs (x k) <= Rmax (Rabs (x 0%nat)) (41 + 2 * B).
Proof.
intros hB hw hx k; induction k as [|k IH]; [apply Rmax_l|].
rewrite hx. eapply Rle_trans; [apply Rabs_triang|].
pose proof (ungm_step (t k) (x k)); pose proof (hw k).
pose proof (Rmax_r (Rabs (x 0%nat)) (41 + 2 * B)). lra.
Qed.

(** contraction towards the band *)
Lemma ungm_enter (t x w : nat -> R) B : 0 <= B ->
  (forall k, Rabs (w k) <= B) -> (forall k, x (S k) = ungm_f1 (t k) (x k) + w k) ->
  forall k, Rabs (x k) <= Rabs (x 0%nat) * (/ 2) ^ k + (41 + 2 * B) * (1 - (/ 2) ^ k).
Proof.
intros hB hw hx k; induction k as [|k IH]; [simpl; lra|].
rewrite hx. eapply Rle_trans; [apply Rabs_triang|].
pose proof (ungm_step (t k) (x k)); pose proof (hw k). simpl. lra.
Qed.

(** ** arctan2 *)
Lemma sqrt_scale x y : 0 < x -> sqrt (x ^ 2 + y ^ 2) = x * sqrt (1 + (y / x) ^ 2).
Proof.
intros h. replace (x ^ 2 + y ^ 2) with (x ^ 2 * (1 + (y / x) ^ 2)) by (field; lra).
rewrite sqrt_mult by nra. f_equal. rewrite <- Rsqr_pow2. apply sqrt_Rsqr. lra.
Qed.

Lemma atan_polar x y : 0 < x ->
  sqrt (x ^ 2 + y ^ 2) * cos (atan (y / x)) = x /\ sqrt (x ^ 2 + y ^ 2) * sin (atan (y / x)) = y.
Proof.
intros h. rewrite sqrt_scale by lra. rewrite cos_atan, sin_atan.
replace (1 + (y / x)²) with (1 + (y / x) ^ 2) by (unfold Rsqr; ring).
assert (0 < sqrt (1 + (y / x) ^ 2)) by (apply sqrt_lt_R0; nra).
split; field; repeat split; lra.
Qed.

Lemma arctan2_polar y x : is_bearing (arctan2 y x) x y.
Proof.
unfold is_bearing, arctan2; pose proof PI_RGT_0 as hpi.
destruct (Rlt_dec 0 x) as [hx|hx].
{ pose proof (atan_bound (y / x)). destruct (atan_polar x y hx) as [hc hs].
  split; [lra|]. intros _; split; congruence. }
destruct (Rlt_dec x 0) as [hx'|hx'].
{ pose proof (atan_bound (y / x)) as hb.
  assert (e : y / x = (- y) / (- x)) by (field; lra).
  destruct (atan_polar (- x) (- y) ltac:(lra)) as [hc hs]. rewrite <- e in hc, hs.
  replace ((- x) ^ 2 + (- y) ^ 2) with (x ^ 2 + y ^ 2) in hc, hs by ring.
  assert (hr : 0 < sqrt (x ^ 2 + y ^ 2)) by (apply sqrt_lt_R0; nra).
  destruct (Rle_dec 0 y) as [hy|hy].
  - assert (sin (atan (y / x)) <= 0) by nra.
    assert (atan (y / x) <= 0).
    { destruct (Rle_dec (atan (y / x)) 0); [assumption|exfalso].
      pose proof (sin_gt_0 (atan (y / x)) ltac:(lra) ltac:(lra)). lra. }
    split; [lra|]. intros _. rewrite neg_cos, neg_sin. split; lra.
  - assert (hs' : 0 < sin (atan (y / x))) by nra.
    assert (0 < atan (y / x)).
    { destruct (Rlt_dec 0 (atan (y / x))); [assumption|exfalso].
      destruct (Req_dec (atan (y / x)) 0) as [e0|e0]; [rewrite e0, sin_0 in hs'; lra|].
      pose proof (sin_lt_0_var (atan (y / x)) ltac:(lra) ltac:(lra)). lra. }
    split; [lra|]. intros _.
    replace (atan (y / x) - PI) with (- (PI - atan (y / x))) by ring.
    rewrite cos_neg, sin_neg, Rtrigo_facts.cos_pi_minus, sin_PI_x. split; lra. }
assert (x = 0) by lra; subst x.
destruct (Rlt_dec 0 y) as [hy|hy].
{ split; [lra|]. intros _. rewrite cos_PI2, sin_PI2.
  replace (0 ^ 2 + y ^ 2) with (Rsqr y) by (unfold Rsqr; ring). rewrite sqrt_Rsqr by lra. split; ring. }
destruct (Rlt_dec y 0) as [hy'|hy'].
{ split; [lra|]. intros _. rewrite cos_neg, sin_neg, cos_PI2, sin_PI2.
  replace (0 ^ 2 + y ^ 2) with (Rsqr (- y)) by (unfold Rsqr; ring). rewrite sqrt_Rsqr by lra. split; ring. }
split; [lra|]. intros [h|h]; lra.
Qed.

(** an angle in (-pi, pi] is determined by its cosine and sine *)
Lemma angle_unique a b : - PI < a <= PI -> - PI < b <= PI -> cos a = cos b -> sin a = sin b -> a = b.
Proof.
intros ha hb hc hs; pose proof PI_RGT_0.
assert (e : cos (a - b) = 1).
{ rewrite cos_minus, hc, hs. pose proof (sin2_cos2 b) as e. unfold Rsqr in e. lra. }
destruct (Rtotal_order a b) as [l|[eq|g]]; [exfalso|exact eq|exfalso].
- assert (h : cos (b - a) = 1) by (rewrite <- cos_neg; replace (- (b - a)) with (a - b) by ring; exact e).
  destruct (Rle_dec (b - a) PI) as [le|gt].
  + pose proof (cos_decreasing_1 0 (b - a) ltac:(lra) ltac:(lra) ltac:(lra) ltac:(lra) ltac:(lra)). rewrite cos_0 in *. lra.
  + pose proof (cos_increasing_1 (b - a) (2 * PI) ltac:(lra) ltac:(lra) ltac:(lra) ltac:(lra) ltac:(lra)). rewrite cos_2PI in *. lra.
- destruct (Rle_dec (a - b) PI) as [le|gt].
  + pose proof (cos_decreasing_1 0 (a - b) ltac:(lra) ltac:(lra) ltac:(lra) ltac:(lra) ltac:(lra)). rewrite cos_0 in *. lra.
  + pose proof (cos_increasing_1 (a - b) (2 * PI) ltac:(lra) ltac:(lra) ltac:(lra) ltac:(lra) ltac:(lra)). rewrite cos_2PI in *. lra.
Qed.

Lemma bearing_unique th x y : x <> 0 \/ y <> 0 -> is_bearing th x y -> th = arctan2 y x.
Proof.
intros nz [hb hp]. destruct (arctan2_polar y x) as [hb' hp'].
destruct (hp nz) as [c s]. destruct (hp' nz) as [c' s'].
assert (hr : 0 < sqrt (x ^ 2 + y ^ 2)) by (apply sqrt_lt_R0; nra).
apply angle_unique; try assumption; apply Rmult_eq_reg_l with (sqrt (x ^ 2 + y ^ 2)); lra.
Qed.

(** two bearings fix the position *)
Lemma same_direction y x y' x' : x <> 0 \/ y <> 0 -> x' <> 0 \/ y' <> 0 -> arctan2 y x = arctan2 y' x' ->
  exists a b, 0 < a /\ 0 < b /\ a * x = b * x' /\ a * y = b * y'.
Proof.
intros nz nz' e. destruct (arctan2_polar y x) as [_ h]; destruct (arctan2_polar y' x') as [_ h'].
destruct (h nz) as [c s]; destruct (h' nz') as [c' s']; rewrite e in c, s.
exists (sqrt (x' ^ 2 + y' ^ 2)), (sqrt (x ^ 2 + y ^ 2)).
assert (0 < sqrt (x ^ 2 + y ^ 2)) by (apply sqrt_lt_R0; nra).
assert (0 < sqrt (x' ^ 2 + y' ^ 2)) by (apply sqrt_lt_R0; nra).
split; [assumption|split; [assumption|]].
set (r := sqrt (x ^ 2 + y ^ 2)) in *; set (r' := sqrt (x' ^ 2 + y' ^ 2)) in *.
clear e. set (th := arctan2 y' x') in *. clearbody th r r'.
split; [rewrite c, c'|rewrite s, s']; ring.
Qed.

Lemma two_bearings p q s1 s2 :
  off_line p s1 s2 ->
  bearing p s1 = bearing q s1 -> bearing p s2 = bearing q s2 ->
  q <> s1 -> q <> s2 -> p = q.
Proof.
destruct p as [px py], q as [qx qy], s1 as [ax ay], s2 as [bx by']; unfold off_line, bearing; cbn.
intros off e1 e2 n1 n2.
assert (z1 : px - ax <> 0 \/ py - ay <> 0).
{ destruct (Req_dec px ax); [|left; lra]. right. intro. apply off. replace px with ax by lra. replace py with ay by lra. ring. }
assert (z2 : px - bx <> 0 \/ py - by' <> 0).
{ destruct (Req_dec px bx); [|left; lra]. right. intro. apply off. replace px with bx by lra. replace py with by' by lra. ring. }
assert (y1 : qx - ax <> 0 \/ qy - ay <> 0).
{ destruct (Req_dec qx ax); [|left; lra]. right. intro. apply n1. f_equal; lra. }
assert (y2 : qx - bx <> 0 \/ qy - by' <> 0).
{ destruct (Req_dec qx bx); [|left; lra]. right. intro. apply n2. f_equal; lra. }
destruct (same_direction _ _ _ _ z1 y1 e1) as [a [b [ha [hb [u1 v1]]]]].
destruct (same_direction _ _ _ _ z2 y2 e2) as [c [d [hc [hd [u2 v2]]]]].
assert (k1 : (px - ax) * (qy - ay) = (py - ay) * (qx - ax)).
{ apply Rmult_eq_reg_l with (a * b); [|now apply Rgt_not_eq, Rmult_lt_0_compat]. transitivity (a * (px - ax) * (b * (qy - ay))); [ring|]. rewrite u1, <- v1. ring. }
assert (k2 : (px - bx) * (qy - by') = (py - by') * (qx - bx)).
{ apply Rmult_eq_reg_l with (c * d); [|now apply Rgt_not_eq, Rmult_lt_0_compat]. transitivity (c * (px - bx) * (d * (qy - by'))); [ring|]. rewrite u2, <- v2. ring. }
(* q - p is parallel to both p - s1 and p - s2, which are independent *)
set (X := qx - px). set (Y := qy - py).
assert (l1 : (px - ax) * Y = (py - ay) * X).
{ unfold X, Y. transitivity ((px - ax) * (qy - ay) - (px - ax) * (py - ay)); [ring|rewrite k1; ring]. }
assert (l2 : (px - bx) * Y = (py - by') * X).
{ unfold X, Y. transitivity ((px - bx) * (qy - by') - (px - bx) * (py - by')); [ring|rewrite k2; ring]. }
assert (D : (px - ax) * (py - by') - (py - ay) * (px - bx) <> 0) by (intro; apply off; lra).
assert (hX : X = 0).
{ apply Rmult_eq_reg_l with ((px - ax) * (py - by') - (py - ay) * (px - bx)); [|exact D].
  transitivity ((px - ax) * ((py - by') * X) - (px - bx) * ((py - ay) * X)); [ring|]. rewrite <- l1, <- l2. ring. }
assert (hY : Y = 0).
{ apply Rmult_eq_reg_l with ((px - ax) * (py - by') - (py - ay) * (px - bx)); [|exact D].
  transitivity ((py - by') * ((px - ax) * Y) - (py - ay) * ((px - bx) * Y)); [ring|]. rewrite l1, l2. ring. }
unfold X in hX; unfold Y in hY. f_equal; lra.
Qed.

Lemma corners a p q : 0 < a ->
  let s1 := (- a, a) in let s2 := (a, a) in let s3 := (- a, - a) in let s4 := (a, - a) in
  bearing p s1 = bearing q s1 -> bearing p s2 = bearing q s2 ->
  bearing p s3 = bearing q s3 -> bearing p s4 = bearing q s4 -> p = q.
Proof.
intros ha s1 s2 s3 s4 e1 e2 e3 e4.
assert (dec : forall s : point, q = s \/ q <> s).
{ intros [sx sy]; destruct q as [qx qy]. destruct (Req_dec qx sx); [|right; congruence].
  destruct (Req_dec qy sy); [left; congruence|right; congruence]. }
assert (T123 : off_line p s1 s2 \/ off_line p s1 s3 \/ off_line p s2 s3).
{ unfold off_line, s1, s2, s3; destruct p as [px py]; cbn.
  destruct (Req_dec py a); [|left; nra]. destruct (Req_dec px (- a)); [|right; left; nra]. right; right; nra. }
assert (T124 : off_line p s1 s2 \/ off_line p s1 s4 \/ off_line p s2 s4).
{ unfold off_line, s1, s2, s4; destruct p as [px py]; cbn.
  destruct (Req_dec py a); [|left; nra]. destruct (Req_dec px a); [|right; right; nra]. right; left; nra. }
assert (T134 : off_line p s1 s3 \/ off_line p s1 s4 \/ off_line p s3 s4).
{ unfold off_line, s1, s3, s4; destruct p as [px py]; cbn.
  destruct (Req_dec px (- a)); [|left; nra]. destruct (Req_dec py (- a)); [|right; right; nra]. right; left; nra. }
assert (T234 : off_line p s2 s3 \/ off_line p s2 s4 \/ off_line p s3 s4).
{ unfold off_line, s2, s3, s4; destruct p as [px py]; cbn.
  destruct (Req_dec px a); [|right; left; nra]. destruct (Req_dec py (- a)); [|right; right; nra]. left; nra. }
assert (n12 : s1 <> s2) by (unfold s1, s2; intro h; inversion h; lra).
assert (n13 : s1 <> s3) by (unfold s1, s3; intro h; inversion h; lra).
assert (n14 : s1 <> s4) by (unfold s1, s4; intro h; inversion h; lra).
assert (n23 : s2 <> s3) by (unfold s2, s3; intro h; inversion h; lra).
assert (n24 : s2 <> s4) by (unfold s2, s4; intro h; inversion h; lra).
assert (n34 : s3 <> s4) by (unfold s3, s4; intro h; inversion h; lra).
clearbody s1 s2 s3 s4.
destruct (dec s1) as [d1|d1]; [|destruct (dec s2) as [d2|d2]; [|destruct (dec s3) as [d3|d3]]].
- destruct T234 as [t|[t|t]]; eapply two_bearings; eauto; congruence.
- destruct T134 as [t|[t|t]]; eapply two_bearings; eauto; congruence.
- destruct T124 as [t|[t|t]]; eapply two_bearings; eauto; congruence.
- destruct T123 as [t|[t|t]]; eapply two_bearings; eauto; congruence.
Qed.

(** ** rows *)
Lemma len4 (r : list R) : length r = 4%nat -> exists a b c d, r = [a; b; c; d].
Proof. destruct r as [|a [|b [|c [|d [|]]]]]; try discriminate. intros _; repeat eexists. Qed.
Lemma len5 (r : list R) : length r = 5%nat -> exists a b c d e, r = [a; b; c; d; e].
Proof. destruct r as [|a [|b [|c [|d [|e [|]]]]]]; try discriminate. intros _; repeat eexists. Qed.

Lemma bot_row dt r : length r = 4%nat -> matvec (bot_F dt) r = straight dt r.
Proof. intros h; destruct (len4 r h) as [a [b [c [d ->]]]]. cbn. unfold straight; cbn. conses; ring. Qed.

Lemma bot_fE dt x : bot_f dt x =
  if forallb (fun r => Nat.eqb (length r) 4) (atleast_2d x) then Ok (A2 (map (straight dt) (atleast_2d x))) else Err ValueErr.
Proof.
unfold bot_f. destruct (forallb _ _) eqn:e; [|reflexivity]. do 2 f_equal. apply map_ext_in.
intros r hr. apply bot_row. rewrite forallb_forall in e. apply Nat.eqb_eq, e, hr.
Qed.

Lemma straight_len dt xs : forallb (fun r => Nat.eqb (length r) 4) (map (straight dt) xs) = true.
Proof. induction xs; cbn; auto. Qed.

Lemma bot_compose dt1 dt2 x : bind (bot_f dt1 x) (bot_f dt2) = bot_f (dt1 + dt2) x.
Proof.
rewrite !bot_fE. destruct (forallb _ _) eqn:e; [|reflexivity]. unfold bind; rewrite bot_fE; cbn [atleast_2d].
rewrite straight_len, map_map. do 2 f_equal. apply map_ext. intros r. unfold straight; cbn. conses; ring.
Qed.

Lemma quad4 q dt a b c d : quad (bot_Q dt q) [a; b; c; d] =
  q * dt * ((c + dt * a / 2) ^ 2 + (dt * a) ^ 2 / 12 + (d + dt * b / 2) ^ 2 + (dt * b) ^ 2 / 12).
Proof. cbn. field. Qed.

Lemma bot_Q_pd dt q : pos_def 4 (bot_Q dt q) <-> 0 < q * dt.
Proof.
split.
- intros [_ h]. specialize (h [0; 0; 1; 0] eq_refl).
  rewrite quad4 in h. enough (0 < q * dt * 1) by lra. replace 1 with ((1 + dt * 0 / 2) ^ 2 + (dt * 0) ^ 2 / 12 + (0 + dt * 0 / 2) ^ 2 + (dt * 0) ^ 2 / 12) by field.
  apply h. cbn. intro e; inversion e; lra.
- intros h. split; [reflexivity|]. intros v hv nz. destruct (len4 v hv) as [a [b [c [d ->]]]].
  rewrite quad4. apply Rmult_lt_0_compat; [exact h|].
  assert (dt <> 0) by nra.
  destruct (Req_dec a 0) as [ea|ea].
  + destruct (Req_dec b 0) as [eb|eb].
    * subst a b. destruct (Req_dec c 0) as [ec|ec].
      -- destruct (Req_dec d 0) as [ed|ed]; [subst; exfalso; apply nz; reflexivity|].
         subst c. replace (d + dt * 0 / 2) with d by field. assert (0 < d ^ 2) by nra. nra.
      -- replace (c + dt * 0 / 2) with c by field. assert (0 < c ^ 2) by nra. pose proof (pow2_ge_0 (d + dt * 0 / 2)). nra.
    * assert (0 < (dt * b) ^ 2) by (assert (dt * b <> 0) by nra; nra).
      pose proof (pow2_ge_0 (c + dt * a / 2)); pose proof (pow2_ge_0 (d + dt * b / 2)); pose proof (pow2_ge_0 (dt * a)). lra.
  + assert (0 < (dt * a) ^ 2) by (assert (dt * a <> 0) by nra; nra).
    pose proof (pow2_ge_0 (c + dt * a / 2)); pose proof (pow2_ge_0 (d + dt * b / 2)); pose proof (pow2_ge_0 (dt * b)). lra.
Qed.

(** splitting a step: noise of the first part carried through the second plus noise of the second *)
Lemma bot_Q_split dt1 dt2 q :
  madd (mmul 4 (mmul 4 (bot_F dt2) (bot_Q dt1 q)) (transpose 4 (bot_F dt2))) (bot_Q dt2 q) = bot_Q (dt1 + dt2) q.
Proof. cbn. conses; field. Qed.

(** ** coordinated turn *)
Lemma bott_row dt a b c d w : w <> 0 ->
  matvec (bott_F dt w) [a; b; c; d; w] =
  [a + (sin (w*dt) * b - (1 - cos (w*dt)) * d) / w; cos (w*dt) * b - sin (w*dt) * d;
   c + ((1 - cos (w*dt)) * b + sin (w*dt) * d) / w; sin (w*dt) * b + cos (w*dt) * d; w].
Proof. intros h. cbn. conses; field; assumption. Qed.

Definition turn dt (r : list R) := matvec (bott_F dt (nth 4 r 0)) r.
Lemma turn_compose dt1 dt2 a b c d w : w <> 0 -> turn dt2 (turn dt1 [a; b; c; d; w]) = turn (dt1 + dt2) [a; b; c; d; w].
Proof.
intros h. unfold turn at 2 3. cbn [nth]. rewrite !bott_row by assumption. unfold turn; cbn [nth].
rewrite bott_row by assumption. replace (w * (dt1 + dt2)) with (w * dt1 + w * dt2) by ring. rewrite cos_plus, sin_plus. conses; field; assumption.
Qed.

Lemma bott_fE dt x : bott_f dt x =
  if forallb (fun r => Nat.eqb (length r) 5) (atleast_2d x) then
    if forallb (fun r => if Req_EM_T (nth 4 r 0) 0 then false else true) (atleast_2d x)
    then Ok (A2 (map (turn dt) (atleast_2d x))) else Err Unsupported
  else Err ValueErr.
Proof. reflexivity. Qed.

Lemma turn_w dt r : length r = 5%nat -> nth 4 r 0 <> 0 -> length (turn dt r) = 5%nat /\ nth 4 (turn dt r) 0 = nth 4 r 0.
Proof.
intros h; destruct (len5 r h) as [a [b [c [d [w ->]]]]]. intros hw; cbn [nth] in hw. unfold turn; cbn [nth].
rewrite bott_row by assumption. split; reflexivity.
Qed.

Lemma bott_compose dt1 dt2 x : bind (bott_f dt1 x) (bott_f dt2) = bott_f (dt1 + dt2) x.
Proof.
rewrite !bott_fE. destruct (forallb (fun r => Nat.eqb _ _) _) eqn:e1; [|reflexivity].
destruct (forallb _ _) eqn:e2 in |- *; [|reflexivity]. unfold bind; rewrite bott_fE; cbn [atleast_2d].
rewrite forallb_forall in e1, e2.
assert (ok : forall r, In r (atleast_2d x) -> length r = 5%nat /\ nth 4 r 0 <> 0).
{ intros r hr. split; [apply Nat.eqb_eq, (e1 r hr)|]. specialize (e2 r hr). destruct (Req_EM_T _ _); [discriminate|assumption]. }
replace (forallb (fun r => Nat.eqb (length r) 5) (map (turn dt1) (atleast_2d x))) with true.
2:{ symmetry. apply forallb_forall. intros r' hr'. apply in_map_iff in hr' as [r [<- hr]]. destruct (ok r hr).
    apply Nat.eqb_eq. apply turn_w; assumption. }
replace (forallb (fun r => if Req_EM_T (nth 4 r 0) 0 then false else true) (map (turn dt1) (atleast_2d x))) with true.
2:{ symmetry. apply forallb_forall. intros r' hr'. apply in_map_iff in hr' as [r [<- hr]]. destruct (ok r hr) as [hl hw].
    destruct (turn_w dt1 r hl hw) as [_ ->]. destruct (Req_EM_T _ _); [contradiction|reflexivity]. }
rewrite map_map. do 2 f_equal. apply map_ext_in. intros r hr. destruct (ok r hr) as [hl hw].
destruct (len5 r hl) as [a [b [c [d [w ->]]]]]. apply turn_compose. exact hw.
Qed.

Lemma turn_spec dt r : length r = 5%nat -> nth 4 r 0 <> 0 ->
  let r' := turn dt r in
  length r' = 5%nat /\ nth 4 r' 0 = nth 4 r 0 /\ rotated (nth 4 r 0 * dt) r r' /\ centre r' = centre r.
Proof.
intros h; destruct (len5 r h) as [a [b [c [d [w ->]]]]]. intros hw; cbn [nth] in hw. unfold turn; cbn [nth].
rewrite bott_row by assumption. cbn zeta. unfold rotated, centre; cbn [nth length].
repeat split. f_equal; field; assumption.
Qed.

Lemma rotated_speed a r r' : rotated a r r' -> speed2 r' = speed2 r.
Proof.
unfold rotated, speed2. intros [-> ->]. pose proof (sin2_cos2 a) as e. unfold Rsqr in e.
replace ((cos a * nth 1 r 0 - sin a * nth 3 r 0) ^ 2 + (sin a * nth 1 r 0 + cos a * nth 3 r 0) ^ 2)
  with ((sin a * sin a + cos a * cos a) * (nth 1 r 0 ^ 2 + nth 3 r 0 ^ 2)) by ring.
rewrite e. ring.
Qed.

Lemma turn_period r : length r = 5%nat -> nth 4 r 0 <> 0 -> turn (2 * PI / nth 4 r 0) r = r.
Proof.
intros h; destruct (len5 r h) as [a [b [c [d [w ->]]]]]. intros hw; cbn [nth] in hw. unfold turn; cbn [nth].
rewrite bott_row by assumption. replace (w * (2 * PI / w)) with (2 * PI) by (field; assumption).
rewrite cos_2PI, sin_2PI. conses; field; assumption.
Qed.

Lemma quad5 dt q0 q1 a b c d e : quad (bott_Q dt q0 q1) [a; b; c; d; e] =
  q0 * dt * ((b + dt * a / 2) ^ 2 + (dt * a) ^ 2 / 12 + (d + dt * c / 2) ^ 2 + (dt * c) ^ 2 / 12) + dt * q1 * e ^ 2.
Proof. cbn. field. Qed.

Lemma bott_Q_pd dt q0 q1 : pos_def 5 (bott_Q dt q0 q1) <-> 0 < q0 * dt /\ 0 < dt * q1.
Proof.
split.
- intros [_ h]. split.
  + specialize (h [0; 1; 0; 0; 0] eq_refl). rewrite quad5 in h. cbn in h.
    assert (h' : [0; 1; 0; 0; 0] <> [0; 0; 0; 0; 0]) by (intro e; inversion e; lra). specialize (h h'). nra.
  + specialize (h [0; 0; 0; 0; 1] eq_refl). rewrite quad5 in h. cbn in h.
    assert (h' : [0; 0; 0; 0; 1] <> [0; 0; 0; 0; 0]) by (intro e; inversion e; lra). specialize (h h'). nra.
- intros [h0 h1]. split; [reflexivity|]. intros v hv nz. destruct (len5 v hv) as [a [b [c [d [e ->]]]]].
  rewrite quad5. 
  destruct (bot_Q_pd dt q0) as [_ [_ hp]]; [exact h0|].
  destruct (Req_dec e 0) as [ee|ee].
  + subst e. assert (hz : [a; c; b; d] <> repeat 0 4). { intro k. inversion k; subst. apply nz. reflexivity. }
    specialize (hp [a; c; b; d] eq_refl hz). rewrite quad4 in hp.
    replace (dt * q1 * 0 ^ 2) with 0 by ring. lra.
  + assert (0 < dt * q1 * e ^ 2) by (apply Rmult_lt_0_compat; nra).
    pose proof (pow2_ge_0 (b + dt * a / 2)); pose proof (pow2_ge_0 (dt * a)); pose proof (pow2_ge_0 (d + dt * c / 2)); pose proof (pow2_ge_0 (dt * c)).
    assert (0 <= q0 * dt * ((b + dt * a / 2) ^ 2 + (dt * a) ^ 2 / 12 + (d + dt * c / 2) ^ 2 + (dt * c) ^ 2 / 12)).
    { apply Rmult_le_pos; lra. }
    lra.
Qed.

(** ** bearings of rows *)
Lemma bearing_rows ix iy ss x y : bearing_h ix iy (Some ss) x = Ok y -> ss <> [] ->
  y = A2 (map (fun r => map (fun s => bearing (nth ix r 0, nth iy r 0) (s_x s, s_y s)) ss) (atleast_2d x)).
Proof.
unfold bearing_h. destruct ss as [|s ss]; [congruence|]. destruct (forallb _ _); [|discriminate].
intros h _; injection h as <-. reflexivity.
Qed.

Lemma corner_rows a ix iy x x' : 0 < a ->
  let ss := [Sensor (- a) a; Sensor a a; Sensor (- a) (- a); Sensor a (- a)] in
  isOk (bearing_h ix iy (Some ss) x) = true -> bearing_h ix iy (Some ss) x = bearing_h ix iy (Some ss) x' ->
  map (fun r => (nth ix r 0, nth iy r 0)) (atleast_2d x) = map (fun r => (nth ix r 0, nth iy r 0)) (atleast_2d x').
Proof.
intros ha ss ok e.
destruct (bearing_h ix iy (Some ss) x) as [y|] eqn:e1; [|discriminate]. symmetry in e.
apply bearing_rows in e1; [|discriminate]. apply bearing_rows in e; [|discriminate]. subst y. injection e as e.
revert e. generalize (atleast_2d x), (atleast_2d x'). induction l as [|r l IH]; intros [|r' l'] h; cbn in h; try discriminate; [reflexivity|].
injection h as h1 h2 h3 h4 hl. cbn. f_equal; [|apply IH; exact hl].
apply (corners a); assumption.
Qed.

Lemma no_sensor_list ix iy x : bearing_h ix iy None x = Err TypeErr.
Proof. reflexivity. Qed.

(** ** statements on arrays *)
Lemma Forall2_map {A B} (P : A -> B -> Prop) f l : (forall x, P x (f x)) -> Forall2 P l (map f l).
Proof. intros h; induction l; cbn; constructor; auto. Qed.

Lemma entries_amap (P : R -> R -> Prop) f x : (forall a, P a (f a)) -> Forall2 P (entries x) (entries (amap f x)).
Proof.
intros h; destruct x as [v|rows]; cbn; [apply Forall2_map, h|].
rewrite <- concat_map. apply Forall2_map, h.
Qed.

Lemma bot_linear dt a b x y : length x = 4%nat -> length y = 4%nat ->
  exists x' y', bot_f dt (A1 x) = Ok (A2 [x']) /\ bot_f dt (A1 y) = Ok (A2 [y']) /\
  bot_f dt (A1 (lin a x b y)) = Ok (A2 [lin a x' b y']).
Proof.
intros hx hy. destruct (len4 x hx) as [x0 [x1 [x2 [x3 ->]]]]; destruct (len4 y hy) as [y0 [y1 [y2 [y3 ->]]]].
eexists; eexists. split; [rewrite bot_fE; cbn; reflexivity|]. split; [rewrite bot_fE; cbn; reflexivity|].
rewrite bot_fE; cbn.
do 3 f_equal. unfold lin, straight; cbn. conses; ring.
Qed.

Lemma bot_zero x : bot_f 0 x = if forallb (fun r => Nat.eqb (length r) 4) (atleast_2d x) then Ok (A2 (atleast_2d x)) else Err ValueErr.
Proof.
rewrite bot_fE. destruct (forallb _ _) eqn:e; [|reflexivity]. do 2 f_equal.
rewrite <- (map_id (atleast_2d x)) at 2. apply map_ext_in. intros r hr. rewrite forallb_forall in e.
specialize (e r hr). apply Nat.eqb_eq in e. destruct (len4 r e) as [a [b [c [d ->]]]]. unfold straight; cbn. conses; ring.
Qed.

Lemma Forall2_map_in {A B} (P : A -> B -> Prop) f l : (forall x, In x l -> P x (f x)) -> Forall2 P l (map f l).
Proof. induction l; cbn; intros h; constructor; auto. Qed.

Lemma bott_rows dt x y : bott_f dt x = Ok y ->
  exists rows, y = A2 rows /\
  Forall2 (fun r r' => length r' = 5%nat /\ nth 4 r' 0 = nth 4 r 0 /\ rotated (nth 4 r 0 * dt) r r' /\ centre r' = centre r /\ speed2 r' = speed2 r)
    (atleast_2d x) rows.
Proof.
rewrite bott_fE. destruct (forallb _ _) eqn:e1; [|discriminate]. destruct (forallb _ _) eqn:e2 in |- *; [|discriminate].
intros h; injection h as <-. eexists; split; [reflexivity|]. apply Forall2_map_in. intros r hr.
rewrite forallb_forall in e1, e2. specialize (e1 r hr); specialize (e2 r hr). apply Nat.eqb_eq in e1.
destruct (Req_EM_T _ _) as [|hw]; [discriminate|].
destruct (turn_spec dt r e1 hw) as [h1 [h2 [h3 h4]]]. repeat split; try assumption; try apply h3.
apply (rotated_speed _ _ _ h3).
Qed.

Lemma bott_ok dt x : (exists y, bott_f dt x = Ok y) <-> Forall (fun r => length r = 5%nat /\ nth 4 r 0 <> 0) (atleast_2d x).
Proof.
rewrite bott_fE, Forall_forall. split.
- intros [y hy] r hr. destruct (forallb _ _) eqn:e1 in hy; [|discriminate]. destruct (forallb _ _) eqn:e2 in hy; [|discriminate].
  rewrite forallb_forall in e1, e2. specialize (e1 r hr); specialize (e2 r hr). apply Nat.eqb_eq in e1.
  destruct (Req_EM_T _ _); [discriminate|]. split; assumption.
- intros h. replace (forallb (fun r => Nat.eqb _ _) _) with true.
  2:{ symmetry; apply forallb_forall. intros r hr. apply Nat.eqb_eq, h, hr. }
  replace (forallb _ _) with true; [eexists; reflexivity|].
  symmetry; apply forallb_forall. intros r hr. destruct (Req_EM_T _ _); [|reflexivity]. exfalso; apply (h r hr). assumption.
Qed.

Lemma bott_period r : length r = 5%nat -> nth 4 r 0 <> 0 -> bott_f (2 * PI / nth 4 r 0) (A1 r) = Ok (A2 [r]).
Proof.
intros hl hw. rewrite bott_fE; cbn [atleast_2d forallb map]. rewrite hl, Nat.eqb_refl; cbn [andb].
destruct (Req_EM_T _ _); [contradiction|]. cbn [andb]. rewrite turn_period by assumption. reflexivity.
Qed.

Lemma bott_zero_rate dt r : length r = 5%nat -> nth 4 r 0 = 0 -> bott_f dt (A1 r) = Err Unsupported.
Proof.
intros hl hw. rewrite bott_fE; cbn [atleast_2d forallb map]. rewrite hl, Nat.eqb_refl; cbn [andb].
destruct (Req_EM_T _ _); [reflexivity|contradiction].
Qed.

Lemma bearing_vals ix iy ss x y : bearing_h ix iy (Some ss) x = Ok y ->
  ss = [] /\ y = A1 [] \/
  exists rows, y = A2 rows /\
    Forall2 (fun r b => Forall2 (fun s th => is_bearing th (nth ix r 0 - s_x s) (nth iy r 0 - s_y s)) ss b) (atleast_2d x) rows.
Proof.
destruct ss as [|s ss]; [intros h; left; injection h as <-; split; reflexivity|]. intros h; right.
unfold bearing_h in h. destruct (forallb _ _); [|discriminate]. injection h as <-. eexists; split; [reflexivity|].
apply Forall2_map. intros r. unfold bearings. apply Forall2_map. intros s'. apply arctan2_polar.
Qed.
