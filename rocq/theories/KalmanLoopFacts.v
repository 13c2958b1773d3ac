(** * Facts about the filter and smoother loops *)
Set Warnings "-notation-overridden,-ambiguous-paths".
From mathcomp Require Import all_ssreflect all_algebra.
From Verif Require Import Base KalmanLoop.
Set Implicit Arguments.
Unset Strict Implicit.
Unset Printing Implicit Defensive.
Import GRing.Theory.
Local Open Scope ring_scope.

Lemma wbindE W A B (w : W) (a : A) (k : A -> W -> W * res B) : wbind (w, Ok a) k = k a w. Proof. by []. Qed.
Lemma wbind_err W A B (w : W) e (k : A -> W -> W * res B) : wbind (w, Err e) k = (w, Err e). Proof. by []. Qed.
Lemma wbind_ok W A B (r : W * res A) (k : A -> W -> W * res B) w' b : wbind r k = (w', Ok b) ->
  exists w1 a, r = (w1, Ok a) /\ k a w1 = (w', Ok b).
Proof. by case: r => w1 [a|e] //; rewrite wbindE => h; exists w1, a. Qed.

Arguments wbind_ok {W A B r k w' b} _.

Section Facts.
Variables (Tm : zmodType) (U G Y0 Y W : Type).
Variable squeeze : Y0 -> Y.
Variable gcopy : G -> G.
Variable predict : Tm -> U -> G -> W -> W * res G.
Variable correct : Tm -> U -> G -> Y -> W -> W * res G.
Variable smooth : Tm -> U -> G -> G -> W -> W * res G.
Variable dt : Tm.
Variable init_state : G.
Notation filter_loop := (filter_loop squeeze predict correct dt).
Notation kalman_filter := (kalman_filter squeeze predict correct dt init_state).
Notation smoother_loop := (smoother_loop gcopy smooth dt).
Notation kalman_smoother := (kalman_smoother gcopy smooth dt).

Lemma filter_loop_ok y ys t u g w w' l : filter_loop (y :: ys) t u g w = (w', Ok l) ->
  exists w1 p w2 c l', [/\ predict t u g w = (w1, Ok p), correct t u p (squeeze y) w1 = (w2, Ok c),
    filter_loop ys (t + dt) u c w2 = (w', Ok l') & l = c :: l'].
Proof.
rewrite /= => /wbind_ok [w1 [p [h1 /= /wbind_ok [w2 [c [h2 /= /wbind_ok [w3 [l' [h3 /= [e1 e2]]]]]]]]]].
by exists w1, p, w2, c, l'; split=> //; rewrite ?h3 ?e1 // -e2.
Qed.

Lemma filter_size ys t u g w w' l : filter_loop ys t u g w = (w', Ok l) -> size l = size ys.
Proof.
elim: ys t g w l => [|y ys IH] t g w l; first by case=> _ <-.
by move/filter_loop_ok => [w1 [p [w2 [c [l' [_ _ /IH h ->]]]]]] /=; rewrite h.
Qed.

Lemma smoother_loop_size ss t u g w w' l : smoother_loop ss t u g w = (w', Ok l) -> size l = size ss.
Proof.
elim: ss t g w w' l => [|s ss IH] t g w w' l /=; first by case=> _ <-.
by move/wbind_ok => [w1 [p [_ /= /wbind_ok [w2 [c [/IH h /= [_ <-]]]]]]] /=; rewrite h.
Qed.

Lemma smoother_size fs u w w' l : kalman_smoother fs u w = (w', Ok l) -> size l = size fs /\
  forall x, last x l = gcopy (last x fs).
Proof.
rewrite /kalman_smoother; case E: (rev fs) => [|s ss] // /wbind_ok [w1 [c [/smoother_loop_size h /= [_ <-]]]].
have es : fs = rcons (rev ss) s by rewrite -[fs]revK E rev_cons.
split; first by rewrite size_rev /= h es size_rcons size_rev.
by move=> x; rewrite rev_cons last_rcons es last_rcons.
Qed.

(** restart *)
Lemma filter_cat ys1 ys2 t u g w :
  filter_loop (ys1 ++ ys2) t u g w =
  wbind (filter_loop ys1 t u g w) (fun l1 w1 =>
  wbind (filter_loop ys2 (t + dt *+ size ys1) u (last g l1) w1) (fun l2 w2 => (w2, Ok (l1 ++ l2)))).
Proof.
elim: ys1 t g w => [|y ys1 IH] t g w /=.
  by rewrite wbindE addr0 /=; case: filter_loop => w1 [l|e].
case: predict => w1 [p|e]; rewrite ?wbindE ?wbind_err //.
case: correct => w2 [c|e]; rewrite ?wbindE ?wbind_err //.
rewrite IH; have -> : t + dt + dt *+ size ys1 = t + dt *+ (size ys1).+1 by rewrite mulrS addrA.
case: filter_loop => w3 [l1|e]; rewrite ?wbindE ?wbind_err //=.
by case: filter_loop => w4 [l2|e]; rewrite ?wbindE ?wbind_err.
Qed.
Lemma filter_prefix ys1 ys2 t u g w w' l : filter_loop (ys1 ++ ys2) t u g w = (w', Ok l) ->
  exists w1, filter_loop ys1 t u g w = (w1, Ok (take (size ys1) l)).
Proof.
rewrite filter_cat => /wbind_ok [w1 [l1 [h /= /wbind_ok [w2 [l2 [h2 /= [_ <-]]]]]]].
by exists w1; rewrite h -(filter_size h) take_size_cat.
Qed.

(** the calls made, with their times *)
Lemma filter_calls ys t u g w w' l (y0 : Y0) (g0 : G) : filter_loop ys t u g w = (w', Ok l) ->
  forall k, (k < size ys)%N -> exists w1 w2 w3 p,
    predict (t + dt *+ k) u (nth g0 (g :: l) k) w1 = (w2, Ok p) /\
    correct (t + dt *+ k) u p (squeeze (nth y0 ys k)) w2 = (w3, Ok (nth g0 l k)).
Proof.
elim: ys t g w l => [|y ys IH] t g w l //.
move/filter_loop_ok => [w1 [p [w2 [c [l' [h1 h2 h3 ->]]]]]] [|k] hk /=.
  by exists w, w1, w2, p; rewrite addr0.
have [w4 [w5 [w6 [q [e1 e2]]]]] := IH _ _ _ _ h3 k hk.
by exists w4, w5, w6, q; rewrite mulrS addrA.
Qed.

Lemma smoother_loop_calls ss t u nx w w' l (g0 : G) : smoother_loop ss t u nx w = (w', Ok l) ->
  forall j, (j < size ss)%N -> exists w1 w2,
    smooth (t - dt *+ j) u (nth g0 ss j) (nth g0 (nx :: map gcopy l) j) w1 = (w2, Ok (nth g0 l j)).
Proof.
elim: ss t nx w w' l => [|s ss IH] t nx w w' l //= /wbind_ok [w1 [c [h /= /wbind_ok [w2 [l' [h2 /= [_ <-]]]]]]] [|j] hj /=.
  by exists w, w1; rewrite subr0.
have [w3 [w4 e]] := IH _ _ _ _ _ h2 j hj; exists w3, w4; rewrite mulrS opprD addrA; exact: e.
Qed.

(** result of the smoother, in time order: element k is [smooth] of the filter's k-th state and of (a
    copy of) the smoother's (k+1)-st, at time (k+1)*dt *)
Lemma smoother_calls fs u w w' l (g0 : G) : (forall g, gcopy (gcopy g) = gcopy g) -> kalman_smoother fs u w = (w', Ok l) ->
  forall k, (k.+1 < size fs)%N -> exists w1 w2,
    smooth (dt *+ k.+1) u (nth g0 fs k) (gcopy (nth g0 l k.+1)) w1 = (w2, Ok (nth g0 l k)).
Proof.
move=> cc; rewrite /kalman_smoother; case E: (rev fs) => [|s ss] // /wbind_ok [w1 [c [h /= [_ <-]]]] k hk.
have es : fs = rcons (rev ss) s by rewrite -[fs]revK E rev_cons.
have hs := smoother_loop_size h; have sf : size fs = (size ss).+1 by rewrite es size_rcons size_rev.
rewrite sf ltnS in hk *; have hj : (size ss - k.+1 < size ss)%N by rewrite ltn_subrL /= (leq_ltn_trans (leq0n k) hk).
have [w2 [w3 e]] := smoother_loop_calls g0 h hj; exists w2, w3; move: e.
have -> : dt *+ (size fs).-1 - dt *+ (size ss - k.+1) = dt *+ k.+1.
  by rewrite sf /= -mulrnBr ?leq_subr // subKn.
have -> : nth g0 ss (size ss - k.+1) = nth g0 fs k.
  by rewrite es nth_rcons size_rev hk nth_rev.
have -> : nth g0 (rev (gcopy s :: c)) k = nth g0 c (size ss - k.+1).
  by rewrite rev_cons nth_rcons size_rev hs hk nth_rev hs.
have -> : nth g0 (gcopy s :: [seq gcopy i | i <- c]) (size ss - k.+1) = gcopy (nth g0 (rev (gcopy s :: c)) k.+1) ; last by [].
rewrite rev_cons nth_rcons size_rev hs; case: (ltngtP k.+1 (size ss)) => hk1.
- rewrite nth_rev hs //; have -> : (size ss - k.+1 = (size ss - k.+2).+1)%N by rewrite -subSn // subSS.
  by rewrite /= (nth_map g0) // hs ltn_subrL /= (leq_ltn_trans _ hk1).
- by move: hk; rewrite ltnNge -ltnS hk1.
- by rewrite hk1 subnn /= cc.
Qed.
End Facts.
