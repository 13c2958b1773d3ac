(** * C62: removal of outliers from the stored results *)
Set Warnings "-notation-overridden,-ambiguous-paths".
From mathcomp Require Import all_ssreflect all_algebra real_closed.realalg.
From Verif Require Import Base Outliers SpecOutliers OutliersFacts.
Set Implicit Arguments.
Unset Strict Implicit.
Unset Printing Implicit Defensive.
Import GRing.Theory Num.Theory Order.Theory.
Local Open Scope ring_scope.

Section Props.
Variable R : rcfType.
Implicit Types (x s : seq R).

(** without indices: the call succeeds, removes each index once, keeps the rest in order, keeps at least half of
    the values, and every removed value is beyond all kept ones *)
Theorem C62_kept x : x <> [::] -> exists out y,
  [/\ remove_outliers x None false = Ok (Some out, y),
      [/\ uniq out, (forall o, o \in out -> exists2 i : nat, (i < size x)%N & o = i%:Z), y = others x out
        & (size out + size y = size x)%N],
      (size x <= 2 * size y)%N
    & forall i : nat, (i < size x)%N -> i%:Z \in out ->
        (forall w, w \in y -> w < nth 0 x i) \/ (forall w, w \in y -> nth 0 x i < w)].
Proof.
move=> nx; exists (out_of x), (kept x (out_of x)); split; first exact: removeE.
- split; [exact: out_uniq|exact: out_nat|exact: kept_others|exact: size_kept].
- exact: half.
exact: removed_extreme.
Qed.
(** the removed positions are those of the values beyond Tukey's fences *)
Theorem C62_rule x s out y : ordered s x -> remove_outliers x None false = Ok (Some out, y) ->
  forall i : nat, (i < size x)%N -> (i%:Z \in out <-> far s (nth 0 x i)).
Proof.
move=> hs; have [-> //|/eqP nx] := eqVneq x [::]; rewrite removeE // => -[<- _] i hi.
rewrite mem_out hi /=; split; first by move/(inlier_far _ hs).
by move=> h; apply/(inlier_far _ hs).
Qed.
(** a change of scale, sign or origin changes nothing else *)
Theorem C62_affine a b x out y : a != 0 -> remove_outliers x None false = Ok (Some out, y) ->
  exists2 out', perm_eq out out' & remove_outliers [seq a * v + b | v <- x] None false = Ok (Some out', [seq a * v + b | v <- y]).
Proof.
move=> a0; have [-> //|/eqP nx] := eqVneq x [::]; rewrite removeE // => -[<- <-].
exists (out_of [seq aff a b v | v <- x]); first exact: out_perm.
by rewrite removeE; [rewrite kept_aff|case: x nx].
Qed.
(** neither does the order of the values *)
Theorem C62_order x x' out y : perm_eq x x' -> remove_outliers x None false = Ok (Some out, y) ->
  exists out' y', remove_outliers x' None false = Ok (Some out', y') /\ perm_eq y y'.
Proof.
move=> hp; have [-> //|/eqP nx] := eqVneq x [::]; rewrite removeE // => -[_ <-].
have nx' : x' <> [::] by move=> e; apply: nx; apply/eqP; rewrite -size_eq0 (perm_size hp) e.
by exists (out_of x'), (kept x' (out_of x')); rewrite removeE // kept_perm.
Qed.
(** three values or fewer: none is removed *)
Theorem C62_short x : x <> [::] -> (size x <= 3)%N -> remove_outliers x None false = Ok (Some [::], x).
Proof. by move=> nx n3; rewrite removeE //; have [v hv|-> ->] := @kept_all R x; first exact: small. Qed.
(** given indices, as on lines 92-94: the same positions go, whatever the values are; the call fails exactly when
    every position is given; negative indices and indices past the end remove nothing *)
Theorem C62_given x out : remove_outliers x (Some out) false =
  if [forall i : 'I_(size x), (i : nat)%:Z \in out] then Err IndexErr else Ok (Some out, others x out).
Proof.
case: ifPn => h.
  by apply/remove_given_err/others_nil => i hi; have /forallP/(_ (Ordinal hi)) := h.
apply/remove_given; split=> // /others_nil h'; case/negP: h; apply/forallP => i; exact: h'.
Qed.
Theorem C62_pair x x' out y : remove_outliers x None false = Ok (Some out, y) -> size x' = size x ->
  remove_outliers x' (Some out) false = Ok (Some out, others x' out) /\ size (others x' out) = size y.
Proof.
have [-> //|/eqP nx] := eqVneq x [::]; rewrite removeE // => -[<- <-] e.
have hz : size (others x' (out_of x)) = size (kept x (out_of x)) by rewrite -kept_others /kept !size_map e.
split=> //; apply/remove_given; split=> // h; have := half nx; rewrite -hz h muln0 leqn0 size_eq0.
by move/eqP.
Qed.
End Props.

(** ** an array with an outlier *)
Section Case.
Variable R : rcfType.
Definition case_x : seq R := [seq n%:R | n <- [:: 0; 1; 100; 3; 2]%N].
Definition case_s : seq R := [seq n%:R | n <- [:: 0; 1; 2; 3; 100]%N].
Lemma case_ordered : ordered case_s case_x.
Proof.
split; first by rewrite /case_s (sorted_map (f := fun n => n%:R)) (eq_sorted (e' := leq)) // => a b /=; rewrite ler_nat.
by rewrite /case_s /case_x; apply: perm_map.
Qed.
Lemma case_ne : case_x <> [::].
Proof. by []. Qed.
Lemma case_size : size case_s = size case_x.
Proof. by []. Qed.
Lemma case_out : remove_outliers case_x None false = Ok (Some [:: 2], [seq n%:R | n <- [:: 0; 1; 3; 2]%N]).
Proof.
have Q1 : quartile case_s 1 = 1.
  rewrite /quartile !big_ord_recl big_ord0 /= addr0; have -> : 1 + (1 + (1 + 1)) = 4%:R :> R by rewrite !mulrS mulr0n addr0.
  by rewrite divff // pnatr_eq0.
have Q3 : quartile case_s 3 = 3%:R.
  rewrite /quartile !big_ord_recl big_ord0 /= addr0 -!natrD; apply: (canLR (mulfK _)); first by rewrite pnatr_eq0.
  by rewrite -natrM.
have e (n : nat) : inlier case_x n%:R = (n <= 6)%N.
  rewrite /inlier /low /high (q1_spec case_ordered) (q3_spec case_ordered) Q1 Q3.
  have -> : 3%:R - 1 = 2%:R :> R by rewrite -[3%N]/(2 + 1)%N natrD addrK.
  rewrite divfK ?pnatr_eq0 // -natrD ler_nat andbC; case: leqP => //= _.
  by rewrite (le_trans _ (ler0n _ n)) // subr_le0 ler1n.
have hk : kept case_x (out_of case_x) = [seq n%:R | n <- [:: 0; 1; 3; 2]%N].
  by rewrite kept_filter {2}/case_x filter_map; congr map; rewrite (@eq_filter _ _ (fun n => n <= 6)%N) // => n; exact: e.
rewrite removeE // hk; congr (Ok (Some _, _)).
have h2 : 2%:Z \in out_of case_x by rewrite mem_out /= e.
have := size_kept case_x; rewrite hk /= => h5; have : size (out_of case_x) = 1%N by apply/eqP; rewrite -(eqn_add2r 4) h5.
case: (out_of case_x) h2 => [|a [|b l]] // h2 _; by move: h2; rewrite inE => /eqP <-.
Qed.
End Case.
Notation RA := [rcfType of realalg].
Example C62_ex_kept : case_x RA <> [::] /\ ordered (case_s RA) (case_x RA) /\
  remove_outliers (case_x RA) None false = Ok (Some [:: 2], [seq n%:R | n <- [:: 0; 1; 3; 2]%N]).
Proof. split; [exact: case_ne|split; [exact: case_ordered|exact: case_out]]. Qed.
(** reused on another array of five values *)
Example C62_ex_pair : exists2 y, remove_outliers (case_s RA) (Some [:: 2]) false = Ok (Some [:: 2], y) & size y = 4%N.
Proof.
have [h1 h2] := C62_pair (case_out RA) (case_size RA).
by exists (others (case_s RA) [:: 2]).
Qed.
(** multiplied by -1 *)
Example C62_ex_affine : exists out', remove_outliers [seq -1 * v + 0 | v <- case_x RA] None false =
  Ok (Some out', [seq -1 * v + 0 | v <- [seq n%:R | n <- [:: 0; 1; 3; 2]%N]]).
Proof.
have n1 : (-1 != 0 :> RA) by rewrite oppr_eq0 oner_eq0.
by have [out' _ h] := C62_affine 0 n1 (case_out RA); exists out'.
Qed.
Example C62_ex_short : remove_outliers [:: (0 : RA); 1; 100%:R] None false = Ok (Some [::], [:: 0; 1; 100%:R]).
Proof. exact: C62_short. Qed.

Print Assumptions C62_kept.
Print Assumptions C62_rule.
Print Assumptions C62_affine.
Print Assumptions C62_order.
Print Assumptions C62_short.
Print Assumptions C62_given.
Print Assumptions C62_pair.
