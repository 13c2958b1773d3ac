(** * Facts about limits *)
Set Warnings "-notation-overridden,-ambiguous-paths".
From Coq Require Import Ring Field.
From mathcomp Require Import all_ssreflect all_algebra.
From Verif Require Import FieldTac SpecLimit.
Set Implicit Arguments.
Unset Strict Implicit.
Unset Printing Implicit Defensive.
Import GRing.Theory Num.Theory Order.Theory.
Local Open Scope ring_scope.

Section Limit.
Variable R : rcfType.
Add Field fieldR : (ffth R).
Implicit Types (f g h : nat -> R) (l m : R).
Lemma half (e : R) : 0 < e -> 0 < e / 2%:R. Proof. by move=> h; rewrite divr_gt0 ?ltr0n. Qed.
Lemma tends_ext f g l : (forall n, f n = g n) -> tends f l -> tends g l.
Proof. by move=> h hf e e0; have [n0 hn] := hf e e0; exists n0 => n hle; rewrite -h; exact: hn. Qed.
Lemma tends_const l : tends (fun=> l) l.
Proof. by move=> e e0; exists 0%N => n _; rewrite subrr normr0. Qed.
Lemma tends_null f l : tends f l <-> tends (fun n => f n - l) 0.
Proof. by split=> h e e0; have [n0 hn] := h e e0; exists n0 => n /hn; rewrite subr0. Qed.
Lemma tendsS f l : tends (fun n => f n.+1) l <-> tends f l.
Proof.
split=> h e e0; have [n0 hn] := h e e0; last by exists n0 => n hle; exact/hn/leqW.
by exists n0.+1 => -[//|n]; exact: hn.
Qed.
Lemma tendsD f g l m : tends f l -> tends g m -> tends (fun n => f n + g n) (l + m).
Proof.
move=> hf hg e e0; have [n1 h1] := hf _ (half e0); have [n2 h2] := hg _ (half e0); exists (maxn n1 n2) => n.
rewrite geq_max => /andP[/h1 k1 /h2 k2]; rewrite opprD addrACA (splitr e).
exact: le_lt_trans (ler_norm_add _ _) (ltr_add k1 k2).
Qed.
Lemma nullM f g : tends f 0 -> tends g 0 -> tends (fun n => f n * g n) 0.
Proof.
move=> hf hg e e0; have [n1 h1] := hf _ e0; have [n2 h2] := hg _ (@ltr01 R); exists (maxn n1 n2) => n.
rewrite geq_max => /andP[/h1 k1 /h2 k2]; rewrite !subr0 in k1 k2 *; rewrite normrM -[e]mulr1.
exact: ltr_pmul.
Qed.
Lemma nullZ (c : R) f : tends f 0 -> tends (fun n => c * f n) 0.
Proof.
move=> hf e e0; have c0 : 0 < `|c| + 1 by rewrite ltr_spaddr ?normr_ge0 ?ltr01.
have [n0 hn] := hf _ (divr_gt0 e0 c0); exists n0 => n /hn; rewrite !subr0 normrM ltr_pdivl_mulr // mulrC => h.
by apply: le_lt_trans h; rewrite ler_wpmul2r ?normr_ge0 // ler_addl ler01.
Qed.
Lemma tendsM f g l m : tends f l -> tends g m -> tends (fun n => f n * g n) (l * m).
Proof.
move=> /tends_null hf /tends_null hg; apply/tends_null.
have := tendsD (tendsD (nullM hf hg) (nullZ l hg)) (nullZ m hf); rewrite !addr0; apply: tends_ext => n.
rewrite mulrBl !mulrBr [m * f n]mulrC [m * l]mulrC; set a := f n * g n; set b := l * g n; set c := f n * m; set d := l * m.
have -> : a - c - (b - d) + (b - d) = a - c by rewrite subrK.
by rewrite addrA subrK.
Qed.
Lemma tendsN f l : tends f l -> tends (fun n => - f n) (- l).
Proof. by move=> h; have := tendsM (tends_const (-1)) h; rewrite mulN1r; apply: tends_ext => n; rewrite mulN1r. Qed.
Lemma tendsB f g l m : tends f l -> tends g m -> tends (fun n => f n - g n) (l - m).
Proof. by move=> h1 h2; exact: tendsD h1 (tendsN h2). Qed.
(** no element of the sequence needs to be nonzero: the inverse of 0 is 0 here, but then not close to 1 / l *)
Lemma tendsV f l : l != 0 -> tends f l -> tends (fun n => (f n)^-1) l^-1.
Proof.
move=> l0 hf e e0; have nl : 0 < `|l| by rewrite normr_gt0.
have d0 : 0 < e * (`|l| ^+ 2 / 2%:R) by rewrite mulr_gt0 // half // exprn_gt0.
have [n1 h1] := hf _ (half nl); have [n2 h2] := hf _ d0; exists (maxn n1 n2) => n.
rewrite geq_max => /andP[/h1 k1 /h2 k2].
have big : `|l| / 2%:R < `|f n|.
  rewrite -(ltr_add2r (`|l| / 2%:R)) -splitr; apply: le_lt_trans (_ : `|f n| + `|f n - l| < _); last by rewrite ltr_add2l.
  by rewrite -[X in `|X| <= _](subKr (f n)) (le_trans (ler_norm_sub _ _)).
have fn : 0 < `|f n| := lt_trans (half nl) big; have f0 : f n != 0 by rewrite -normr_gt0.
have -> : (f n)^-1 - l^-1 = (l - f n) / (f n * l).
  by move/eqP: (f0) (l0) => f1 /eqP l1; fnorm R; field; split.
rewrite normrM normrV ?unitfE ?mulf_neq0 // distrC ltr_pdivr_mulr ?normr_gt0 ?mulf_neq0 //; apply: lt_trans k2 _.
rewrite normrM ltr_pmul2l // expr2 mulrAC ltr_pmul2r //.
Qed.
(** geometric sequences *)
Hypothesis ar : archimedean R.
Lemma bernoulli (h : R) n : 0 <= h -> 1 + h *+ n <= (1 + h) ^+ n.
Proof.
move=> h0; elim: n => [|n IH]; first by rewrite mulr0n addr0 expr0.
rewrite exprS; apply: le_trans (_ : (1 + h) * (1 + h *+ n) <= _); last by rewrite ler_wpmul2l // addr_ge0 ?ler01.
have t0 : 0 <= h *+ n by rewrite mulrn_wge0.
rewrite mulrS; move: (h *+ n) t0 => t t0; have -> : (1 + h) * (1 + t) = 1 + (h + t) + h * t by fnorm R; ring.
by rewrite ler_addl mulr_ge0.
Qed.
Lemma tends_geo (r : R) : 0 <= r < 1 -> tends (fun n => r ^+ n) 0.
Proof.
case/andP=> r0 r1; have [->|rn] := eqVneq r 0.
  by apply/tendsS; apply: tends_ext (tends_const 0) => n; rewrite expr0n.
have rp : 0 < r by rewrite lt_def rn.
pose h := r^-1 - 1; have h0 : 0 < h by rewrite subr_gt0 invf_gt1.
move=> e e0; have [N hN] := ar ((e * h)^-1); exists N => n hn.
rewrite subr0 normrX ger0_norm //.
have hp : 0 < r ^+ n by rewrite exprn_gt0.
rewrite -[r ^+ n]invrK -exprVn; have -> : r^-1 = 1 + h by rewrite /h addrC subrK.
have b := bernoulli n (ltW h0).
have p0 : 0 < 1 + h *+ n by rewrite ltr_spaddl ?ltr01 // mulrn_wge0 // ltW.
apply: (@le_lt_trans _ _ (1 + h *+ n)^-1); first by rewrite lef_pinv // posrE // (lt_le_trans p0).
rewrite -[e]invrK ltf_pinv ?posrE ?invr_gt0 //; apply: (@lt_le_trans _ _ (h *+ n)); last by rewrite ler_addr ler01.
rewrite -mulr_natr -ltr_pdivr_mull //; rewrite invfM mulrC in hN; apply: (lt_le_trans hN).
by rewrite ler_nat.
Qed.
(** a sequence that again and again moves the fraction [g] towards another one, and rests in between, has the same limit *)
Lemma tends_async (g : R) (moves : nat -> bool) (e u : nat -> R) l : 0 < g <= 1 -> (forall n, exists2 m, (n <= m)%N & moves m) ->
  (forall n, e n.+1 = if moves n then e n + g * (u n - e n) else e n) -> tends u l -> tends e l.
Proof.
case/andP=> g0 g1 often he hu eps ep0; have [n0 h0] := hu _ (half ep0).
pose d n := `|e n - l|; have r01 : 0 <= 1 - g < 1 by rewrite subr_ge0 g1 ltr_subl_addr ltr_addl.
have /andP[r0 r1] := r01; set h := eps / 2%:R in h0 *.
have move_le n B : (n0 <= n)%N -> moves n -> d n <= h + B -> d n.+1 <= h + (1 - g) * B.
  move=> hn hm hd; rewrite /d he hm; have -> : e n + g * (u n - e n) - l = (1 - g) * (e n - l) + g * (u n - l) by fnorm R; ring.
  apply: (le_trans (ler_norm_add _ _)); rewrite !normrM (ger0_norm r0) (gtr0_norm g0).
  have -> : h + (1 - g) * B = (1 - g) * (h + B) + g * h by fnorm R; ring.
  by apply: ler_add; [rewrite ler_wpmul2l|rewrite ler_wpmul2l ?ltW // h0].
have stay n B : (n0 <= n)%N -> 0 <= B -> d n <= h + B -> forall j, d (n + j)%N <= h + B.
  move=> hn hB hd; elim=> [|j IH]; first by rewrite addn0.
  rewrite addnS; case E: (moves (n + j)%N); last by rewrite /d he E.
  apply: le_trans (move_le _ _ (leq_trans hn (leq_addr _ _)) E IH) _.
  by rewrite ler_add2l ler_pimull // ltW.
have close (j : nat) : exists2 n : nat, (n0 <= n)%N & forall m : nat, (n <= m)%N -> d m <= h + (1 - g) ^+ j * d n0.
  elim: j => [|j [n hn IH]].
    exists n0 => // m hm; rewrite -(subnKC hm); apply: stay; rewrite ?expr0 ?mul1r ?normr_ge0 //.
    by rewrite ler_addr ltW // half.
  have [m hm em] := often n; have hm0 := leq_trans hn hm; exists m.+1; first exact: leqW.
  move=> q hq; rewrite -(subnKC hq); apply: stay; first exact: leqW.
    by rewrite mulr_ge0 ?exprn_ge0 ?normr_ge0.
  by rewrite exprS -mulrA; apply: move_le => //; exact: IH.
have [j hj] := nullZ (d n0) (tends_geo r01) (half ep0).
have [n _ hn] := close j; exists n => m /hn hm; apply: le_lt_trans hm _; rewrite [X in _ < X]splitr ltr_add2l.
have := hj j (leqnn j); rewrite subr0 mulrC; apply: le_lt_trans; exact: ler_norm.
Qed.
Lemma tends_sub f l (phi : nat -> nat) : (forall n, (n <= phi n)%N) -> tends f l -> tends (fun n => f (phi n)) l.
Proof. by move=> hp hf e e0; have [n0 hn] := hf e e0; exists n0 => n hle; apply: hn; exact: leq_trans (hp n). Qed.
End Limit.
