(** * A one-step nonlinear model on which reusing an iterated smoother changes its answer *)
Set Warnings "-notation-overridden,-ambiguous-paths".
From mathcomp Require Import all_ssreflect all_algebra.
From Coq Require Import Ring Field.
From Verif Require Import Base FieldTac ND NDFacts PosDef LinAlg LinAlgFacts Gauss GaussFacts GaussLink Transforms TransformFacts CondGauss
  Estimator EstimatorFacts SpecGauss SpecNonlin KalmanMath KalmanLoop KalmanLoopFacts Kalman KalmanFacts
  Iterated IteratedMath IteratedFacts IeksFacts.
Set Implicit Arguments.
Unset Strict Implicit.
Unset Printing Implicit Defensive.
Import GRing.Theory Num.Theory Order.Theory.
Local Open Scope ring_scope.

(** C38: the witness x' = x^2 + noise, y = x + noise, one measurement *)
Section Witness.
Variables (R : rcfType) (illcond : forall n, 'M[R]_n -> bool).
Add Field fieldR : (ffth R).
(** numerals over 12 *)
Let c : R := 12%:R^-1.
Let hc : 12%:R * c = 1. Proof. by rewrite divff // pnatr_eq0. Qed.
Lemma inv12 a b : (a * b)%N = 12%N -> a%:R^-1 = b%:R * c.
Proof.
move=> ab; have na : a%:R != 0 :> R by rewrite pnatr_eq0; apply/eqP => z; move: ab; rewrite z.
by apply: (mulfI na); rewrite divff // mulrA -natrM ab hc.
Qed.
Lemma num1 : - 4%:R^-1 + (1 + 1) / (1 + 2%:R) * (1 - - 4%:R^-1) = 7%:R / 12%:R :> R.
Proof.
rewrite -[1 + 2%:R]/(1%:R + 2%:R) -natrD (@inv12 4 3) // (@inv12 (1 + 2) 4) // -/c.
have -> : - (3%:R * c) + (1 + 1) * (4%:R * c) * (1 - - (3%:R * c)) = 5%:R * c + 2%:R * c * (12%:R * c).
  by move: (c) => x; fnorm R; ring.
by rewrite hc; move: (c) => x; fnorm R; ring.
Qed.
Lemma num2 : 2%:R^-1 ^+ 2 - 2%:R^-1 = - 4%:R^-1 :> R.
Proof.
rewrite (@inv12 2 6) // (@inv12 4 3) //.
have -> : (6%:R * c) ^+ 2 - 6%:R * c = 3%:R * c * (12%:R * c) - 6%:R * c by move: (c) => x; fnorm R; ring.
by rewrite hc; move: (c) => x; fnorm R; ring.
Qed.
Lemma num3 : 7%:R / 12%:R - 2%:R^-1 = 12%:R^-1 :> R.
Proof. by rewrite (@inv12 2 6) // -/c; move: (c) => x; fnorm R; ring. Qed.
Definition sq_fun : dfun R := DFun
  (fun a => if a is Nd1 n v then Ok (Nd1 (\col_i ((v i 0) ^+ 2))) else Err Unsupported)
  (fun a => if a is Nd1 n v then Ok (JLow (Nd2 (\matrix_(i, j) ((2%:R * v i 0) *+ (i == j))))) else Err Unsupported).
Definition id_fun : dfun R := DFun (fun a => Ok a)
  (fun a => if a is Nd1 n v then Ok (JLow (Nd2 (1%:M : 'M[R]_n))) else Err Unsupported).
Definition sq_model : nlssm R 1 1 := Nlssm 0 1%:M 1%:M 1%:M
  (fun _ x => \col_i ((x i 0) ^+ 2)) (fun _ x => \matrix_(i, j) ((2%:R * x i 0) *+ (i == j))) (fun _ x => x) (fun _ _ => 1%:M).
Definition sq_f : sysfun R unit := fun _ _ => sq_fun.
Definition id_h : sysfun R unit := fun _ _ => id_fun.
Definition sq_start : gauss R := gaussian (Nd1 (0 : 'cV[R]_1)) (Nd2 (1%:M : 'M[R]_1)).
Lemma sq_realises dt : realises dt tt sq_model sq_f id_h.
Proof. by move=> j x; split; left. Qed.
Definition sq_ys : seq (nd R) := [:: Nd1 (const_mx 1 : 'cV[R]_1)].
Definition sq_run (num : nat) (o : ieks_obj R unit) := ieks_call illcond sq_f id_h (Nd2 (1%:M : 'M[R]_1)) (Nd2 (1%:M : 'M[R]_1)) sq_start 1 tt num sq_ys o.
Notation scall := sq_run.
Definition mean_is (r : ieks_obj R unit * res (seq (gauss R))) (v : R) := exists g, r.2 = Ok [:: g] /\ g_mean illcond g = Ok (Nd1 (const_mx v : 'cV[R]_1)).


Lemma one_step (S : lgssm R 1 1) (y : nat -> 'cV[R]_1) a b : s_m0 S = 0 -> s_P0 S = 1%:M -> s_Q S = 1%:M -> s_R S = 1%:M ->
  s_A S 0 = const_mx a -> s_b S 0 = const_mx b -> s_H S 0 = 1%:M -> s_c S 0 = 0 -> y 0%N = const_mx 1 ->
  (ks S y 1 1).1 = const_mx (b + (a ^+ 2 + 1) / (a ^+ 2 + 2%:R) * (1 - b)).
Proof.
move=> e1 e2 e3 e4 e5 e6 e7 e8 e9; rewrite ks_last /= /kstep /= e1 e2 e3 e4 e5 e6 e7 e8 e9 mulmx0 add0r mul1mx addr0.
have eC : cnd_C 1%:M 1%:M (const_mx a : 'M[R]_1) = (a ^+ 2 + 1)%:M.
  by apply/matrixP=> i j; rewrite /cnd_C mulmx1 !ord1 !mxE big_ord1 !mxE eqxx !mulr1n expr2.
have eD : cnd_C (cnd_C 1%:M 1%:M (const_mx a : 'M[R]_1)) 1%:M 1%:M = (a ^+ 2 + 2%:R)%:M.
  by rewrite {1}/cnd_C mul1mx eC trmx1 mulmx1 -raddfD -addrA -mulr2n.
rewrite /cnd_J eD invmx_scalar trmx1 mulmx1 eC -scalar_mxM.
by apply/matrixP=> i j; rewrite !ord1 !mxE big_ord1 !mxE eqxx mulr1n.
Qed.
Lemma sq_call (o : ieks_obj R unit) M' num y : M' = sq_model \/ (exists a c, M' = frozen sq_model a c) ->
  realises 1 tt M' (i_trans o) (i_meas o) -> y 0%N = const_mx 1 ->
  exists o', scall num o = (o', Ok [:: gv (ks (pass y sq_model sq_ys M' num.-1) y 1 1)]) /\
  if num.-1 is j.+1 then i_trans o' = linearise sq_f (Nd1 (sm y sq_ys (pass y sq_model sq_ys M' j) 0)) /\
                         i_meas o' = linearise id_h (Nd1 (sm y sq_ys (pass y sq_model sq_ys M' j) 0))
  else i_trans o' = i_trans o /\ i_meas o' = i_meas o.
Proof.
move=> st re y0; have hy : reads y sq_ys by case=> // _; rewrite y0; exact: squeeze_1.
have ok : noise_okn sq_model by split; exact: posdef1.
exact: (callE (sq_realises 1) ok (momp_gaussian illcond 0 1%:M) hy isT num re (stale_noise st)).
Qed.
Definition y1 (j : nat) : 'cV[R]_1 := const_mx 1.
Lemma sq_pass0 : (ks (pass y1 sq_model sq_ys sq_model 0) y1 1 1).1 = const_mx 2%:R^-1.
Proof.
rewrite (one_step (a := 0) (b := 0)) //=.
- by congr const_mx; rewrite expr0n /= !add0r subr0 mulr1 mul1r.
- by apply/matrixP=> i j; rewrite !ord1 !mxE eqxx mulr1n mulr0.
- by apply/matrixP=> i j; rewrite mulmx0 !mxE expr0n subr0.
- by rewrite mul1mx subrr.
Qed.
(** the square linearised at 1/2 *)
Lemma sq_half (S : lgssm R 1 1) (v : 'cV[R]_1) : v = const_mx 2%:R^-1 -> s_m0 S = 0 -> s_P0 S = 1%:M -> s_Q S = 1%:M -> s_R S = 1%:M ->
  s_A S 0 = n_F sq_model 0 v -> s_b S 0 = n_f sq_model 0 v - n_F sq_model 0 v *m v -> s_H S 0 = 1%:M -> s_c S 0 = 0 ->
  (ks S y1 1 1).1 = const_mx (7%:R / 12%:R).
Proof.
move=> -> e1 e2 e3 e4 e5 e6 e7 e8.
have n2 : 2%:R != 0 :> R by rewrite pnatr_eq0.
rewrite (one_step (a := 1) (b := - 4%:R^-1)) //.
- congr const_mx; rewrite expr1n.
  exact: num1.
- by rewrite e5; apply/matrixP=> i j; rewrite !ord1 !mxE eqxx mulr1n divff.
- rewrite e6; apply/matrixP=> i j; rewrite !ord1 !mxE big_ord1 !mxE eqxx mulr1n divff // mul1r.
  exact: num2.
Qed.
(** the same call, num_iter = 1, before and after a call with num_iter = 2 *)
Lemma reuse_differs : let o := ieks_new sq_f id_h in
  [/\ mean_is (scall 1%N o) 2%:R^-1, mean_is (scall 2 o) (7%:R / 12%:R),
      mean_is (scall 1%N (scall 2 o).1) (7%:R / 12%:R) & 2%:R^-1 != 7%:R / 12%:R :> R].
Proof.
move=> o; have h0 := sq_realises 1.
have [o1 [c1 _]] := @sq_call o sq_model 1 y1 (or_introl erefl) h0 erefl.
have [o2 [c2 [t2 m2]]] := @sq_call o sq_model 2 y1 (or_introl erefl) h0 erefl.
have st : exists a c, frozen sq_model (sm y1 sq_ys (pass y1 sq_model sq_ys sq_model 0) 0) (sm y1 sq_ys (pass y1 sq_model sq_ys sq_model 0) 0) = frozen sq_model a c by do 2!eexists.
have [|o3 [c3 _]] := @sq_call o2 _ 1 y1 (or_intror st) _ erefl.
  by rewrite t2 m2; exact: realises_frozen.
split.
- by eexists; rewrite c1; split; first reflexivity; rewrite -sq_pass0.
- eexists; rewrite c2; split; first reflexivity.
  rewrite -(@sq_half (pass y1 sq_model sq_ys sq_model 1) _ sq_pass0) //=; by rewrite mul1mx subrr.
- eexists; rewrite c2 /= c3; split; first reflexivity.
  rewrite -(@sq_half (pass y1 sq_model sq_ys (frozen sq_model (sm y1 sq_ys (pass y1 sq_model sq_ys sq_model 0) 0) (sm y1 sq_ys (pass y1 sq_model sq_ys sq_model 0) 0)) 0) _ sq_pass0) //=.
    by rewrite mulmx0 add0r subr0.
  by rewrite !mul1mx subrr addr0 subrr.
- rewrite eq_sym -subr_eq0; have n2 : 2%:R != 0 :> R by rewrite pnatr_eq0.
  have n12 : 12%:R != 0 :> R by rewrite pnatr_eq0.
  have -> : 7%:R / 12%:R - 2%:R^-1 = 12%:R^-1 :> R := num3.
  by rewrite invr_eq0.
Qed.
End Witness.
