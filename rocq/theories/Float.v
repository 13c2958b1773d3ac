(** * IEEE 754 double precision: the arithmetic on natural parameters and on times as numpy computes it

    Element-wise numpy operations on float64 arrays of one shape round every entry to nearest even.  Matrices and
    vectors are functions of the indices; what is outside the shape does not matter.  Nan payloads are not
    distinguished. *)
Set Warnings "-notation-overridden,-ambiguous-paths".
From Coq Require Import ZArith Reals.
From Flocq Require Import Core IEEE754.BinarySingleNaN.

Definition f64 := binary_float 53 1024.
Lemma prec_ok : FLX.Prec_gt_0 53. Proof. reflexivity. Qed.
Lemma emax_ok : Prec_lt_emax 53 1024. Proof. reflexivity. Qed.
Definition fadd : f64 -> f64 -> f64 := @Bplus 53 1024 prec_ok emax_ok mode_NE.
Definition fsub : f64 -> f64 -> f64 := @Bminus 53 1024 prec_ok emax_ok mode_NE.
Definition fmul : f64 -> f64 -> f64 := @Bmult 53 1024 prec_ok emax_ok mode_NE.
Definition fdiv : f64 -> f64 -> f64 := @Bdiv 53 1024 prec_ok emax_ok mode_NE.
(** the float nearest to an integer *)
Definition fint (z : Z) : f64 := @binary_normalize 53 1024 prec_ok emax_ok mode_NE z 0 false.
Definition fzero : f64 := B754_zero false.
Definition fone : f64 := fint 1.

(** a Gaussian in natural mode (StateModel/Gaussian.py:120-123) *)
Record fgauss := FG { fp : nat -> nat -> f64; fs : nat -> f64 }.
(** Utils/linalg.py:45-46 *)
Definition fsymmetrize (a : nat -> nat -> f64) (i j : nat) : f64 := fdiv (fadd (a i j) (a j i)) (fint 2).
(** Gaussian.py:190-196 *)
Definition fg_mul (a b : fgauss) : fgauss :=
  FG (fsymmetrize (fun i j => fadd (fp a i j) (fp b i j))) (fun i => fadd (fs a i) (fs b i)).
(** Gaussian.py:198-210 *)
Definition fg_div (a b : fgauss) : fgauss :=
  FG (fun i j => fsub (fp a i j) (fp b i j)) (fun i => fsub (fs a i) (fs b i)).
(** Gaussian.py:212-220 *)
Definition fg_pow (a : fgauss) (power : f64) : fgauss :=
  FG (fun i j => fmul power (fp a i j)) (fun i => fmul power (fs a i)).
(** Gaussian.py:273-279 *)
Definition fg_factor : fgauss := FG (fun _ _ => fzero) (fun _ => fzero).

(** ExpectationPropagation/Nodes.py:75 and 76 *)
Definition fwd_factor (old state : fgauss) (damping : f64) : fgauss :=
  fg_mul (fg_pow old (fsub fone damping)) (fg_pow state damping).
Definition fwd_marginal (marginal old new : fgauss) (power : f64) : fgauss :=
  fg_mul marginal (fg_pow (fg_div new old) (fdiv fone power)).
(** Nodes.py:124-135, without the validation of the new marginal *)
Definition power_update (projected marginal factor : fgauss) (damping power : f64) : fgauss * fgauss :=
  let marginal_ratio := fg_div projected marginal in
  (fg_mul factor (fg_pow marginal_ratio damping), fg_mul marginal (fg_pow marginal_ratio (fdiv damping power))).

(** the times of Nodes.py:196-202, KalmanFilter.py and DynamicSystem.py: [t = 0.0], then [t += dt] *)
Fixpoint clock (dt : f64) (k : nat) : f64 := match k with O => fzero | S k' => fadd (clock dt k') dt end.
(** the times of the smoother, KalmanFilter.py:109 and 119: [t = (N-1) * dt], then [t -= dt] *)
Fixpoint back_clock (dt : f64) (N k : nat) : f64 :=
  match k with O => fmul (fint (Z.of_nat (N - 1))) dt | S k' => fsub (back_clock dt N k') dt end.
