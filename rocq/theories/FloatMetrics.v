(** * Utils/Metrics.py: the root mean square error in double precision

    [np.linalg.norm] calls the BLAS dot product of the difference with itself and [np.mean] sums pairwise; in which
    order either adds its terms, how many accumulators it starts from zero and whether a product is fused with the
    following addition depends on the library, the processor and the length.  A plan says what is done; the properties
    hold for every plan that uses every entry once.  The mean of the state and the true value are given as the lists
    of their entries after broadcasting to one shape. *)
Set Warnings "-notation-overridden,-ambiguous-paths".
From Coq Require Import ZArith Reals List.
From Flocq Require Import Core IEEE754.BinarySingleNaN.
From Verif Require Import Float.
Import ListNotations.

Definition fsqrt : f64 -> f64 := @Bsqrt 53 1024 prec_ok emax_ok mode_NE.
(** [x * y + z] with one rounding *)
Definition ffma : f64 -> f64 -> f64 -> f64 := @Bfma 53 1024 prec_ok emax_ok mode_NE.

(** an order of evaluation of the sum of squares of entries: an empty accumulator, a product, the sum of two partial
    results, or a product fused with the addition to a partial result *)
Inductive dot_plan := DZero | DTerm (i : nat) | DAdd (l r : dot_plan) | DFma (i : nat) (acc : dot_plan).
Fixpoint dot (p : dot_plan) (d : nat -> f64) : f64 :=
  match p with
  | DZero => fzero
  | DTerm i => fmul (d i) (d i)
  | DAdd l r => fadd (dot l d) (dot r d)
  | DFma i acc => ffma (d i) (d i) (dot acc d)
  end.
(** an order of evaluation of a sum *)
Inductive sum_plan := SZero | SItem (i : nat) | SAdd (l r : sum_plan).
Fixpoint fsum (p : sum_plan) (a : nat -> f64) : f64 :=
  match p with
  | SZero => fzero
  | SItem i => a i
  | SAdd l r => fadd (fsum l a) (fsum r a)
  end.

Definition vec := list f64.
Definition get (v : vec) (i : nat) : f64 := nth i v fzero.
(** StateModel/Gaussian.py:246: [np.square(np.linalg.norm(self.mean - x))]; the norm is the square root of the dot
    product of the difference with itself *)
Definition fsquared_error (p : dot_plan) (mean x : vec) : f64 :=
  let norm := fsqrt (dot p (fun i => fsub (get mean i) (get x i))) in fmul norm norm.
(** Utils/Metrics.py:13-16; the plan may differ from step to step *)
Fixpoint fsq_errors (dp : nat -> dot_plan) (k : nat) (means truths : list vec) : vec :=
  match means, truths with
  | m :: ms, x :: xs => fsquared_error (dp k) m x :: fsq_errors dp (S k) ms xs
  | _, _ => []
  end.
(** [np.mean]: the sum divided by the number of entries, which gives nan for no entries *)
Definition fmean (p : sum_plan) (r : vec) : f64 := fdiv (fsum p (get r)) (fint (Z.of_nat (length r))).
(** Utils/Metrics.py:12-18 *)
Definition frmse (dp : nat -> dot_plan) (sp : sum_plan) (means truths : list vec) : f64 :=
  fsqrt (fmean sp (fsq_errors dp 0 means truths)).
