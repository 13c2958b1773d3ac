(** * Systems/L96.py in double precision

    An array with [n] columns is a function of row and column; what is outside the shape does not matter.  Every
    operation is element-wise, so numpy rounds every entry to nearest even.  A vector is the array with one row
    ([atleast_2d]).  The integers 2, 6 and [F] are converted to doubles. *)
Set Warnings "-notation-overridden,-ambiguous-paths".
From Coq Require Import ZArith Reals.
From Flocq Require Import Core IEEE754.BinarySingleNaN.
From Verif Require Import Float.

Definition arr := nat -> nat -> f64.
(** [-x] *)
Definition fopp : f64 -> f64 := @Bopp 53 1024.
(** [np.roll(X, s, 1)] *)
Definition froll (n : nat) (X : arr) (s : Z) : arr := fun i j => X i (Z.to_nat ((Z.of_nat j - s) mod Z.of_nat n)).
(** lines 8-11 *)
Definition lmodel (n : nat) (F : f64) (X : arr) : arr := fun i j =>
  fadd (fsub (fmul (fopp (froll n X (-1) i j)) (fsub (froll n X (-2) i j) (froll n X 1 i j))) (X i j)) F.
(** lines 14-23 *)
Definition lstep (n : nat) (delta_t F : f64) (x : arr) : arr :=
  let k1 := lmodel n F x in
  let k2 := lmodel n F (fun i j => fadd (x i j) (fdiv (fmul delta_t (k1 i j)) (fint 2))) in
  let k3 := lmodel n F (fun i j => fadd (x i j) (fdiv (fmul delta_t (k2 i j)) (fint 2))) in
  let k4 := lmodel n F (fun i j => fadd (x i j) (fmul delta_t (k3 i j))) in
  fun i j => fadd (x i j)
    (fmul (fmul (fdiv (fint 1) (fint 6)) delta_t)
          (fadd (fadd (fadd (k1 i j) (fmul (fint 2) (k2 i j))) (fmul (fint 2) (k3 i j))) (k4 i j))).
(** the loop of lines 36-37: [k] steps without noise *)
Fixpoint lorbit (n : nat) (delta_t F : f64) (k : nat) (x : arr) : arr :=
  match k with O => x | S k' => lstep n delta_t F (lorbit n delta_t F k' x) end.
(** lines 26-28: numpy computes [x**2] as [x * x] *)
Definition lmeasure (x : arr) : arr := fun i j => fmul (x i j) (x i j).
