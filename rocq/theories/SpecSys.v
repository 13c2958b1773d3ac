(** * Vocabulary for the properties of the example systems *)
Set Warnings "-notation-overridden,-ambiguous-paths".
From Coq Require Import Reals List.
From Verif Require Import Systems.
Import ListNotations.
Local Open Scope R_scope.

(** [th] is the principal angle of the vector (x, y) (no direction is required at the origin) *)
Definition is_bearing (th x y : R) : Prop :=
  - PI < th <= PI /\
  (x <> 0 \/ y <> 0 -> x = sqrt (x ^ 2 + y ^ 2) * cos th /\ y = sqrt (x ^ 2 + y ^ 2) * sin th).

(** positions in the plane *)
Definition point := (R * R)%type.
Definition bearing (p s : point) : R := arctan2 (snd p - snd s) (fst p - fst s).
(** [p] is not on the line through [s1], [s2] (in particular these are different) *)
Definition off_line (p s1 s2 : point) : Prop :=
  (fst p - fst s1) * (snd p - snd s2) - (snd p - snd s1) * (fst p - fst s2) <> 0.

(** matrices as lists of rows *)
Definition quad (m : list (list R)) (v : list R) : R := dot v (matvec m v).
Definition transpose (n : nat) (m : list (list R)) : list (list R) := map (fun j => map (fun r => nth j r 0) m) (seq 0 n).
Definition mmul (n : nat) (a b : list (list R)) : list (list R) := map (fun r => matvec (transpose n b) r) a.
Definition madd (a b : list (list R)) : list (list R) := map (fun p => map (fun q => fst q + snd q) (combine (fst p) (snd p))) (combine a b).
(** positive definite, for n x n matrices *)
Definition pos_def (n : nat) (m : list (list R)) : Prop :=
  m = transpose n m /\ forall v, length v = n -> v <> repeat 0 n -> 0 < quad m v.

(** constant velocity: position moves with the velocity, which is kept (columns x, y, vx, vy) *)
Definition straight (dt : R) (r : list R) : list R :=
  [nth 0 r 0 + dt * nth 2 r 0; nth 1 r 0 + dt * nth 3 r 0; nth 2 r 0; nth 3 r 0].
(** coordinated turn: the velocity (columns 1, 3) is rotated by w dt, the centre of the circle is kept *)
Definition speed2 (r : list R) : R := nth 1 r 0 ^ 2 + nth 3 r 0 ^ 2.
Definition centre (r : list R) : point := (nth 0 r 0 - nth 3 r 0 / nth 4 r 0, nth 2 r 0 + nth 1 r 0 / nth 4 r 0).
Definition rotated (a : R) (r r' : list R) : Prop :=
  nth 1 r' 0 = cos a * nth 1 r 0 - sin a * nth 3 r 0 /\ nth 3 r' 0 = sin a * nth 1 r 0 + cos a * nth 3 r 0.

(** entries of an array, row by row; linear combinations of vectors *)
Definition entries (x : arr) : list R := match x with A1 v => v | A2 rows => concat rows end.
Definition lin (a : R) (x : list R) (b : R) (y : list R) : list R := map (fun p => a * fst p + b * snd p) (combine x y).
