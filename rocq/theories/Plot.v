(** * Utils/Plot_Helper.py: what is drawn (exact arithmetic)

    The functions hand abscissae and ordinates to matplotlib; the model returns them.  Colours, labels and the
    other decorations are left out.  [None] as an ordinate is nan (a gap in the figure). *)
Set Warnings "-notation-overridden,-ambiguous-paths".
From mathcomp Require Import all_ssreflect all_algebra.
From Verif Require Import Base ND LinAlg Gauss.
Set Implicit Arguments.
Unset Strict Implicit.
Unset Printing Implicit Defensive.
Import GRing.Theory Num.Theory Order.Theory.
Local Open Scope ring_scope.

Section Plot.
Variable R : rcfType.
Variable illcond : forall n, 'M[R]_n -> bool.

(** arguments of [ax.fill_between] and of [ax.plot]; a line has one row per abscissa *)
Record band := Band { b_at : seq nat; b_lower : seq (option R); b_upper : seq (option R) }.
Record line := Line { l_at : seq nat; l_rows : seq (seq R) }.
Record figure := Figure { f_line : option line; f_band : option band; f_truth : option line }.

(** [np.sqrt] of a number *)
Definition np_sqrt (x : R) : option R := if 0 <= x then Some (Num.sqrt x) else None.
(** the constant 1.96 *)
Definition c196 : R := 196%:R / 100%:R.
(** the entries of an array in row-major order *)
Definition entries (a : nd R) : seq R :=
  match a with
  | Nd0 x => [:: x]
  | @Nd1 _ n v => [seq v i 0 | i <- enum 'I_n]
  | @Nd2 _ m n A => flatten [seq [seq A i j | j <- enum 'I_n] | i <- enum 'I_m]
  end.
(** [np.array(l)] wants one shape; what it makes of several depends on the version of numpy *)
Definition uniform (l : seq (nd R)) : res unit :=
  if l is a :: l' then (if all (fun b => shape b == shape a) l' then Ok tt else Err Unsupported) else Ok tt.
(** lines 22, 40: [np.sqrt(x.cov[0, :])] *)
Definition sqrt_row0 (c : nd R) : res (seq (option R)) :=
  match c with
  | @Nd2 _ m n A => if insub 0%N is Some i then Ok [seq np_sqrt (A i j) | j <- enum 'I_n] else Err IndexErr
  | _ => Err IndexErr
  end.
(** lines 24-25, 42-43 and [lwr[:, 0]], [upr[:, 0]]: the first column of [x_mean -+ 1.96 * x_sigma], for arrays with
    [k] and [c] columns *)
Definition edge (s : R) (p : R * option R) : option R := omap (fun sg => p.1 + s * (c196 * sg)) p.2.
Definition edges (s : R) (x_mean : seq (seq R)) (x_sigma : seq (seq (option R))) : res (seq (option R)) :=
  let k := size (head [::] x_mean) in
  let c := size (head [::] x_sigma) in
  if all (fun r => size r == c) x_sigma then
    match bdim k c with
    | None => Err ValueErr
    | Some 0 => Err IndexErr
    | Some _ => Ok [seq edge s (head 0 p.1, head None p.2) | p <- zip x_mean x_sigma]
    end
  else Err Unsupported.

(** lines 20-27; means of rank 2 would make an array of rank 3.  The edges of an empty list have no axis 1. *)
Definition plot_gaussian (data : seq (gauss R)) : res figure :=
  do ms <- mapM (g_mean illcond) data;
  do _ <- uniform ms;
  do cs <- mapM (g_cov illcond) data;
  do x_sigma <- mapM sqrt_row0 cs;
  if ms is [::] then Err IndexErr else
  if all (fun m => size (shape m) == 1%N) ms then
    let x_mean := [seq entries m | m <- ms] in
    do upr <- edges 1 x_mean x_sigma;
    do lwr <- edges (-1) x_mean x_sigma;
    Ok (Figure None (Some (Band (iota 0 (size data)) lwr upr)) None)
  else Err Unsupported.

(** lines 30-52; [data] are the marginals of the nodes.  [np.reshape] of an empty array to (0, -1) raises.  The
    ground truth is a one-dimensional array; matplotlib wants as many ordinates as abscissae. *)
Definition plot_gaussian_node (data : seq (gauss R)) (ground_truth : option (seq R)) : res figure :=
  do ms <- mapM (g_mean illcond) data;
  do _ <- uniform ms;
  if ms is [::] then Err ValueErr else
  let x_mean := [seq entries m | m <- ms] in
  do cs <- mapM (g_cov illcond) data;
  do x_sigma <- mapM sqrt_row0 cs;
  do upr <- edges 1 x_mean x_sigma;
  do lwr <- edges (-1) x_mean x_sigma;
  let time := iota 1 (size data) in
  do truth <- (if ground_truth is Some g then
                 (if size g == size data then Ok (Some (Line time [seq [:: x] | x <- g])) else Err ValueErr)
               else Ok None);
  Ok (Figure (Some (Line time x_mean)) (Some (Band time lwr upr)) truth).

(** [a.mean(axis=0)] of an array with [N] rows *)
Definition mean0 N T (X : 'M[R]_(N, T)) : 'rV[R]_T := \row_j ((\sum_i X i j) / N%:R).
(** lines 55-60 *)
Definition get_mean_and_std N T (data : 'M[R]_(N, T)) : 'rV[R]_T * 'rV[R]_T :=
  let mean := mean0 data in
  let anomaly := \matrix_(i, j) (data i j - mean 0 j) in
  let variance := mean0 (\matrix_(i, j) anomaly i j ^+ 2) in
  let std := \row_j Num.sqrt (variance 0 j) in
  (mean, std).
(** lines 63-84, [data] of shape (N, T); the mean of no rows is nan and left out *)
Definition plot_1d_data (data : nd R) : res figure :=
  match data with
  | @Nd2 _ N T X =>
      if N == 0%N then Err Unsupported else
      let: (mean, std) := get_mean_and_std X in
      let at_ := iota 1 T in
      let row (v : 'rV[R]_T) := [seq v 0 j | j <- enum 'I_T] in
      Ok (Figure (Some (Line at_ [seq [:: x] | x <- row mean]))
                 (if (1 < N)%N then Some (Band at_ [seq Some x | x <- row (mean - std)] [seq Some x | x <- row (mean + std)]) else None)
                 None)
  | _ => Err Unsupported
  end.
End Plot.
Arguments Figure {R}. Arguments Band {R}. Arguments Line {R}.
