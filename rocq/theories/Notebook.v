(** * Notebooks/PlotHeatmap.ipynb, PlotPerformanceAllSeeds.ipynb, PlotPerformanceSingleSeed.ipynb, ManyIterations.ipynb

    The notebooks read the tables of the experiments and draw them.  Line numbers are those of the .ipynb files.
    sqlite returns the selected rows in an order of its own, which may depend on the query: [scan cs] lists the rows
    of a table in some order.  As in [Display], the values formatted into a query denote the values stored.  Column
    names do not distinguish case.  Colours, titles, ticks and interpolation between pixels are left out. *)
Set Warnings "-notation-overridden,-ambiguous-paths".
From mathcomp Require Import all_ssreflect all_algebra.
From Coq Require Import String.
From Verif Require Import Base ND Database Display Plot.
Set Implicit Arguments.
Unset Strict Implicit.
Unset Printing Implicit Defensive.
Import GRing.Theory Num.Theory.
Local Open Scope string_scope.
Local Open Scope ring_scope.

Section Notebook.
Variable R : rcfType.
Variable scan : cond -> table -> seq row.

(** [SELECT c1, c2, ... FROM name WHERE ...] with [.fetchall()]: one tuple per row *)
Definition select_cols (d : db) (name : string) (cols : seq string) (cs : cond) : res (seq (seq val)) :=
  if lookup d name is Some t then
    if all (mem (tcols t)) (cols ++ map fst cs)
    then Ok [seq [seq cell t r c | c <- cols] | r <- scan cs t & holds t r cs] else Err DbErr
  else Err DbErr.
(** a column of the tuples fetched *)
Definition column (k : nat) (data : seq (seq val)) : seq val := [seq nth VNull r k | r <- data].

(** an array of what sqlite returned, used as numbers; None among them raises TypeError *)
Definition num_of (v : val) : R := if v is VNum q then ratr q else 0.
Definition floats m n (A : 'M[val]_(m, n)) : res 'M[R]_(m, n) :=
  do _ <- numbers R [seq A ij.1 ij.2 | ij <- enum [finType of 'I_m * 'I_n]];
  Ok (\matrix_(i, j) num_of (A i j)).

(** ** PlotHeatmap.ipynb *)

(** [np.array(l).reshape(19, 19)]: row by row *)
Definition reshape (l : seq val) : res 'M[val]_(19, 19) :=
  if size l == 361%N then Ok (\matrix_(i, j) nth VNull l (i * 19 + j)) else Err ValueErr.
(** lines 116-134; [zip( *data)] of no rows cannot be unpacked *)
Record images := Images { i_rmse : 'M[val]_(19, 19); i_nll : 'M[val]_(19, 19); i_power : 'M[val]_(19, 19); i_damp : 'M[val]_(19, 19) }.
Definition image_cond (transform : string) (seed : val) (iters : nat) : cond :=
  [:: ("Transform", VText transform); ("Seed", seed); ("Iter", VNum iters%:R)].
Definition make_image_data (d : db) (table transform : string) (seed : val) (iters : nat) : res images :=
  do data <- select_cols d table [:: "RMSE"; "NLL"; "Power"; "Damping"] (image_cond transform seed iters);
  if data is [::] then Err ValueErr else
  do p <- reshape (column 2 data);
  do dm <- reshape (column 3 data);
  do p_nll <- reshape (column 1 data);
  do p_rmse <- reshape (column 0 data);
  Ok (Images p_rmse p_nll p dm).

(** lines 137-151: [np.mean(..., axis=0)] of the list of images; without seeds [p] is unbound (UnboundLocalError) *)
Definition mean_image (l : seq 'M[val]_(19, 19)) : res 'M[R]_(19, 19) :=
  do ms <- mapM (@floats 19 19) l;
  Ok (\matrix_(i, j) ((\sum_(m <- ms) m i j) / (size ms)%:R)).
Definition distinct (d : db) (table col : string) : res (seq val) :=
  do l <- select_cols d table [:: col] [::];
  Ok (undup (column 0 l)).
Definition all_seeds_image (d : db) (table transform : string) (iters : nat) (seeds : option (seq val)) :
    res ('M[R]_(19, 19) * 'M[R]_(19, 19) * 'M[val]_(19, 19) * 'M[val]_(19, 19)) :=
  do found <- distinct d table "Seed";
  let seeds := if seeds is Some l then l else found in
  do l <- mapM (fun s => make_image_data d table transform s iters) seeds;
  if l is x :: _ then
    do prmse <- mean_image [seq i_rmse x | x <- l];
    do pnll <- mean_image [seq i_nll x | x <- l];
    Ok (prmse, pnll, i_power (last x l), i_damp (last x l))
  else Err Unsupported.

(** lines 90-92, [ax.imshow(img, extent=[0.1, 1, 0.1, 1], origin='lower')]: the rows of [img] are drawn from the bottom to
    the top, its columns from the left to the right, as pixels of equal size that fill the extent *)
Record heatmap := Heatmap { h_pixels : 'M[R]_(19, 19); h_from : R; h_to : R }.
Definition pixel (h : heatmap) (k : nat) : R * R :=
  let w := (h_to h - h_from h) / 19%:R in (h_from h + k%:R * w, h_from h + k.+1%:R * w).
(** lines 154-163 *)
Definition plot_sweep (d : db) (table transform : string) (iters : nat) (metric : string) (seeds : option (seq val)) : res heatmap :=
  do '(p_rmse, p_nll, _, _) <- all_seeds_image d table transform iters seeds;
  Ok (Heatmap (if metric == "rmse" then p_rmse^T else p_nll^T) (10%:R^-1) 1).
(** lines 166-170: three panels *)
Definition plot_all_transforms (d : db) (table : string) (iters : nat) (metric : string) : res (seq heatmap) :=
  mapM (fun t => plot_sweep d table t iters metric None) [:: "TT"; "UT"; "MCT"].

(** ** PlotPerformanceAllSeeds.ipynb *)

(** lines 70-93: [control_vars] is a dictionary from names to lists; the query is
    SELECT {} FROM {} WHERE Transform='{}' AND Seed={} AND name={} ... *)
Definition all_vars := [:: "Power"; "Damping"; "Iter"].
Definition split_variables (control : seq (string * seq val)) : res (seq string * seq string * seq (seq val)) :=
  if all (mem all_vars) (map fst control)
  then Ok (map fst control, [seq v <- all_vars | v \notin map fst control], map snd control) else Err AssertErr.
(** lines 104, 127-137; [np.array(row).squeeze()[:50]]: a single row becomes an array without axes, which cannot be sliced *)
Definition metric_col (metric : string) : option string :=
  if metric == "rmse" then Some "RMSE" else if metric == "nll" then Some "NLL" else None.
Definition first50 (l : seq val) : res (seq val) := if size l == 1%N then Err IndexErr else Ok (take 50 l).
(** [plot_1d_data(np.array(data))] of a list of one-dimensional arrays; an empty list has no axis 1; what numpy makes of
    different lengths depends on its version *)
Definition draw (l : seq (seq val)) : res (figure R) :=
  if l is [::] then Err IndexErr else
  if constant (map size l) then
    do X <- floats (\matrix_(i < size l, j < size (head [::] l)) nth VNull (nth [::] l i) j);
    plot_1d_data (Nd2 X)
  else Err Unsupported.
Definition curve_cond (trans : string) (seed : val) (k1 : string) (v1 : val) (k2 : string) (v2 : val) : cond :=
  [:: ("Transform", VText trans); ("Seed", seed); (k1, v1); (k2, v2)].
Definition seed_curve d table col trans k1 v1 k2 v2 (seed : int) : res (seq val) :=
  do rows <- select_cols d table [:: col] (curve_cond trans (VNum seed%:~R) k1 v1 k2 v2);
  first50 (column 0 rows).
(** lines 96-180; [Seeds is None]: nothing has been executed on the cursor, so it fetches nothing *)
Definition plot_experiment (d : db) (table : string) (control : seq (string * seq val)) (metric : string)
    (seeds : option (seq int)) (trans_types : seq string) : res (seq (figure R)) :=
  if metric_col metric is Some col then
    do '(names, _, vals) <- split_variables control;
    match names, vals with
    | [:: k1; k2], [:: l1; l2] =>
        if (l1, l2) is (v1 :: _, v2 :: _) then
          let seeds := if seeds is Some l then l else [::] in
          mapM (fun trans => do data <- mapM (seed_curve d table col trans k1 v1 k2 v2) seeds; draw data) trans_types
        else Err IndexErr
    | _, _ => Err AssertErr
    end
  else Err AssertErr.
(** lines 221-232; None stands for nan, the mean of nothing *)
Definition first_cell (d : db) (table col trans : string) (seed : int) : res val :=
  do rows <- select_cols d table [:: col]
    [:: ("Transform", VText trans); ("Seed", VNum seed%:~R); ("Damping", VNum 1); ("Power", VNum 1); ("Iter", VNum 1)];
  if rows is r :: _ then Ok (nth VNull r 0) else Err IndexErr.
Definition average (l : seq val) : res (option R) :=
  do xs <- numbers R l;
  Ok (if xs is [::] then None else Some (np_mean xs)).
Definition first_iteration_mean (d : db) (table : string) (seeds : seq int) (trans : string) : res (option R * option R) :=
  do l <- mapM (fun s => do r <- first_cell d table "RMSE" trans s; do n <- first_cell d table "NLL" trans s; Ok (r, n)) seeds;
  do average_rmse <- average (map fst l);
  do average_nll <- average (map snd l);
  Ok (average_rmse, average_nll).
(** lines 351-357, for each key: [value[i % N]] for i = 1, ..., N *)
Definition permute_list (A : Type) (x0 : A) (value : seq A) : seq A := [seq nth x0 value (i %% size value) | i <- iota 1 (size value)].
Definition permute (control : seq (string * seq val)) : seq (string * seq val) := [seq (p.1, permute_list VNull p.2) | p <- control].

(** ** PlotPerformanceSingleSeed.ipynb:44-47, 65-70, 118-120: one curve, [np.array(data).T] has one row; no data have no axis 1 *)
Definition setting_cond (trans : string) (seed : int) (power damping : rat) : cond :=
  [:: ("Transform", VText trans); ("Seed", VNum seed%:~R); ("Power", VNum power); ("Damping", VNum damping)].
Definition single_curve (d : db) (table col trans : string) (seed : int) (power damping : rat) : res (figure R) :=
  do rows <- select_cols d table [:: col] (setting_cond trans seed power damping);
  if rows is [::] then Err IndexErr else draw [:: column 0 rows].

(** ** ManyIterations.ipynb:53-64: as above for several seeds, without the limit of 50; single rows make an array of rank 1 *)
Definition many_iterations (d : db) (table col trans : string) (seeds : seq int) (power damping : rat) : res (figure R) :=
  do l <- mapM (fun s => select_cols d table [:: col] (setting_cond trans s power damping)) seeds;
  let l := map (column 0) l in
  if all (fun r => size r == 1%N) l then Err IndexErr else draw l.
End Notebook.
