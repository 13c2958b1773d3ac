(** * Systems/L96.py (exact arithmetic)

    [delta_t], [F] and the state entries are exact numbers; arrays have rank at most 2. *)
Set Warnings "-notation-overridden,-ambiguous-paths".
From mathcomp Require Import all_ssreflect all_algebra.
From Verif Require Import Base ND.
Set Implicit Arguments.
Unset Strict Implicit.
Unset Printing Implicit Defensive.
Import GRing.Theory.
Local Open Scope ring_scope.

Section L96.
Variable R : rcfType.
Notation nd := (nd R).

(** [a * b] *)
Definition nmul : nd -> nd -> res nd := bop *%R.

(** column [j + k], cyclically *)
Definition rshift n (k : nat) (j : 'I_n) : 'I_n :=
  Ordinal (ltn_pmod (j + k) (leq_ltn_trans (leq0n j) (ltn_ord j))).
(** [np.roll(X, s, 1)]: entry j moves to column j + s *)
Definition nroll (X : nd) (s : int) : res nd :=
  if X is Nd2 m n X then Ok (Nd2 (\matrix_(i < m, j < n) X i (rshift `|((- s) %% n)%Z|%N j))) else Err ValueErr.

(** lines 8-11 *)
Definition l96_model (X : nd) (F : R) : res nd :=
  let X := natleast2 X in
  do a <- nroll X (-1);
  do b <- nroll X (-2);
  do c <- nroll X 1;
  do d <- nsub b c;
  do e <- nmul (nscale (-1) a) d;
  do g <- nsub e X;
  nadd g (Nd0 F).

(** lines 14-23 *)
Definition l96_f (dt F : R) (x : nd) : res nd :=
  do k1 <- l96_model x F;
  do x2 <- nadd x (nscale 2%:R^-1 (nscale dt k1));
  do k2 <- l96_model x2 F;
  do x3 <- nadd x (nscale 2%:R^-1 (nscale dt k2));
  do k3 <- l96_model x3 F;
  do x4 <- nadd x (nscale dt k3);
  do k4 <- l96_model x4 F;
  do s1 <- nadd k1 (nscale 2%:R k2);
  do s2 <- nadd s1 (nscale 2%:R k3);
  do s3 <- nadd s2 k4;
  nadd x (nscale (6%:R^-1 * dt) s3).

(** lines 26-28 *)
Definition l96_h (x : nd) : res nd := nmul (natleast2 x) (natleast2 x).

(** lines 31-39.  [array_last] is [np.array(xs)[-1]], whose behaviour on arrays of different shapes
    depends on the numpy version.  The loop calls [f] with its defaults. *)
Section Generate.
Variable array_last : seq nd -> res nd.
Definition default_dt : R := 20%:R^-1.
Definition default_F : R := 8%:R.
Fixpoint l96_iter (k : nat) (x : nd) (acc : seq nd) : res (seq nd) :=
  if k is k'.+1 then do x' <- l96_f default_dt default_F x; l96_iter k' x' (rcons acc x') else Ok acc.
Definition perturbed dim (F : R) : 'cV[R]_dim.+1 := \col_i (F + (if i == 0 then 100%:R^-1 else 0)).
Definition l96_generate (dim : nat) (F : R) : res nd :=
  if dim is n.+1 then
    let x0 : nd := Nd1 (perturbed n F) in
    do xs <- l96_iter 999 x0 [:: x0];
    array_last xs
  else Err IndexErr.

(** lines 43-75.  Files: a path holds an array or nothing; [save] may fail (missing directory).  The
    noises have the dimensions that [DynamicSystemModel] asks for, so its constructor accepts. *)
Variable path : eqType.
Definition fs := path -> option nd.
Variable log_path : R -> nat -> path.
Variable save : path -> nd -> fs -> res fs.
Record l96_sys := L96Sys { l_mean : nd; l_cov : nd; l_Q : nd; l_R : nd; l_dim : nat }.
Definition generate_and_save (dim : nat) (F : R) (files : fs) : fs * res nd :=
  match l96_generate dim F with
  | Err e => (files, Err e)
  | Ok x0 => match save (log_path F dim) x0 files with Err e => (files, Err e) | Ok files' => (files', Ok x0) end
  end.
Definition l96_init (q r : R) (dim : nat) (F : R) (init_cond_path : option path) (files : fs) : fs * res l96_sys :=
  let '(files', x0) :=
    match init_cond_path with
    | None => generate_and_save dim F files
    | Some p => if files p is Some x0 then (files, Ok x0) else generate_and_save dim F files
    end in
  (files', do x0 <- x0;
           do d <- shape0 x0;
           if d == dim then Ok (L96Sys x0 (neye dim) (nscale q (neye dim)) (nscale r (neye dim)) dim)
           else Err AssertErr).
End Generate.
End L96.
