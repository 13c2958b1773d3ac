(** * StateModel/Gaussian.py:81-185, 267-271: the Gaussian object with its caches

    Structure layer: [V] is the type of arrays, the solvers [n2m] (natural_to_moment),
    [m2n] (moment_to_natural), [chol] and [shp0] ([np.shape(x)[0]]) are arbitrary functions
    that may raise.  [None] is Python's None. *)
Set Warnings "-notation-overridden,-ambiguous-paths".
From mathcomp Require Import all_ssreflect.
From Verif Require Import Base.
Set Implicit Arguments.
Unset Strict Implicit.
Unset Printing Implicit Defensive.

Section Obj.
Variable V : Type.
Variable al : V -> V.                                   (* np.atleast_1d *)
Variable n2m : option V -> option V -> res (V * V).      (* natural_to_moment *)
Variable m2n : option V -> option V -> res (V * V).      (* moment_to_natural, (mean, cov) *)
Variable chol : option V -> res V.                       (* scipy cholesky(., lower=True) *)
Variable shp0 : option V -> res nat.                     (* np.shape(.)[0] *)

Inductive mode := MNone | MMoment | MNatural.

(** Gaussian.py:107-113 *)
Record obj := Obj {
  o_mean : option V; o_cov : option V; o_dim : option nat;
  o_prec : option V; o_shift : option V; o_mode : mode; o_chol : option V }.

(** Gaussian.py:95-123 *)
Definition init (mean cov prec shift : option V) : obj :=
  let o := Obj None None None None None MNone None in
  let o := if mean is Some m
           then Obj (Some (al m)) cov None None None MMoment None else o in
  if shift is Some s
  then Obj (o_mean o) (o_cov o) None prec (Some (al s)) MNatural None else o.

Definition set_mc (o : obj) (mc : V * V) : obj :=
  Obj (Some mc.1) (Some mc.2) (o_dim o) (o_prec o) (o_shift o) (o_mode o) (o_chol o).
Definition set_ps (o : obj) (ps : V * V) : obj :=
  Obj (o_mean o) (o_cov o) (o_dim o) (Some ps.1) (Some ps.2) (o_mode o) (o_chol o).

(** Gaussian.py:158-163, 169-174.  In mode 'moment' the operands [self.mean], [self.cov] are
    plain field reads. *)
Definition get_prec (o : obj) : obj * res (option V) :=
  match o_mode o, o_prec o with
  | MMoment, None =>
      match m2n (o_mean o) (o_cov o) with
      | Ok ps => let o' := set_ps o ps in (o', Ok (o_prec o'))
      | Err e => (o, Err e)
      end
  | _, _ => (o, Ok (o_prec o))
  end.
Definition get_shift (o : obj) : obj * res (option V) :=
  match o_mode o, o_shift o with
  | MMoment, None =>
      match m2n (o_mean o) (o_cov o) with
      | Ok ps => let o' := set_ps o ps in (o', Ok (o_shift o'))
      | Err e => (o, Err e)
      end
  | _, _ => (o, Ok (o_shift o))
  end.

(** Gaussian.py:127-132, 147-152 *)
Definition get_mean (o : obj) : obj * res (option V) :=
  match o_mode o, o_mean o with
  | MNatural, None =>
      match n2m (o_prec o) (o_shift o) with
      | Ok mc => let o' := set_mc o mc in (o', Ok (o_mean o'))
      | Err e => (o, Err e)
      end
  | _, _ => (o, Ok (o_mean o))
  end.
Definition get_cov (o : obj) : obj * res (option V) :=
  match o_mode o, o_cov o with
  | MNatural, None =>
      match n2m (o_prec o) (o_shift o) with
      | Ok mc => let o' := set_mc o mc in (o', Ok (o_cov o'))
      | Err e => (o, Err e)
      end
  | _, _ => (o, Ok (o_cov o))
  end.

(** Gaussian.py:138-145 *)
Definition get_dim (o : obj) : obj * res nat :=
  match o_dim o with
  | Some d => (o, Ok d)
  | None =>
      let r := match o_mode o with MNatural => get_shift o | _ => get_mean o end in
      match r.2 with
      | Err e => (r.1, Err e)
      | Ok v =>
          match shp0 v with
          | Ok d => (Obj (o_mean r.1) (o_cov r.1) (Some d) (o_prec r.1) (o_shift r.1)
                         (o_mode r.1) (o_chol r.1), Ok d)
          | Err e => (r.1, Err e)
          end
      end
  end.

(** Gaussian.py:180-185 *)
Definition get_chol (o : obj) : obj * res V :=
  match o_chol o with
  | Some l => (o, Ok l)
  | None =>
      let r := get_cov o in
      match r.2 with
      | Err e => (r.1, Err e)
      | Ok v =>
          match chol v with
          | Ok l => (Obj (o_mean r.1) (o_cov r.1) (o_dim r.1) (o_prec r.1) (o_shift r.1)
                         (o_mode r.1) (Some l), Ok l)
          | Err e => (r.1, Err e)
          end
      end
  end.

Inductive attr := AMean | ACov | APrec | AShift | ADim | AChol.
Inductive out := OV of option V | ON of nat.

Definition omap A (f : A -> out) (r : obj * res A) : obj * res out :=
  (r.1, match r.2 with Ok a => Ok (f a) | Err e => Err e end).

(** one attribute read *)
Definition read (a : attr) (o : obj) : obj * res out :=
  match a with
  | AMean => omap OV (get_mean o)
  | ACov => omap OV (get_cov o)
  | APrec => omap OV (get_prec o)
  | AShift => omap OV (get_shift o)
  | ADim => omap ON (get_dim o)
  | AChol => omap (fun l => OV (Some l)) (get_chol o)
  end.

(** the object after a sequence of reads (exceptions are caught by the reader) *)
Definition reads (l : seq attr) (o : obj) : obj := foldl (fun o a => (read a o).1) o l.

(** Gaussian.py:267-271 *)
Definition copy (o : obj) : obj * res obj :=
  match o_mode o with
  | MNatural =>
      let p := get_prec o in
      let s := get_shift p.1 in
      (s.1, do vp <- p.2; do vs <- s.2; Ok (init None None vp vs))
  | _ =>
      let m := get_mean o in
      let c := get_cov m.1 in
      (c.1, do vm <- m.2; do vc <- c.2; Ok (init vm vc None None))
  end.

(** public setters, Gaussian.py:134-136, 154-156, 165-167, 176-178 *)
Inductive wattr := WMean | WCov | WPrec | WShift.
Definition write (w : wattr) (v : option V) (o : obj) : obj :=
  match w with
  | WMean => Obj v (o_cov o) (o_dim o) (o_prec o) (o_shift o) (o_mode o) (o_chol o)
  | WCov => Obj (o_mean o) v (o_dim o) (o_prec o) (o_shift o) (o_mode o) (o_chol o)
  | WPrec => Obj (o_mean o) (o_cov o) (o_dim o) v (o_shift o) (o_mode o) (o_chol o)
  | WShift => Obj (o_mean o) (o_cov o) (o_dim o) (o_prec o) v (o_mode o) (o_chol o)
  end.

End Obj.
