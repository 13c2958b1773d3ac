(** * The caching object refines the value model of Gauss.v

    Instantiates [GaussObj] with the exact array model. *)
Set Warnings "-notation-overridden,-ambiguous-paths".
From mathcomp Require Import all_ssreflect all_algebra.
From Verif Require Import Base ND LinAlg Gauss GaussObj GaussObjFacts.
Set Implicit Arguments.
Unset Strict Implicit.
Unset Printing Implicit Defensive.

Section Link.
Variable R : rcfType.
Variable illcond : forall n, 'M[R]_n -> bool.

(** the conversions on fields that may be None: [None.shape] raises AttributeError,
    [np.dot(cov, None)] and [precision @ None] raise TypeError *)
Definition n2m_o (p s : option (nd R)) : res (nd R * nd R) :=
  match p, s with
  | Some p, Some s => natural_to_moment illcond p s
  | None, _ => Err AttrErr
  | _, None => Err TypeErr
  end.
Definition m2n_o (m c : option (nd R)) : res (nd R * nd R) :=
  match m, c with
  | Some m, Some c => moment_to_natural illcond m c
  | _, None => Err AttrErr
  | None, _ => Err TypeErr
  end.
(** Gaussian.py:180-185 [cholesky(self.cov, lower=True)] *)
Definition chol_o (c : option (nd R)) : res (nd R) :=
  if c is Some c then sp_cholesky true c else Err ValueErr.
(** [np.shape(x)[0]]; [np.shape(None)] is () *)
Definition shp0_o (v : option (nd R)) : res nat := if v is Some v then shape0 v else Err IndexErr.

Notation init := (init (@natleast1 R)).
Notation read := (read n2m_o m2n_o chol_o shp0_o).
Notation reads := (reads n2m_o m2n_o chol_o shp0_o).

(** the object that the constructor call of a value builds *)
Definition obj_of (g : gauss R) : obj (nd R) :=
  match g with
  | Mom m c => init (Some m) (Some c) None None
  | Nat p s => init None None (Some p) (Some s)
  end.

Definition g_chol (g : gauss R) : res (nd R) := do c <- g_cov illcond g; sp_cholesky true c.

(** what the value model says about an attribute *)
Definition value (g : gauss R) (a : attr) : res (out (nd R)) :=
  let ov r := do v <- r; Ok (OV (Some v)) in
  match a with
  | AMean => ov (g_mean illcond g)
  | ACov => ov (g_cov illcond g)
  | APrec => ov (g_precision illcond g)
  | AShift => ov (g_shift illcond g)
  | ADim => do n <- g_dim g; Ok (ON _ n)
  | AChol => ov (g_chol g)
  end.

Lemma natleast1_idem (v : nd R) : natleast1 (natleast1 v) = natleast1 v.
Proof. by case: v. Qed.

(** values as the constructors build them *)
Definition built (g : gauss R) : Prop :=
  (exists m c, g = gaussian m c) \/ (exists p s, g = from_natural p s).

Theorem read_value g l a : built g -> (read a (reads l (obj_of g))).2 = value g a.
Proof.
have h1 m c : (read a (reads l (init (Some m) (Some c) None None))).2 =
    (read a (init (Some m) (Some c) None None)).2 by apply: reads_stable.
have h2 p s : (read a (reads l (init None None (Some p) (Some s)))).2 =
    (read a (init None None (Some p) (Some s))).2 by apply: reads_stable.
case=> [[m [c ->]]|[p [s ->]]] /=; rewrite ?h1 ?h2 ?natleast1_idem;
  case: a {h1 h2} => //=; rewrite /get_prec /get_shift /get_mean /get_cov /get_dim /get_chol /= ?natleast1_idem.
all: rewrite ?/g_chol /= /bind //=.
all: try by case: (moment_to_natural illcond _ _) => [[x y]|e].
all: try by case: (natural_to_moment illcond _ _) => [[x y]|e] //=; case: sp_cholesky.
- by case: (natleast1 m).
- by case: (sp_cholesky true c).
- by case: (natleast1 s).
- rewrite /get_cov /=; case: (natural_to_moment illcond _ _) => [[x y]|e] //=; by case: (sp_cholesky true y).
Qed.

(** [g.copy()] in the value model *)
Theorem copy_value g : built g -> g_copy g = g.
Proof. by case=> [[m [c ->]]|[p [s ->]]] /=; rewrite /gaussian /from_natural natleast1_idem. Qed.

End Link.
