(** * ExpectationPropagation/Nodes.py and Iterations.py:19-42

    Structure layer.  [G] Gaussians, [Sc] Python numbers used as power/damping, [Fn]/[Hn]
    transition/measurement functions, [Y] observations, [W] the rest of the world that a projection
    may touch (random generator, caches).  All numeric primitives are arbitrary and may raise. *)
Set Warnings "-notation-overridden,-ambiguous-paths".
From mathcomp Require Import all_ssreflect.
From Verif Require Import Base.
Set Implicit Arguments.
Unset Strict Implicit.
Unset Printing Implicit Defensive.

Section Nodes.
Variables (G Sc Fn Hn Y W : Type).
Variable gmul gdiv : G -> G -> res G.
Variable gpow : G -> Sc -> res G.
Variable gvalid : G -> res unit.          (* Utils/linalg.py:48-50 *)
Variable one_over : Sc -> res Sc.         (* 1 / x *)
Variable one_minus : Sc -> res Sc.        (* 1 - x *)
Variable sdiv : Sc -> Sc -> res Sc.       (* x / y *)
Variable as_factor as_marginal : nat -> G.

(** projections: [None] as function is the un-overloaded method of class Node
    (Nodes.py:137-150) *)
Definition PT := option Fn -> G -> W -> W * res G.
Definition PM := option Hn -> G -> Y -> W -> W * res G.
Definition PB := option Fn -> G -> G -> option G -> W -> W * res G.

(** a bound method, or [functools.partial(f, keyword=p)] *)
Inductive pfun (P : Type) := Bound | Partial of pfun P & P.
Arguments Bound {P}.

(** the value the keyword receives when the callable is called with an optional keyword:
    outer keywords override inner ones; [None] means the argument is missing *)
Fixpoint kwval P (f : pfun P) (kw : option P) : option P :=
  match f with
  | Bound => kw
  | Partial g p => kwval g (Some (if kw is Some q then q else p))
  end.

(** Nodes.py:34-54 (attributes [converged] and [factors] are never used and left out).
    [None] for [n_power], [n_damp], [n_y], [n_prior] means the attribute does not exist. *)
Record node := Node {
  n_index : nat; n_dim : nat;
  n_prev : option nat; n_next : option nat;     (* references to nodes *)
  n_marg : G; n_meas : G; n_back : G; n_fwd : G;
  n_trans : option Fn; n_measf : option Hn; n_y : option Y; n_prior : option G;
  n_power : option Sc; n_damp : option Sc;
  n_ufwd : pfun PT; n_umeas : pfun PM; n_uback : pfun PB }.

(** node objects live in a heap; a reference is a position *)
Definition heap := seq node.
Definition lookup (h : heap) (i : nat) : option node := ohead (drop i h).
Definition update (h : heap) (i : nat) (f : node -> node) : heap :=
  if lookup h i is Some n then take i h ++ f n :: drop i.+1 h else h.

(** *** state and exception monad *)
Definition state := (heap * W)%type.
Definition M A := state -> state * res A.
Definition ret A (a : A) : M A := fun st => (st, Ok a).
Definition lift A (r : res A) : M A := fun st => (st, r).
Definition mbind A B (m : M A) (k : A -> M B) : M B :=
  fun st => match m st with
            | (st', Ok a) => k a st'
            | (st', Err e) => (st', Err e)
            end.
(** [try: m except E: h] *)
Definition mtry A (e0 : err) (m : M A) (h : M A) : M A :=
  fun st => match m st with
            | (st', Err e) => if e == e0 then h st' else (st', Err e)
            | r => r
            end.
Definition mworld A (f : W -> W * res A) : M A :=
  fun st => let: (w, r) := f st.2 in ((st.1, w), r).
Definition get (i : nat) : M node :=
  fun st => (st, if lookup st.1 i is Some n then Ok n else Err Unsupported).
Definition put (i : nat) (f : node -> node) : M unit := fun st => ((update st.1 i f, st.2), Ok tt).
Local Notation "x <~ m ; k" := (mbind m (fun x => k)) (at level 60, m at level 50, right associativity).
Local Notation "m ;; k" := (mbind m (fun _ => k)) (at level 60, right associativity).

Definition set_fwd f m n := Node (n_index n) (n_dim n) (n_prev n) (n_next n) m (n_meas n) (n_back n) f
  (n_trans n) (n_measf n) (n_y n) (n_prior n) (n_power n) (n_damp n) (n_ufwd n) (n_umeas n) (n_uback n).
Definition set_meas f m n := Node (n_index n) (n_dim n) (n_prev n) (n_next n) m f (n_back n) (n_fwd n)
  (n_trans n) (n_measf n) (n_y n) (n_prior n) (n_power n) (n_damp n) (n_ufwd n) (n_umeas n) (n_uback n).
Definition set_back f m n := Node (n_index n) (n_dim n) (n_prev n) (n_next n) m (n_meas n) f (n_fwd n)
  (n_trans n) (n_measf n) (n_y n) (n_prior n) (n_power n) (n_damp n) (n_ufwd n) (n_umeas n) (n_uback n).

(** Nodes.py:65-69 *)
Definition fwd_cavity (self : node) : M G :=
  mtry AttrErr
    (p <~ lift (getattr (n_prev self));
     prev_node <~ get p;
     pw <~ lift (getattr (n_power self));
     ip <~ lift (one_over pw);
     bf <~ lift (gpow (n_back prev_node) ip);
     lift (gdiv (n_marg prev_node) bf))
    (lift (getattr (n_prior self))).

(** Nodes.py:71-79 *)
Definition fwd_project (self : node) (proj_trans : PT) (back_cavity : G) : M (option (G * G)) :=
  let old_forward_factor := n_fwd self in
  mtry LinAlgErr
    (state <~ mworld (proj_trans (n_trans self) back_cavity);
     lift (gvalid state);;
     dm <~ lift (getattr (n_damp self));
     om <~ lift (one_minus dm);
     f1 <~ lift (gpow (n_fwd self) om);
     f2 <~ lift (gpow state dm);
     fwd_factor <~ lift (gmul f1 f2);
     q <~ lift (gdiv fwd_factor old_forward_factor);
     pw <~ lift (getattr (n_power self));
     ip <~ lift (one_over pw);
     qp <~ lift (gpow q ip);
     marginal <~ lift (gmul (n_marg self) qp);
     lift (gvalid marginal);;
     ret (Some (fwd_factor, marginal)))
    (ret None).

(** Nodes.py:62-81 *)
Definition fwd_update (i : nat) (proj_trans : PT) : M unit :=
  self <~ get i;
  back_cavity <~ fwd_cavity self;
  r <~ fwd_project self proj_trans back_cavity;
  if r is Some fm then put i (set_fwd fm.1 fm.2) else ret tt.

(** Nodes.py:124-135 *)
Definition power_update (self : node) (projected_marginal factor marginal cavity : G) : M (G * G) :=
  damping <~ lift (getattr (n_damp self));
  power <~ lift (getattr (n_power self));
  marginal_ratio <~ lift (gdiv projected_marginal marginal);
  rd <~ lift (gpow marginal_ratio damping);
  new_factor <~ lift (gmul factor rd);
  dp <~ lift (sdiv damping power);
  rp <~ lift (gpow marginal_ratio dp);
  new_marginal <~ lift (gmul marginal rp);
  lift (gvalid new_marginal);;
  ret (new_factor, new_marginal).

(** Nodes.py:83-96 *)
Definition meas_update (i : nat) (proj_meas : PM) : M unit :=
  self <~ get i;
  measurement_cavity <~ lift (gdiv (n_marg self) (n_meas self));
  r <~ mtry LinAlgErr
    (y <~ lift (getattr (n_y self));
     state <~ mworld (proj_meas (n_measf self) measurement_cavity y);
     lift (gvalid state);;
     fm <~ power_update self state (n_meas self) (n_marg self) measurement_cavity;
     ret (Some fm))
    (ret None);
  if r is Some fm then put i (set_meas fm.1 fm.2) else ret tt.

(** Nodes.py:98-122 *)
Definition back_update (i : nat) (proj_back : PB) : M unit :=
  self <~ get i;
  back_cavity <~ lift (gdiv (n_marg self) (n_back self));
  nx <~ mtry AttrErr
    (p <~ lift (getattr (n_next self));
     next_node <~ get p;
     pw <~ lift (getattr (n_power self));
     ip <~ lift (one_over pw);
     ff <~ lift (gpow (n_fwd next_node) ip);
     next_fwd_cavity <~ lift (gdiv (n_marg next_node) ff);
     ret (Some (next_node, next_fwd_cavity)))
    (ret None);
  if nx is Some nf then
    r <~ mtry LinAlgErr
      (state <~ mworld (proj_back (n_trans nf.1) back_cavity nf.2 (Some (n_marg nf.1)));
       lift (gvalid state);;
       fm <~ power_update self state (n_back self) (n_marg self) back_cavity;
       ret (Some fm))
      (ret None);
    if r is Some fm then put i (set_back fm.1 fm.2) else ret tt
  else ret tt.

(** the attribute calls [node.fwd_update()], [node.meas_update()], [node.back_update()]:
    without an estimator the projection argument is missing and Python raises TypeError *)
Definition call_fwd (i : nat) : M unit :=
  self <~ get i;
  if kwval (n_ufwd self) None is Some p then fwd_update i p else lift (Err TypeErr).
Definition call_meas (i : nat) : M unit :=
  self <~ get i;
  if kwval (n_umeas self) None is Some p then meas_update i p else lift (Err TypeErr).
Definition call_back (i : nat) : M unit :=
  self <~ get i;
  if kwval (n_uback self) None is Some p then back_update i p else lift (Err TypeErr).

(** [for x in l: body(x)] *)
Fixpoint mfor A (l : seq A) (body : A -> M unit) : M unit :=
  if l is x :: l' then body x ;; mfor l' body else ret tt.

(** Iterations.py:19-22 *)
Definition kalman_filter (nodes : seq nat) : M unit :=
  mfor nodes (fun i => call_fwd i ;; call_meas i).
(** Iterations.py:25-27 *)
Definition kalman_smoother (nodes : seq nat) : M unit :=
  mfor (rev nodes) (fun i => call_back i).
(** Iterations.py:30-35 *)
Definition ep_fwd_back_updates (nodes : seq nat) : M unit :=
  mfor nodes (fun i => call_fwd i ;; call_meas i) ;;
  mfor (rev nodes) (fun i => call_back i).
(** Iterations.py:38-42 *)
Definition ep_update (nodes : seq nat) : M unit :=
  mfor nodes (fun i => call_fwd i ;; call_meas i ;; call_back i).

(** MomentMatching/Estimator.py:34-46: what node_estimator uses of an estimator; power/damping are
    optional because of [getattr(estimator, 'power', 1)] *)
Record estimator := Estimator {
  e_trans : PT; e_meas : PM; e_back : PB; e_power : option Sc; e_damp : option Sc }.
Variable s_one : Sc.                      (* the default 1 *)

Definition equip (e : estimator) (n : node) : node :=
  Node (n_index n) (n_dim n) (n_prev n) (n_next n) (n_marg n) (n_meas n) (n_back n) (n_fwd n)
    (n_trans n) (n_measf n) (n_y n) (n_prior n)
    (Some (if e_power e is Some p then p else s_one))
    (Some (if e_damp e is Some d then d else s_one))
    (Partial (n_ufwd n) (e_trans e)) (Partial (n_umeas n) (e_meas e)) (Partial (n_uback n) (e_back e)).

(** Nodes.py:153-175; returns the same references *)
Definition node_estimator (nodes : seq nat) (e : estimator) : M (seq nat) :=
  mfor nodes (fun i => put i (equip e)) ;; ret nodes.

(** The system model as used by node_system: transition with keywords fixed, measurement, dt, prior *)
Variables (Kw T Y0 : Type).
Variable t_zero : T.                     (* 0.0 *)
Variable tadd : T -> T -> T.
Variable kw_tu0 : T -> Kw.               (* {'t': t, 'u': 0.0} *)
Variable squeeze : Y0 -> Y.
Record system := System { sy_trans : Kw -> Fn; sy_meas : Hn; sy_dt : T; sy_init : G }.

Definition assign (sy : system) (kw : Kw) (y : Y0) (n : node) : node :=
  Node (n_index n) (n_dim n) (n_prev n) (n_next n) (n_marg n) (n_meas n) (n_back n) (n_fwd n)
    (Some (sy_trans sy kw)) (Some (sy_meas sy)) (Some (squeeze y)) (n_prior n) (n_power n) (n_damp n)
    (n_ufwd n) (n_umeas n) (n_uback n).
Definition set_prior (g : G) (n : node) : node :=
  Node (n_index n) (n_dim n) (n_prev n) (n_next n) (n_marg n) (n_meas n) (n_back n) (n_fwd n)
    (n_trans n) (n_measf n) (n_y n) (Some g) (n_power n) (n_damp n)
    (n_ufwd n) (n_umeas n) (n_uback n).

(** Nodes.py:196-202: the default keyword list *)
Fixpoint default_fargs (N : nat) (t dt : T) : seq Kw :=
  if N is N'.+1 then kw_tu0 t :: default_fargs N' (tadd t dt) dt else [::].

(** Python's zip of three sequences *)
Fixpoint zip3 A B C (a : seq A) (b : seq B) (c : seq C) : seq (A * B * C) :=
  match a, b, c with
  | x :: a', y :: b', z :: c' => (x, y, z) :: zip3 a' b' c'
  | _, _, _ => [::]
  end.

(** Nodes.py:178-212 *)
Definition node_system (nodes : seq nat) (sy : system) (measurements : seq Y0)
    (farg_list : option (seq Kw)) : M (seq nat) :=
  let N := size measurements in
  let fargs := if farg_list is Some l then l else default_fargs N t_zero (sy_dt sy) in
  let z := zip3 nodes measurements fargs in
  mfor z (fun iyk => put iyk.1.1 (assign sy iyk.2 iyk.1.2)) ;;
  let out_nodes := [seq iyk.1.1 | iyk <- z] in
  if out_nodes is i :: _ then put i (set_prior (sy_init sy)) ;; ret out_nodes
  else lift (Err IndexErr).

(** Nodes.py:34-54 with default factors, Nodes.py:229 *)
Definition new_node (dim i : nat) : node :=
  Node i dim None None (as_marginal dim) (as_factor dim) (as_factor dim) (as_factor dim)
    None None None None None None Bound Bound Bound.

Definition set_links (p n : option nat) (x : node) : node :=
  Node (n_index x) (n_dim x) p n (n_marg x) (n_meas x) (n_back x) (n_fwd x)
    (n_trans x) (n_measf x) (n_y x) (n_prior x) (n_power x) (n_damp x)
    (n_ufwd x) (n_umeas x) (n_uback x).

(** [nodes[j]] (j >= 0) *)
Definition index_of (nodes : seq nat) (j : nat) : M nat :=
  lift (if ohead (drop j nodes) is Some r then Ok r else Err IndexErr).

(** Nodes.py:215-250.  Allocates [N] nodes at the end of the heap. *)
Definition build_nodes (N dim : nat) (e : option estimator) (sy : option system) : M (seq nat) :=
  fun st0 =>
  let base := size st0.1 in
  let nodes := iota base N in
  (mfor (zip (iota 0 N) nodes) (fun ir =>
     let: (i, r) := ir in
     if i == 0 then (nx <~ index_of nodes i.+1; put r (set_links None (Some nx)))
     else if i == N.-1 then (pv <~ index_of nodes i.-1; put r (set_links (Some pv) None))
     else (nx <~ index_of nodes i.+1; pv <~ index_of nodes i.-1;
           put r (set_links (Some pv) (Some nx)))) ;;
   (nodes <~ (if e is Some e then node_estimator nodes e else ret nodes);
    if sy is Some _ then lift (Err TypeErr)      (* node_system(): missing 'measurements' *)
    else ret nodes))
  (st0.1 ++ [seq new_node dim i | i <- iota 0 N], st0.2).

End Nodes.
Arguments Bound {P}.
