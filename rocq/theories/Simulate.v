(** * Systems/DynamicSystem.py: noise models, system constructor and simulation

    Simulation mutates arrays in place ([+=]), so the model has a heap of array objects; a
    reference is a position.  Array values, times and the random generator are parameters.
    [transition] and [measurement] are arbitrary callables: they may allocate, return their
    argument, or write to existing arrays. *)
Set Warnings "-notation-overridden,-ambiguous-paths".
From mathcomp Require Import all_ssreflect.
From Verif Require Import Base.
Set Implicit Arguments.
Unset Strict Implicit.
Unset Printing Implicit Defensive.

Section Simulate.
Variables (V C T W : Type).
Variable mutable : V -> bool.          (* an array; false for numpy scalars, which [+=] rebinds *)
Variable add : V -> V -> res V.        (* a + b *)
Variable iadd : V -> V -> res V.       (* new contents of a after a += b; raises if the shape would change *)
Variable zeros : nat -> V.             (* np.zeros((d,)) *)
Variable rng : V -> C -> W -> W * res V.   (* np.random.multivariate_normal(mean, cov) *)
Variable tadd : T -> T -> T.           (* t + dt *)

Definition ref := nat.
Definition heap := seq V.
Definition state := (heap * W)%type.
Definition deref (h : heap) (r : ref) : option V := ohead (drop r h).
Definition M A := state -> state * res A.
Definition ret A (a : A) : M A := fun st => (st, Ok a).
Definition raise A (e : err) : M A := fun st => (st, Err e).
Definition mbind A B (m : M A) (k : A -> M B) : M B :=
  fun st => match m st with (st', Ok a) => k a st' | (st', Err e) => (st', Err e) end.
Local Notation "x <~ m ; k" := (mbind m (fun x => k)) (at level 60, m at level 50, right associativity).

Definition alloc (v : V) : M ref := fun st => ((rcons st.1 v, st.2), Ok (size st.1)).
Definition read (r : ref) : M V := fun st => (st, if deref st.1 r is Some v then Ok v else Err Unsupported).
Definition write (r : ref) (v : V) : M unit :=
  fun st => ((take r st.1 ++ v :: drop r.+1 st.1, st.2), Ok tt).
Definition lift A (x : res A) : M A := fun st => (st, x).
Definition draw (f : W -> W * res V) : M V := fun st => ((st.1, (f st.2).1), (f st.2).2).

(** the statement [x += v]; returns what the name is bound to afterwards *)
Definition aug_add (r : ref) (v : V) : M ref :=
  a <~ read r;
  if mutable a then a' <~ lift (iadd a v); _ <~ write r a'; ret r
  else a' <~ lift (add a v); alloc a'.

(** DynamicSystem.py:5-8, 14-24: [mean] is the attribute that exists only when no mean was passed *)
Record noise := Noise { nz_dim : nat; nz_cov : C; nz_mean : option V }.
Definition gaussian_noise (dimension : nat) (cov : C) (mean : option V) : noise :=
  Noise dimension cov (if mean is None then Some (zeros dimension) else None).
(** DynamicSystem.py:26-27 with [size=None] *)
Definition nz_sample (n : noise) (w : W) : W * res V :=
  if nz_mean n is Some m then rng m (nz_cov n) w else (w, Err AttrErr).

(** DynamicSystem.py:71-90; [self.transition = transition] shadows the method of the same name *)
Record system := System {
  s_dim : nat; s_mdim : nat; s_trans : T -> ref -> M ref; s_meas : ref -> M ref;
  s_noise : noise; s_mnoise : noise; s_init : option (V * C); s_dt : T }.
Definition make_system (system_dim measurement_dim : nat) (transition : T -> ref -> M ref)
    (measurement : ref -> M ref) (system_noise measurement_noise : noise)
    (init_distribution : option (V * C)) (dt : T) : res system :=
  if nz_dim system_noise != system_dim then Err AssertErr else
  if nz_dim measurement_noise != measurement_dim then Err AssertErr else
  Ok (System system_dim measurement_dim transition measurement system_noise measurement_noise
             init_distribution dt).

(** DynamicSystem.py:106-117.  The generator is exhausted by [list] (line 126), so what it yields
    is the list of the references the names [x], [y] hold at the end of each round. *)
Fixpoint sim_loop (s : system) (N : nat) (x : ref) (t : T) : M (seq (ref * ref)) :=
  if N is N'.+1 then
    x <~ s_trans s t x;
    w <~ draw (nz_sample (s_noise s));
    x <~ aug_add x w;
    y <~ s_meas s x;
    v <~ draw (nz_sample (s_mnoise s));
    y <~ aug_add y v;
    rest <~ sim_loop s N' x (tadd t (s_dt s));
    ret ((x, y) :: rest)
  else ret [::].
(** DynamicSystem.py:119-126; without [x_zero] the initial state is drawn ([self.init_state.mean] on
    None raises AttributeError) *)
Definition simulate (s : system) (N : nat) (x_zero : option ref) (t_zero : T) : M (seq (ref * ref)) :=
  if x_zero is Some x then sim_loop s N x t_zero
  else if s_init s is Some mc then
    v <~ draw (rng mc.1 mc.2);
    x <~ alloc v;
    sim_loop s N x t_zero
  else raise _ AttrErr.

(** what the caller reads from the returned pairs afterwards *)
Definition values (h : heap) (refs : seq (ref * ref)) : seq (option V * option V) :=
  [seq (deref h p.1, deref h p.2) | p <- refs].

End Simulate.
