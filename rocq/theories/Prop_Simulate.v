(** * C39, C44: simulation and noise models *)
Set Warnings "-notation-overridden,-ambiguous-paths".
From mathcomp Require Import all_ssreflect.
From Verif Require Import Base Simulate SpecSim SimulateFacts.
Set Implicit Arguments.
Unset Strict Implicit.
Unset Printing Implicit Defensive.

Section Props.
Variables (V C T W : Type) (mutable : V -> bool) (add iadd : V -> V -> res V) (zeros : nat -> V).
Variables (rng : V -> C -> W -> W * res V) (tadd : T -> T -> T).
Notation system := (system V C T W).
Notation simulate := (simulate mutable add iadd rng tadd).
Notation plus := (plus mutable add iadd).
Notation sample := (nz_sample rng).
Notation time s t0 k := (iter k (fun t => tadd t (s_dt s)) t0).

(** When transition and measurement return arrays of their own, [simulate] returns exactly the
    trajectories of the noisy recurrence, with one draw of each noise per step, in order. *)
Theorem C39_recurrence (s : system) f g N t0 x h w v wN l :
  (forall t, fresh_fun (s_trans s t) (f t)) -> fresh_fun (s_meas s) g -> deref h x = Some v ->
  (exists h' refs, simulate s N (Some x) t0 (h, w) = ((h', wN), Ok refs) /\ values h' refs = somes l) <->
  recurrence plus (sample (s_noise s)) (sample (s_mnoise s)) (fun k => f (time s t0 k)) g N v w wN l.
Proof. exact: fresh_recurrence. Qed.

(** Then no array that existed before, in particular [x_zero], changes, whether the run succeeds or
    raises, and all returned arrays are new and different from each other. *)
Theorem C39_untouched (s : system) f g N t0 x h w v :
  (forall t, fresh_fun (s_trans s t) (f t)) -> fresh_fun (s_meas s) g -> deref h x = Some v ->
  keeps h (simulate s N (Some x) t0 (h, w)).1.1 /\
  forall refs, (simulate s N (Some x) t0 (h, w)).2 = Ok refs -> uniq (flat refs) /\ all (leq (size h)) (flat refs).
Proof. exact: fresh_keeps. Qed.

(** Without [x_zero] one draw from the initial distribution takes its place. *)
Theorem C39_initial (s : system) N t0 h w :
  simulate s N None t0 (h, w) =
  match s_init s with
  | None => ((h, w), Err AttrErr)
  | Some (m, c) =>
    match rng m c w with
    | (w', Ok v) => simulate s N (Some (size h)) t0 (rcons h v, w')
    | (w', Err e) => ((h, w'), Err e)
    end
  end.
Proof. by rewrite /simulate; case: (s_init s) => [[m c]|//]; rewrite mbindE drawE; case: (rng m c w) => w' []. Qed.

(** When the measurement function returns the state array itself, the measurement noise is added to
    the state: the recorded state and measurement are one array, and the noise enters the dynamics. *)
Theorem C39_leak (s : system) f N t0 x h w v wN l :
  (forall t, fresh_fun (s_trans s t) (f t)) -> returns_argument (s_meas s) -> deref h x = Some v ->
  (forall t v a, f t v = Ok a -> mutable a) -> (forall a b c, mutable a -> iadd a b = Ok c -> mutable c) ->
  (exists h' refs, simulate s N (Some x) t0 (h, w) = ((h', wN), Ok refs) /\ values h' refs = somes l) <->
  leaking plus (sample (s_noise s)) (sample (s_mnoise s)) (fun k => f (time s t0 k)) N v w wN l.
Proof. exact: leak_recurrence. Qed.

(** With scalar states the same measurement function is harmless. *)
Theorem C39_scalar (s : system) f N t0 x h w v wN l :
  (forall t, fresh_fun (s_trans s t) (f t)) -> returns_argument (s_meas s) -> deref h x = Some v ->
  (forall a b c, plus a b = Ok c -> mutable c = false) ->
  (exists h' refs, simulate s N (Some x) t0 (h, w) = ((h', wN), Ok refs) /\ values h' refs = somes l) <->
  recurrence plus (sample (s_noise s)) (sample (s_mnoise s)) (fun k => f (time s t0 k)) (@Ok V) N v w wN l.
Proof. exact: scalar_recurrence. Qed.

(** When the transition returns its argument, every recorded state is the caller's own array, which
    ends up holding the last state; only the measurements keep their history. *)
Theorem C39_walk (s : system) g N t0 x h w v h' w' refs :
  (forall t, returns_argument (s_trans s t)) -> fresh_fun (s_meas s) g -> deref h x = Some v -> mutable v ->
  (forall a b c, mutable a -> iadd a b = Ok c -> mutable c) ->
  simulate s N (Some x) t0 (h, w) = ((h', w'), Ok refs) ->
  all (fun p => p.1 == x) refs /\
  exists l, [/\ recurrence plus (sample (s_noise s)) (sample (s_mnoise s)) (fun _ => @Ok V) g N v w w' l,
    deref h' x = Some (last v [seq p.1 | p <- l]) & [seq deref h' p.2 | p <- refs] = [seq Some p.2 | p <- l]].
Proof. exact: walk. Qed.

(** The noise model forgets a mean it is given. *)
Theorem C44_mean d c m w :
  sample (gaussian_noise zeros d c (Some m)) w = (w, Err AttrErr).
Proof. by []. Qed.
Theorem C44_zero d c w :
  sample (gaussian_noise zeros d c None) w = rng (zeros d) c w /\
  nz_dim (gaussian_noise zeros d c None) = d.
Proof. by []. Qed.
(** A system with such a process noise cannot be simulated for a single step, whatever its functions;
    with such a measurement noise it fails as soon as the first state has been produced. *)
Theorem C44_simulate (s : system) d c m N t0 x h w h1 w1 r :
  s_trans s t0 x (h, w) = ((h1, w1), Ok r) ->
  s_noise s = gaussian_noise zeros d c (Some m) ->
  simulate s N.+1 (Some x) t0 (h, w) = ((h1, w1), Err AttrErr).
Proof. by move=> e1 e2; rewrite /simulate sim_loopS mbindE /body mbindE e1 mbindE drawE e2. Qed.
Theorem C44_simulate_meas (s : system) d c m N t0 x st refs :
  s_mnoise s = gaussian_noise zeros d c (Some m) ->
  (simulate s N (Some x) t0 st).2 = Ok refs -> N = 0.
Proof.
case: N => [//|N] e; rewrite /simulate; case er: (sim_loop _ _ _ _ _ _ _ _ _ _) => [st' r] /= er'.
move: er; rewrite er' => /sim_loopS_ok [st1 [xy [rest [eb _ _]]]]; move: eb; rewrite /body.
do 4 (move=> /mbind_okE [? [? [_]]]).
by move=> /mbind_okE [? [? [/draw_okE [? []]]]]; rewrite e.
Qed.
(** The constructor accepts a system exactly when both noises have the stated dimensions. *)
Theorem C44_system d md (F : T -> ref -> M V W ref) H (n mn : noise V C) i dt :
  make_system d md F H n mn i dt =
  if (nz_dim n == d) && (nz_dim mn == md) then Ok (System d md F H n mn i dt) else Err AssertErr.
Proof. by rewrite /make_system; case: (nz_dim n == d); case: (nz_dim mn == md). Qed.

End Props.

(** ** a concrete instance: one-entry integer arrays, a generator that replays a list *)
Module Demo.
Definition V := nat. Definition W := seq nat.
Definition rng (m : V) (_ : unit) (w : W) : W * res V := if w is n :: w' then (w', Ok (m + n)) else (w, Err ValueErr).
Definition addv (a b : V) : res V := Ok (a + b).
Definition mut (a : V) := true.
Definition zeros (_ : nat) : V := 0.
Definition newarr (f : V -> V) : ref -> M V W ref := fun r => mbind (@read V W r) (fun v => @alloc V W (f v)).
Definition same : ref -> M V W ref := @ret V W ref.
Definition sys F H : system V unit nat W :=
  System 1 1 F H (gaussian_noise zeros 1 tt None) (gaussian_noise zeros 1 tt None) None 2.
Lemma newarr_fresh f : fresh_fun (newarr f) (fun v => Ok (f v)).
Proof.
move=> r h w v e; exists (rcons h (f v)), (size h); split=> //.
- by rewrite /newarr /mbind /read /= e.
- exact: keeps_rcons.
- by rewrite deref_rcons ltnn eqxx.
Qed.
Definition good := sys (fun t => newarr (fun x => 10 * x + t)) (newarr (fun x => 2 * x)).
Definition leaky := sys (fun t => newarr (fun x => 10 * x + t)) same.
Definition lazy := sys (fun _ => same) (newarr (fun x => 2 * x)).
Notation run s := (simulate mut addv addv rng addn s 2 (Some 0) 5 ([:: 7], [:: 1; 2; 3; 4])).
Notation seen r := (match r with ((h, _), Ok refs) => values h refs | _ => [::] end).
(** x1 = 70+5+1, y1 = 2 x1 + 2, x2 = 10 x1 + 7 + 3, y2 = 2 x2 + 4 *)
Example good_run : seen (run good) = [:: (Some 76, Some 154); (Some 770, Some 1544)]. Proof. by []. Qed.
Example leaky_run : seen (run leaky) = [:: (Some 78, Some 78); (Some 794, Some 794)]. Proof. by []. Qed.
Example lazy_run : seen (run lazy) = [:: (Some 11, Some 18); (Some 11, Some 26)] /\ deref (run lazy).1.1 0 = Some 11. Proof. by []. Qed.
Example good_meets : recurrence (plus mut addv addv) (nz_sample rng (s_noise good)) (nz_sample rng (s_mnoise good))
  (fun k v => Ok (10 * v + iter k (fun t => t + 2) 5)) (fun v => Ok (2 * v)) 2 7 [:: 1; 2; 3; 4] [::] [:: (76, 154); (770, 1544)].
Proof.
apply/(@C39_recurrence V unit nat W mut addv addv rng addn good (fun t v => Ok (10 * v + t)) (fun v => Ok (2 * v)) 2 5 0 [:: 7]) => //.
- by move=> t; apply: newarr_fresh.
- exact: newarr_fresh.
- by do 2 eexists; split; reflexivity.
Qed.
Example leaky_meets : leaking (plus mut addv addv) (nz_sample rng (s_noise leaky)) (nz_sample rng (s_mnoise leaky))
  (fun k v => Ok (10 * v + iter k (fun t => t + 2) 5)) 2 7 [:: 1; 2; 3; 4] [::] [:: (78, 78); (794, 794)].
Proof.
apply/(@C39_leak V unit nat W mut addv addv rng addn leaky (fun t v => Ok (10 * v + t)) 2 5 0 [:: 7]) => //.
- by move=> t; apply: newarr_fresh.
- by do 2 eexists; split; reflexivity.
Qed.
Example broken_noise :
  (simulate mut addv addv rng addn
     (System 1 1 (fun t => newarr id) same (gaussian_noise zeros 1 tt (Some 3)) (gaussian_noise zeros 1 tt None) None 2)
     2 (Some 0) 5 ([:: 7], [:: 1; 2; 3; 4])).2 = Err AttrErr.
Proof. by []. Qed.
End Demo.

Print Assumptions C39_recurrence.
Print Assumptions C39_untouched.
Print Assumptions C39_initial.
Print Assumptions C39_leak.
Print Assumptions C39_scalar.
Print Assumptions C39_walk.
Print Assumptions C44_mean.
Print Assumptions C44_zero.
Print Assumptions C44_simulate.
Print Assumptions C44_simulate_meas.
Print Assumptions C44_system.
