(** * Vocabulary for what the notebooks draw *)
Set Warnings "-notation-overridden,-ambiguous-paths".
From mathcomp Require Import all_ssreflect all_algebra.
From Coq Require Import String.
From Verif Require Import Base Database FullSweep Display SpecDisplay Notebook.
Set Implicit Arguments.
Unset Strict Implicit.
Unset Printing Implicit Defensive.
Import GRing.Theory Num.Theory.
Local Open Scope ring_scope.

(** ** orders in which a database may return rows *)

(** sqlite sorts NULL before numbers before text before blobs *)
Definition val_le (a b : val) : bool :=
  match a, b with
  | VNull, _ => true
  | VNum _, VNull => false
  | VNum x, VNum y => x <= y
  | VNum _, _ => true
  | VText _, (VNull | VNum _) => false
  | VText x, VText y => if String.compare x y is Gt then false else true
  | VText _, VBlob _ => true
  | VBlob x, VBlob y => (x <= y)%N
  | VBlob _, _ => false
  end.
Fixpoint key_le (a b : seq val) : bool :=
  match a, b with
  | x :: a', y :: b' => if x == y then key_le a' b' else val_le x y
  | [::], _ => true
  | _, [::] => false
  end.
Section Orders.
Variable scan : cond -> table -> seq row.
(** the rows in any order *)
Definition any_order : Prop := forall cs t, perm_eq (scan cs t) (trows t).
(** the index that enforces UNIQUE is used: the rows found come in the order of their keys *)
Definition index_order : Prop := forall cs t, sorted key_le [seq keyof t r | r <- scan cs t & holds t r cs].
(** the table is read from its beginning to its end *)
Definition storage_order : Prop := forall cs t, scan cs t = trows t.
End Orders.

(** ** results *)
Definition result_key (tr : string) (s : int) (i : nat) (p q : rat) : seq val := [:: VText tr; VNum s%:~R; VNum i%:R; VNum p; VNum q].
(** the table has a row with this key and these metrics *)
Definition recorded (t : table) (k : seq val) (m : val * val) : Prop :=
  exists2 r, r \in trows t & [/\ keyof t r = k, cell t r "RMSE" = m.1 & cell t r "NLL" = m.2].
(** the metrics of a setting in the runs of a sweep *)
Definition run_of (l : seq (cfg * seq (val * val))) (c : cfg) : seq (val * val) :=
  head [::] [seq cl.2 | cl <- l & [&& c_seed cl.1 == c_seed c, c_trans cl.1 == c_trans c, c_power cl.1 == c_power c & c_damp cl.1 == c_damp c]].
(** [n] numbers at equal distances from [a] to [b] ([np.linspace]) *)
Definition linspace (F : fieldType) (a b : F) (n : nat) : seq F := [seq a + k%:R * ((b - a) / n.-1%:R) | k <- iota 0 n].
(** the pixels of [im] are the results of transform [tr] and seed [s] at iteration [it]: the power belongs to the row and the
    damping to the column *)
Definition shows (t : table) (im : images) (tr : string) (s : int) (it : nat) (ps ds : seq rat) : Prop := forall i j : 'I_19,
  [/\ i_power im i j = VNum (nth 0 ps i), i_damp im i j = VNum (nth 0 ds j)
    & recorded t (result_key tr s it (nth 0 ps i) (nth 0 ds j)) (i_rmse im i j, i_nll im i j)].
(** the key of a result where the variables [k1] and [k2] are controlled and the third of Power, Damping and Iter has the value [x] *)
Definition at_key (tr : string) (s : int) (k1 : string) (v1 : val) (k2 : string) (v2 : val) (x : val) : seq val :=
  let f c := if c == k1 then v1 else if c == k2 then v2 else x in [:: VText tr; VNum s%:~R; f "Iter"; f "Power"; f "Damping"]%string.
(** the results stored for transform [tr] and seed [s] with [k1] and [k2] controlled are those at the values [vs] of the third
    variable, with the metrics [m] *)
Definition series (t : table) (tr : string) (s : int) (k1 : string) (v1 : val) (k2 : string) (v2 : val) (vs : seq rat) (m : rat -> val * val) : Prop :=
  (forall v, v \in vs -> recorded t (at_key tr s k1 v1 k2 v2 (VNum v)) (m v)) /\
  (forall r, r \in trows t -> [&& cell t r "Transform" == VText tr, cell t r "Seed" == VNum s%:~R, cell t r k1 == v1 & cell t r k2 == v2] ->
     exists2 v, v \in vs & keyof t r = at_key tr s k1 v1 k2 v2 (VNum v)).
(** one of the two metrics *)
Definition metric_of (metric : string) (m : val * val) : val := if metric == "rmse"%string then m.1 else m.2.
