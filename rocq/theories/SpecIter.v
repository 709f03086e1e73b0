(** Vocabulary for iterators and references. *)
From Coq Require Import List Arith ZArith Bool.
Import ListNotations.
From Verif Require Import Monad Types Model Api Spec.
Set Implicit Arguments.

(** Calls that insert no element into an existing cache. *)
Definition inserts_nothing {K V} (o : op K V) : bool :=
  match o with
  | Insert _ _ _ | Emplace _ _ _ | InsertRange _ _ | InsertMove _ _ | AssignRange _ _ | AssignMove _ _ => false
  | _ => true
  end.

Section SpecIter.
Context {K V : Type}.
Variable E : env K V.
Notation world := (world K V).

(** The elements of a cache in the order of begin(), ++, ..., end(). *)
Definition hash_order (c : nat) (w : world) (u : list (K * V)) : Prop :=
  exec E (Unordered c) w = Val (REnts u) w.

(** Reading key and value through a reference to an element. *)
Definition shows (p : mptr) (w : world) (k : K) (v : V) : Prop := read_entry p w = Val (k, v) w.

(** Dereferencing an iterator gives this element (whether or not it was
    dereferenced before). *)
Definition o_shows (it : oiter) (w : world) (k : K) (v : V) : Prop :=
  exists p it', o_deref E it w = Val (p, it') w /\ shows p w k v.
Definition u_shows (it : uiter) (w : world) (k : K) (v : V) : Prop :=
  exists p it', u_deref it w = Val (p, it') w /\ shows p w k v.

(** An iterator and the same iterator after it was dereferenced in [w]. *)
Definition o_used (w : world) (it it' : oiter) : Prop := it' = it \/ exists p, o_deref E it w = Val (p, it') w.
Definition u_used (w : world) (it it' : uiter) : Prop := it' = it \/ exists p, u_deref it w = Val (p, it') w.


(** Ways to get an unordered iterator for key [k]: find, insert, emplace, and
    walking from begin() to an element with that key. *)
Inductive iterator_for (c : nat) (k : K) (w : world) : uiter -> world -> Prop :=
| for_find it w1 : alive w c = true -> find E c k w = Val it w1 -> iterator_for c k w it w1
| for_insert v b it w1 : alive w c = true -> insert E c k v w = Val (b, it) w1 -> iterator_for c k w it w1
| for_emplace v b it w1 : alive w c = true -> emplace E c k v w = Val (b, it) w1 -> iterator_for c k w it w1
| for_walk u i k' v it : hash_order c w u -> nth_error u i = Some (k', v) -> key_equal E k k' = true ->
    unordered_nth c i w = Val it w -> iterator_for c k w it w.

(** Calls that may put elements with other keys than [k] into cache [c]. *)
Definition grows (c : nat) (k : K) (o : op K V) : bool :=
  match o with
  | Insert d j _ | Emplace d j _ => Nat.eqb c d && negb (key_equal E k j)
  | InsertRange d _ | InsertMove d _ | AssignRange d _ | AssignMove d _ => Nat.eqb c d
  | _ => false
  end.

(** It is not the past-the-end iterator (it != c.end()). *)
Definition not_end (c : nat) (it : uiter) : Prop := u_eq it (unordered_end c) = false.

End SpecIter.
