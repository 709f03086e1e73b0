(** Vocabulary for stating what the hash of tuples promises. *)
From Coq Require Import List ZArith.
Import ListNotations.
From Verif Require Import Hash.
Local Open Scope Z_scope.

(** A number that fits in a size_t. *)
Definition is_size_t (z : Z) : Prop := 0 <= z < 18446744073709551616.

(** std::hash of the element type returns a size_t and respects ==. *)
Definition lawful (T : elem) : Prop :=
  (forall x, is_size_t (el_hash T x)) /\
  (forall x y, el_eqb T x y = true -> el_hash T x = el_hash T y).

(** Every size_t is the hash of some value, as for 64-bit integers with the
    identity as hash. *)
Definition covers (T : elem) : Prop :=
  forall h, is_size_t h -> exists x, el_hash T x = h.

(** The tuple made of the elements of [p], then [x], then those of [q]. *)
Fixpoint around {Ps : list elem} {T : elem} {Qs : list elem} :
  tuple Ps -> el_type T -> tuple Qs -> tuple (Ps ++ T :: Qs) :=
  match Ps with
  | [] => fun _ x q => (x, q)
  | P :: Ps => fun p x q => (fst p, around (snd p) x q)
  end.
