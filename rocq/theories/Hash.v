(** Model of /repo/include/lru/internal/hash.hpp: the hash of a std::tuple. *)
From Coq Require Import List ZArith.
Import ListNotations.
From Verif Require Import Model.
Local Open Scope Z_scope.

(** An element type of a tuple: its operator== and its std::hash (given; a
    size_t). *)
Record elem : Type := MkElem {
  el_type : Type;
  el_eqb : el_type -> el_type -> bool;
  el_hash : el_type -> Z
}.

(** std::tuple<Ts...> *)
Fixpoint tuple (Ts : list elem) : Type :=
  match Ts with
  | [] => unit
  | T :: Ts => (el_type T * tuple Ts)%type
  end.

(** operator== of std::tuple *)
Fixpoint tuple_eqb {Ts : list elem} : tuple Ts -> tuple Ts -> bool :=
  match Ts with
  | [] => fun _ _ => true
  | T :: Ts => fun x y => if el_eqb T (fst x) (fst y) then tuple_eqb (snd x) (snd y) else false
  end.

(** hash.hpp:51-52, the arithmetic: size_t has 64 bits, [<<] drops the bits that
    overflow, [>>] fills with zeros; 0x9e3779b9 is 2654435769. *)
Definition combine (current seed : Z) : Z :=
  wrap64 (wrap64 (wrap64 (current + 2654435769) + wrap64 (Z.shiftl seed 6)) + Z.shiftr seed 2).

(** hash.hpp:43-56 hash_tuple: recursion over the index sequence; the recursive
    call gets the rest of the indices. *)
Fixpoint hash_tuple {Ts : list elem} : tuple Ts -> Z :=
  match Ts with
  | [] => fun _ => 0
  | T :: Ts => fun x => combine (el_hash T (fst x)) (hash_tuple (snd x))
  end.
