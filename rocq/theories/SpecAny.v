(** Vocabulary for histories in which caches may be copied. *)
From Coq Require Import List Arith ZArith Bool Permutation.
Import ListNotations.
From Verif Require Import Monad Types Model Api Spec.
Set Implicit Arguments.

Section SpecAny.
Context {K V : Type}.
Variable E : env K V.
Notation world := (world K V).

(** Worlds a program can reach by any calls, copy construction and copy
    assignment included, which may return or throw, and by assignments to the
    value of an element. *)
Inductive attained : world -> Prop :=
| att_init : attained init_world
| att_return w o r w' : attained w -> exec E o w = Val r w' -> attained w'
| att_throw w o e w' : attained w -> exec E o w = Exc e w' -> attained w'
| att_write w p v w' : attained w ->
    update_node p (fun n => MkNode (n_key n) v (n_ord n) (n_time n)) w = Val tt w' -> attained w'.

(** Cache [c] can be read from end to end, and every way of reading it tells of
    the same elements [l] (least recently used first) and capacity [n].  (Only
    LRU::Cache has front() and back().) *)
Record coherent (c : nat) (w : world) (l : list (K * V)) (n : nat) : Prop := {
  co_ordered : exec E (Ordered c) w = Val (REnts l) w;
  co_backward : exec E (Backward c) w = Val (REnts (rev l)) w;
  co_unordered : exists u, exec E (Unordered c) w = Val (REnts u) w /\ Permutation u l;
  co_size : exec E (Size c) w = Val (RNat (length l)) w;
  co_capacity : exec E (Capacity c) w = Val (RNat n) w;
  co_bound : length l <= n;
  co_distinct : distinct E l;
  co_empty : exec E (IsEmpty c) w = Val (RBool (Nat.eqb (length l) 0)) w;
  co_full : exec E (IsFull c) w = Val (RBool (Nat.eqb (length l) n)) w;
  co_space : (Z.of_nat n < 2 ^ 64)%Z -> exec E (SpaceLeft c) w = Val (RZ (Z.of_nat n - Z.of_nat (length l))) w;
  co_front : ttl_of c w None -> forall p t, rev l = p :: t -> exec E (Front c) w = Val (RKey (fst p)) w;
  co_back : ttl_of c w None -> forall p t, l = p :: t -> exec E (Back c) w = Val (RKey (fst p)) w
}.
End SpecAny.
