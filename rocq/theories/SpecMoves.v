(** Specification vocabulary for the copying and moving of keys and values. *)
From Coq Require Import List Arith ZArith Bool.
Import ListNotations.
From Verif Require Import Monad Types Model Api Spec Moves.
Set Implicit Arguments.

Section SpecMoves.
Context {K V : Type}.

(** Without the counters. *)
Definition uncounted {A} (r : res (tworld K V) A) : res (world K V) A :=
  match r with
  | Val a h => Val a (t_world h)
  | Exc e h => Exc e (t_world h)
  | Undef u => Undef u
  | Term e => Term e
  end.

(** Counting starts. *)
Definition uncharged (w : world K V) : tworld K V := MkT (MkTally 0 0 0 0) w.

Definition plus (s t : tally) : tally :=
  MkTally (key_copies s + key_copies t) (key_moves s + key_moves t)
          (val_copies s + val_copies t) (val_moves s + val_moves t).

(** The price of [m] insertions of which [new] add an element.  From const references:
    every value is copied, every new key too.  From arguments passed as [a] and [b]:
    what the caller asks for, a move into the table for a new element, and a copy of
    the value of an element already there. *)
Definition insert_price (m new : nat) : tally := MkTally new 0 m new.
Definition emplace_price (a b : passed) (m new : nat) : tally :=
  MkTally (match a with ByCopy => m | _ => 0 end)
          ((match a with ByMove => m | _ => 0 end) + new)
          ((match b with ByCopy => m | _ => 0 end) + (m - new))
          ((match b with ByMove => m | _ => 0 end) + new).

(** The call puts [l], one after the other, into a cache that is [s] when it begins
    to do so; [price]: what insertions of this kind cost. *)
Inductive stores (E : env K V) (w : world K V) (a b : passed) :
  op K V -> (nat -> nat -> tally) -> list (K * V) -> @lru K V -> Prop :=
| stores_insert c k v l0 n : contents E c w l0 -> capacity_is E c w n ->
    stores E w a b (Insert c k v) insert_price [(k, v)] (Lru n (rev l0))
| stores_emplace c k v l0 n : contents E c w l0 -> capacity_is E c w n ->
    stores E w a b (Emplace c k v) (emplace_price a b) [(k, v)] (Lru n (rev l0))
| stores_range c l l0 n : contents E c w l0 -> capacity_is E c w n ->
    stores E w a b (InsertRange c l) insert_price l (Lru n (rev l0))
| stores_rvalue c l l0 n : contents E c w l0 -> capacity_is E c w n ->
    stores E w a b (InsertMove c l) (emplace_price ByMove ByMove) l (Lru n (rev l0))
| stores_assign c l n : alive w c = true -> capacity_is E c w n ->
    stores E w a b (AssignRange c l) insert_price l (Lru (Nat.max n (length l)) [])
| stores_assign_rvalue c l n : alive w c = true -> capacity_is E c w n ->
    stores E w a b (AssignMove c l) (emplace_price ByMove ByMove) l (Lru (Nat.max n (length l)) [])
| stores_new o ttl cap l : builds ttl o cap l -> In o [NewFrom cap ttl l; NewIters ttl l; NewList ttl l] ->
    stores E w a b o insert_price l (Lru cap [])
| stores_new_rvalue o ttl cap l : builds ttl o cap l -> In o [NewMove cap ttl l; NewRvalue ttl l] ->
    stores E w a b o (emplace_price ByMove ByMove) l (Lru cap []).

(** How many insertions a cache does: all, or none if its capacity is 0. *)
Definition done (l : list (K * V)) (s : @lru K V) : nat := if Nat.eqb (lcap s) 0 then 0 else length l.

End SpecMoves.
