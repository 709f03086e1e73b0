(** The functions of Model.v that store keys and values, written once more with the
    copying and moving of Key and Value objects made visible (counted).

    How an argument of emplace reaches the constructor of Key or Value is its
    [passed] kind.  Simplifications: copies and moves that C++14 lets the compiler
    elide are elided (utility.hpp:51-76 and bc:1047 return and initialise from
    prvalues), Key and Value have move constructors; when a call throws, the
    constructors it called before are counted, the one that threw is too.

    Abbreviations as in Model.v.  Each function is its namesake of Model.v, which
    has the comments on the rest. *)
From Coq Require Import List Arith ZArith Bool.
Import ListNotations.
From Verif Require Import Monad Types Model Api.
Set Implicit Arguments.
Local Open Scope cpp_scope.

(** An argument of emplace: an lvalue of type Key (Value), an rvalue of it, or
    arguments of another kind, from which the constructor makes an object. *)
Inductive passed : Type := ByCopy | ByMove | ByParts.

(** Copies (constructions and assignments) and moves so far. *)
Record tally : Type := MkTally { key_copies : nat; key_moves : nat; val_copies : nat; val_moves : nat }.

Section Moves.
Context {K V : Type}.
Variable E : env K V.

Record tworld : Type := MkT { t_tally : tally; t_world : world K V }.
Notation T := (M tworld).

(** A part of the code that copies and moves no Key and no Value. *)
Definition tlift {A} (m : M (world K V) A) : T A := fun h =>
  match m (t_world h) with
  | Val a w => Val a (MkT (t_tally h) w)
  | Exc e w => Exc e (MkT (t_tally h) w)
  | Undef u => Undef u
  | Term e => Term e
  end.
Definition tick (f : tally -> tally) : T unit := modify (fun h => MkT (f (t_tally h)) (t_world h)).
Definition copy_key : T unit :=
  tick (fun t => MkTally (S (key_copies t)) (key_moves t) (val_copies t) (val_moves t)).
Definition move_key : T unit :=
  tick (fun t => MkTally (key_copies t) (S (key_moves t)) (val_copies t) (val_moves t)).
Definition copy_val : T unit :=
  tick (fun t => MkTally (key_copies t) (key_moves t) (S (val_copies t)) (val_moves t)).
Definition move_val : T unit :=
  tick (fun t => MkTally (key_copies t) (key_moves t) (val_copies t) (S (val_moves t))).

(** utility.hpp:51-76 construct_from_tuple, and information.hpp:137-143: the
    constructor receives what the caller passed (bc:1083-1086 forwards it). *)
Definition make_key (a : passed) : T unit :=
  match a with ByCopy => copy_key | ByMove => move_key | ByParts => ret tt end.
Definition make_val (a : passed) : T unit :=
  match a with ByCopy => copy_val | ByMove => move_val | ByParts => ret tt end.

(** bc:1407-1413 _move_to_front(MapIterator, const Value&): the value is assigned
    from a const reference *)
Definition t_move_to_front_value (c : nat) (i : miter) (v : V) : T unit :=
  n <- tlift (deref_it i);;
  tlift (move_to_front c (n_ord n));;;
  copy_val;;;
  tlift (fallible E);;;
  tlift (update_node (fst i) (fun n => MkNode (n_key n) v (n_ord n) (n_time n))).

(** bc:900-923 insert(key, value).  bc:911: Information(value) copies the value
    (information.hpp:53-56); unordered_map::emplace copies the key and moves the
    Information (information.hpp:87; implicit for TimedInformation) into the node. *)
Definition t_insert (c : nat) (k : K) (v : V) : T (bool * uiter) :=
  cap <- tlift (capacity c);;
  if Nat.eqb cap 0 then ret (false, unordered_end c)
  else
    i <- tlift (map_find E c k);;
    match i with
    | None =>
        copy_val;;;
        t <- tlift (timestamp E c);;
        copy_key;;;
        move_val;;;
        '(i, fresh) <- tlift (map_emplace E c (MkNode k v None t));;
        (if fresh then ret tt else undef AssertFailed);;;
        q <- tlift (insert_new_key E c (fst i));;
        tlift (set_node_order (fst i) q);;;
        tlift (deref_it i);;;
        tlift (set_last c (Some (fst i)));;;
        ret (true, uiter_of c (Some i))
    | Some i =>
        t_move_to_front_value c i v;;;
        tlift (deref_it i);;;
        tlift (set_last c (Some (fst i)));;;
        ret (false, uiter_of c (Some i))
    end.

(** bc:1042-1087 emplace.  bc:1047 makes the key; bc:1051 makes the value inside an
    Information and moves both into the node; bc:1059-1060 makes the value, which
    is then assigned by _move_to_front. *)
Definition t_emplace (c : nat) (a b : passed) (k : K) (v : V) : T (bool * uiter) :=
  cap <- tlift (capacity c);;
  if Nat.eqb cap 0 then ret (false, unordered_end c)
  else
    make_key a;;;
    tlift (fallible E);;;
    i <- tlift (map_find E c k);;
    match i with
    | None =>
        make_val b;;;
        t <- tlift (timestamp E c);;
        move_key;;;
        move_val;;;
        '(i, fresh) <- tlift (map_emplace E c (MkNode k v None t));;
        q <- tlift (insert_new_key E c (fst i));;
        tlift (set_node_order (fst i) q);;;
        (if fresh then ret tt else undef AssertFailed);;;
        tlift (deref_it i);;;
        tlift (set_last c (Some (fst i)));;;
        ret (true, uiter_of c (Some i))
    | Some i =>
        make_val b;;;
        tlift (fallible E);;;
        t_move_to_front_value c i v;;;
        tlift (deref_it i);;;
        tlift (set_last c (Some (fst i)));;;
        ret (false, uiter_of c (Some i))
    end.

(** bc:938-968, 1003-1005 insert(begin, end), insert(Range&), insert(list) *)
Definition t_insert_range (c : nat) (l : list (K * V)) : T nat :=
  foldM (fun cnt p => r <- t_insert c (fst p) (snd p);;
                      ret (if fst r then S cnt else cnt)) l 0.

(** bc:979-989 insert(Range&&): the elements of the range are pairs of Key and Value *)
Definition t_insert_move (c : nat) (l : list (K * V)) : T nat :=
  foldM (fun cnt p => r <- t_emplace c ByMove ByMove (fst p) (snd p);;
                      ret (if fst r then S cnt else cnt)) l 0.

(** bc:541-545, 564-566 and bc:554-558: assignment from a range *)
Definition t_assign_range (c : nat) (l : list (K * V)) : T unit :=
  tlift (clear_and_increase_capacity c (length l));;; t_insert_range c l;;; ret tt.
Definition t_assign_move (c : nat) (l : list (K * V)) : T unit :=
  tlift (clear_and_increase_capacity c (length l));;; t_insert_move c l;;; ret tt.

(** bc:362-369 and the other constructors from ranges *)
Definition t_with_new (cap : nat) (ttl : option Z) (body : nat -> T nat) : T nat :=
  c <- tlift (new_cache cap ttl);;
  fun w => match body c w with
           | Exc e w' => (tlift (destroy c);;; throw e) w'
           | Val _ w' => Val c w'
           | Undef u => Undef u
           | Term e => Term e
           end.
Definition t_new_from (cap : nat) (ttl : option Z) (l : list (K * V)) : T nat :=
  t_with_new cap ttl (fun c => t_insert_range c l).
Definition t_new_from_move (cap : nat) (ttl : option Z) (l : list (K * V)) : T nat :=
  t_with_new cap ttl (fun c => t_insert_move c l).

(** The calls covered; [a], [b]: how the key and the value are passed to emplace. *)
Definition storing (o : op K V) : bool :=
  match o with
  | Insert _ _ _ | Emplace _ _ _ | InsertRange _ _ | InsertMove _ _ | AssignRange _ _ | AssignMove _ _
  | NewFrom _ _ _ | NewIters _ _ | NewMove _ _ _ | NewRvalue _ _ | NewList _ _ => true
  | _ => false
  end.
Definition t_body (a b : passed) (o : op K V) : T (out K V) :=
  match o with
  | Insert c k v => r <- t_insert c k v;; e <- tlift (denotes c (snd r));; ret (RIns (fst r) e)
  | Emplace c k v => r <- t_emplace c a b k v;; e <- tlift (denotes c (snd r));; ret (RIns (fst r) e)
  | InsertRange c l => n <- t_insert_range c l;; ret (RNat n)
  | InsertMove c l => n <- t_insert_move c l;; ret (RNat n)
  | AssignRange c l => t_assign_range c l;;; ret RUnit
  | AssignMove c l => t_assign_move c l;;; ret RUnit
  | NewFrom cap ttl l => c <- t_new_from cap ttl l;; ret (RNat c)
  | NewIters ttl l => c <- t_new_from (Nat.max (length l) DEFAULT_CAPACITY) ttl l;; ret (RNat c)
  | NewMove cap ttl l => c <- t_new_from_move cap ttl l;; ret (RNat c)
  | NewRvalue ttl l => c <- t_new_from_move (length l) ttl l;; ret (RNat c)
  | NewList ttl l => c <- t_new_from (length l) ttl l;; ret (RNat c)
  | _ => tlift (body E o)
  end.
Definition t_exec (a b : passed) (o : op K V) : T (out K V) := fun h =>
  if well_formed (t_world h) o then t_body a b o h else Val RIll h.

End Moves.
Arguments tworld : clear implicits.
