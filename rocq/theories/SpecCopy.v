(** Vocabulary for copies. *)
From Coq Require Import List Arith ZArith Bool.
Import ListNotations.
From Verif Require Import Monad Types Model Api Spec.
Set Implicit Arguments.

Section SpecCopy.
Context {K V : Type}.
Notation world := (world K V).
Notation store := (store K V).
Notation mnode := (mnode K V).

(** Map nodes that differ at most in the list iterator they hold. *)
Definition same_node (n n' : mnode) : Prop :=
  n_key n = n_key n' /\ n_val n = n_val n' /\ n_time n = n_time n'.
Definition same_row (p p' : nat * mnode) : Prop := fst p = fst p' /\ same_node (snd p) (snd p').
Definition same_store (s s' : store) : Prop :=
  Forall2 same_row (s_map s) (s_map s') /\ s_ord s = s_ord s' /\ s_next s = s_next s' /\ s_epoch s = s_epoch s'.

Variable E : env K V.

(** Where the hash table puts a node, and when it grows, does not depend on the
    list iterators held by its nodes. *)
Record hash_blind : Prop := {
  place_blind : forall l l' i n n', Forall2 same_row l l' -> same_node n n' ->
                Forall2 same_row (place E l (i, n)) (place E l' (i, n'));
  rehash_blind : forall s s', same_store s s' -> rehash E s = rehash E s'
}.

(** Calls on a copy [d] that do not need the list iterators stored in its nodes,
    nor its record of the last accessed element: observers, insertion and search
    of keys that are not there, clearing, assigning elements, enlarging,
    monitoring, registration of callbacks, destruction. *)
Inductive harmless (d : nat) (w : world) : op K V -> Prop :=
| hl_observe o : observer o = true -> harmless d w o
| hl_insert l k v : contents E d w l -> has E k l = false -> harmless d w (Insert d k v)
| hl_emplace l k v : contents E d w l -> has E k l = false -> harmless d w (Emplace d k v)
| hl_find l k : contents E d w l -> has E k l = false -> harmless d w (Find d k)
| hl_grow l n : contents E d w l -> length l <= n -> harmless d w (SetCapacity d n)
| hl_clear : harmless d w (Clear d)
| hl_assign l : harmless d w (AssignRange d l)
| hl_assign_move l : harmless d w (AssignMove d l)
| hl_destroy : harmless d w (Destroy d)
| hl_monitor ks : harmless d w (MonitorNew d ks)
| hl_monitor_shared i : harmless d w (MonitorShared d i)
| hl_stop : harmless d w (StopMonitoring d)
| hl_stat o : registers o = true ->
    match o with Find _ _ | FindEntry _ _ | Contains _ _ | Lookup _ _ | Write _ _ _ | EraseFound _ _ => False
               | _ => True end -> harmless d w o
| hl_add_hit i : harmless d w (AddHit d i)
| hl_add_miss i : harmless d w (AddMiss d i)
| hl_add_access i : harmless d w (AddAccess d i)
| hl_clear_hit : harmless d w (ClearHit d)
| hl_clear_miss : harmless d w (ClearMiss d)
| hl_clear_access : harmless d w (ClearAccess d)
| hl_clear_callbacks : harmless d w (ClearCallbacks d).


(** [d] is a copy of [c], made by the copy constructor or by copy assignment. *)
Inductive copies (c d : nat) (w w' : world) : Prop :=
| copies_new : exec E (Copy c) w = Val (RNat d) w' -> copies c d w w'
| copies_assign : c <> d -> exec E (CopyAssign d c) w = Val RUnit w' -> copies c d w w'.

(** Cache [d] of world [w'] has the statistics object, the callbacks and the time
    to live of cache [c] of world [w]. *)
Definition same_books (c : nat) (w : world) (d : nat) (w' : world) : Prop :=
  exists x y, slot (w_caches w) c = Some x /\ slot (w_caches w') d = Some y /\
              c_stats x = c_stats y /\ c_cbs x = c_cbs y /\ c_ttl x = c_ttl y.

(** Calls that give the copy [d] new elements, list iterators included. *)
Inductive resets (d : nat) : op K V -> Prop :=
| resets_clear : resets d (Clear d)
| resets_assign l : resets d (AssignRange d l)
| resets_assign_move l : resets d (AssignMove d l)
| resets_destroy : resets d (Destroy d).

(** A history, begun in world [w], that uses the copy [d] with care: other caches
    are used at will, [d] itself only by harmless calls until it is reset. *)
Inductive careful (d : nat) : list (op K V) -> world -> Prop :=
| careful_nil w : careful d [] w
| careful_other o t w : copy_free o = true -> ~ In d (mentions o) ->
    (forall r w', call E o w r w' -> careful d t w') -> careful d (o :: t) w
| careful_harmless o t w : harmless d w o ->
    (forall r w', call E o w r w' -> careful d t w') -> careful d (o :: t) w
| careful_reset o t w : resets d o -> forallb copy_free t = true -> careful d (o :: t) w.

(** The same call on two caches. *)
Inductive same_call (c d : nat) : op K V -> op K V -> Prop :=
| sc_lru x : same_call c d (on c x) (on d x)
| sc_has_expired k : same_call c d (HasExpired c k) (HasExpired d k)
| sc_all_expired : same_call c d (AllExpired c) (AllExpired d)
| sc_clear_expired : same_call c d (ClearExpired c) (ClearExpired d)
| sc_is_monitoring : same_call c d (IsMonitoring c) (IsMonitoring d)
| sc_totals : same_call c d (Totals c) (Totals d)
| sc_stats_for k : same_call c d (StatsFor c k) (StatsFor d k)
| sc_stop : same_call c d (StopMonitoring c) (StopMonitoring d)
| sc_add_hit i : same_call c d (AddHit c i) (AddHit d i)
| sc_add_miss i : same_call c d (AddMiss c i) (AddMiss d i)
| sc_add_access i : same_call c d (AddAccess c i) (AddAccess d i)
| sc_clear_callbacks : same_call c d (ClearCallbacks c) (ClearCallbacks d).

End SpecCopy.
