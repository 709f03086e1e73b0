(** Vocabulary: which calls may change the settings of a cache. *)
From Coq Require Import List Arith ZArith Bool.
Import ListNotations.
From Verif Require Import Monad Types Model Api Spec.
Set Implicit Arguments.

(** A user callback that is only recorded: it does nothing to the caches. *)
Definition passive {K V} (E : env K V) : Prop :=
  forall ev w, cb E ev w = Val tt (with_log (fun l => l ++ [ev]) w).

(** Is it one of the two? *)
Definition either (c d e : nat) : bool := Nat.eqb e c || Nat.eqb e d.

(** Calls that may change the capacity of cache [e]: capacity(n), assignment from
    a range, swap, move, assignment from a cache, and the end of its life. *)
Definition may_set_capacity {K V} (o : op K V) (e : nat) : bool :=
  match o with
  | SetCapacity c _ | AssignRange c _ | AssignMove c _ | Move c | Destroy c => Nat.eqb e c
  | CopyAssign c d => Nat.eqb e c && negb (Nat.eqb c d)
  | Swap c d | MoveAssign c d => either c d e && negb (Nat.eqb c d)
  | _ => false
  end.

(** Calls that may change the time to live of cache [e]. *)
Definition may_set_ttl {K V} (o : op K V) (e : nat) : bool :=
  match o with
  | Destroy c => Nat.eqb e c
  | CopyAssign c d | MoveAssign c d => Nat.eqb e c && negb (Nat.eqb c d)
  | Swap c d => either c d e && negb (Nat.eqb c d)
  | _ => false
  end.

(** Calls that may change what statistics object cache [e] feeds. *)
Definition may_set_monitor {K V} (o : op K V) (e : nat) : bool :=
  match o with
  | Destroy c | MonitorNew c _ | MonitorShared c _ | StopMonitoring c => Nat.eqb e c
  | CopyAssign c d => Nat.eqb e c && negb (Nat.eqb c d)
  | _ => false
  end.

(** Calls that may change the callbacks registered with cache [e]. *)
Definition may_set_callbacks {K V} (o : op K V) (e : nat) : bool :=
  match o with
  | Destroy c | AddHit c _ | AddMiss c _ | AddAccess c _ | ClearHit c | ClearMiss c | ClearAccess c
  | ClearCallbacks c => Nat.eqb e c
  | CopyAssign c d => Nat.eqb e c && negb (Nat.eqb c d)
  | _ => false
  end.

(** Calls that end the life of cache [e]. *)
Definition may_end {K V} (o : op K V) (e : nat) : bool :=
  match o with Destroy c => Nat.eqb e c | _ => false end.

(** None of the calls may do it to cache [e]. *)
Definition spares {K V} (may : op K V -> nat -> bool) (e : nat) (ops : list (op K V)) : bool :=
  forallb (fun o => negb (may o e)) ops.

Section SpecSettings.
Context {K V : Type}.
Notation world := (world K V).

(** The settings of a cache object. *)
Definition monitor_of (c : nat) (w : world) (s : option nat) : Prop :=
  exists x, slot (w_caches w) c = Some x /\ c_stats x = s.
Definition callbacks_of (c : nat) (w : world) (b : callbacks) : Prop :=
  exists x, slot (w_caches w) c = Some x /\ c_cbs x = b.

End SpecSettings.
