(** The client's view: calls of the public interface, and histories of them.

    A history is a list of calls.  Cache objects and statistics objects are named
    by the number they received when they were created.  Calls that could not
    be written in a C++ program (on an object that does not exist, mixing
    LRU::Cache and LRU::TimedCache, front() of a TimedCache, ...) have the
    outcome [RIll] and no effect, so an undefined outcome of a history is never
    due to such a call. *)

From Coq Require Import List Arith ZArith Bool.
Import ListNotations.
From Verif Require Import Monad Types Model.
Set Implicit Arguments.
Local Open Scope cpp_scope.

Section Api.
Context {K V : Type}.

Notation world := (world K V).
Notation env := (env K V).
Notation M := (M world).

(** What a call returns. *)
Inductive out : Type :=
| RIll                                   (* not a C++ program *)
| RUnit
| RBool (b : bool)
| RNat (n : nat)
| RZ (z : Z)
| RKey (k : K)
| RVal (v : V)
| ROpt (e : option (K * V))              (* iterator: end, or what it denotes *)
| RIns (b : bool) (e : option (K * V))   (* InsertionResult *)
| REnts (l : list (K * V))
| RKeyStats (hits misses accesses : Z)
| RTotals (accesses hits misses : Z).

(** Calls.  [c], [d] are cache objects, [s] statistics objects. *)
Inductive op : Type :=
(* constructors; [ttl = None] is LRU::Cache, [Some d] LRU::TimedCache *)
| New (cap : nat) (ttl : option Z)
| NewFrom (cap : nat) (ttl : option Z) (l : list (K * V))
| NewIters (ttl : option Z) (l : list (K * V))
| NewMove (cap : nat) (ttl : option Z) (l : list (K * V))
| NewRvalue (ttl : option Z) (l : list (K * V))
| NewList (ttl : option Z) (l : list (K * V))
| Copy (c : nat)
| Move (c : nat)
| Destroy (c : nat)
(* assignment and swap *)
| CopyAssign (c d : nat)
| MoveAssign (c d : nat)
| Swap (c d : nat)
| AssignRange (c : nat) (l : list (K * V))
| AssignMove (c : nat) (l : list (K * V))
(* insertion *)
| Insert (c : nat) (k : K) (v : V)
| Emplace (c : nat) (k : K) (v : V)
| InsertRange (c : nat) (l : list (K * V))
| InsertMove (c : nat) (l : list (K * V))
(* access *)
| Find (c : nat) (k : K)                 (* *find(k), if not end() *)
| FindEntry (c : nat) (k : K)            (* find(k).entry() *)
| Contains (c : nat) (k : K)
| Lookup (c : nat) (k : K)
| Write (c : nat) (k : K) (v : V)        (* c[k] = v *)
(* removal *)
| Erase (c : nat) (k : K)
| EraseFound (c : nat) (k : K)           (* erase(find(k)) *)
| EraseOrdered (c : nat) (n : nat)       (* erase(ordered_begin() + n) *)
| EraseUnordered (c : nat) (n : nat)     (* erase(begin() + n) *)
| Clear (c : nat)
| Shrink (c : nat) (n : nat)
| SetCapacity (c : nat) (n : nat)
| ClearExpired (c : nat)
(* observation *)
| Size (c : nat)
| Capacity (c : nat)
| SpaceLeft (c : nat)
| IsEmpty (c : nat)
| IsFull (c : nat)
| Front (c : nat)
| Back (c : nat)
| HasExpired (c : nat) (k : K)
| AllExpired (c : nat)
| Equal (c d : nat)
| Ordered (c : nat)
| Backward (c : nat)
| Unordered (c : nat)
| EntryAt (c : nat) (n : nat)            (* (ordered_begin() + n).entry() *)
| ValidAt (c : nat) (n : nat)            (* is_valid(ordered_begin() + n) *)
(* monitoring *)
| MonitorNew (c : nat) (ks : list K)
| MonitorShared (c : nat) (s : nat)
| StopMonitoring (c : nat)
| IsMonitoring (c : nat)
| Totals (c : nat)
| StatsFor (c : nat) (k : K)
| StatsMonitor (c : nat) (k : K)
| StatsUnmonitor (c : nat) (k : K)
| StatsUnmonitorAll (c : nat)
| StatsResetKey (c : nat) (k : K)
| StatsIsMonitoring (c : nat) (k : K)
| StatsNumber (c : nat)
(* callbacks, named by number *)
| AddHit (c id : nat)
| AddMiss (c id : nat)
| AddAccess (c id : nat)
| ClearHit (c : nat)
| ClearMiss (c : nat)
| ClearAccess (c : nat)
| ClearCallbacks (c : nat).

(** Well-formedness of a call in a world. *)
Definition alive (w : world) (c : nat) : bool :=
  match slot (w_caches w) c with Some _ => true | None => false end.
Definition timed (w : world) (c : nat) : bool :=
  match slot (w_caches w) c with
  | Some x => match c_ttl x with Some _ => true | None => false end
  | None => false
  end.
Definition same_kind (w : world) (c d : nat) : bool :=
  alive w c && alive w d && Bool.eqb (timed w c) (timed w d).
Definition stats_alive (w : world) (s : nat) : bool :=
  match slot (w_stats w) s with Some _ => true | None => false end.

Definition well_formed (w : world) (o : op) : bool :=
  match o with
  | New _ _ | NewFrom _ _ _ | NewIters _ _ | NewMove _ _ _ | NewRvalue _ _
  | NewList _ _ => true
  | CopyAssign c d | MoveAssign c d | Swap c d | Equal c d => same_kind w c d
  | ClearExpired c | HasExpired c _ | AllExpired c => timed w c
  | Front c | Back c => alive w c && negb (timed w c)
  | MonitorShared c s => alive w c && stats_alive w s
  | Copy c | Move c | Destroy c | AssignRange c _ | AssignMove c _
  | Insert c _ _ | Emplace c _ _ | InsertRange c _ | InsertMove c _
  | Find c _ | FindEntry c _ | Contains c _ | Lookup c _ | Write c _ _
  | Erase c _ | EraseFound c _ | EraseOrdered c _ | EraseUnordered c _
  | Clear c | Shrink c _ | SetCapacity c _ | Size c | Capacity c | SpaceLeft c
  | IsEmpty c | IsFull c | Ordered c | Backward c | Unordered c | EntryAt c _
  | ValidAt c _ | MonitorNew c _ | StopMonitoring c | IsMonitoring c | Totals c
  | StatsFor c _ | StatsMonitor c _ | StatsUnmonitor c _ | StatsUnmonitorAll c
  | StatsResetKey c _ | StatsIsMonitoring c _ | StatsNumber c
  | AddHit c _ | AddMiss c _ | AddAccess c _ | ClearHit c | ClearMiss c
  | ClearAccess c | ClearCallbacks c => alive w c
  end.

Variable E : env.

(** What an iterator returned by find or insert denotes. *)
Definition denotes (c : nat) (it : uiter) : M (option (K * V)) :=
  if u_eq it (unordered_end c) then ret None
  else '(p, _) <- u_deref it;; e <- read_entry p;; ret (Some e).

(** The time to live of a timed cache. *)
Definition with_ttl (c : nat) (f : Z -> M out) : M out :=
  x <- get_cache c;;
  match c_ttl x with Some d => f d | None => ret RIll end.

(** A call on the Statistics object of a cache (through stats()). *)
Definition stats_update_or (c : nat) (f : statistics K -> option (statistics K)) : M out :=
  s <- stats c;; x <- get_stats s;;
  match f x with
  | Some x' => put_stats s x';;; ret RUnit
  | None => throw UnmonitoredKey
  end.

Definition body (o : op) : M out :=
  match o with
  | New cap ttl => c <- new_cache cap ttl;; ret (RNat c)
  | NewFrom cap ttl l => c <- new_from E cap ttl l;; ret (RNat c)
  | NewIters ttl l => c <- new_from_iters E ttl l;; ret (RNat c)
  | NewMove cap ttl l => c <- new_from_move E cap ttl l;; ret (RNat c)
  | NewRvalue ttl l => c <- new_from_rvalue E ttl l;; ret (RNat c)
  | NewList ttl l => c <- new_from_list E ttl l;; ret (RNat c)
  | Copy c => d <- copy_new E c;; ret (RNat d)
  | Move c => d <- move_new E c;; ret (RNat d)
  | Destroy c => destroy c;;; ret RUnit
  | CopyAssign c d => copy_assign E c d;;; ret RUnit
  | MoveAssign c d => move_assign c d;;; ret RUnit
  | Swap c d => swap c d;;; ret RUnit
  | AssignRange c l => assign_range E c l;;; ret RUnit
  | AssignMove c l => assign_move E c l;;; ret RUnit
  | Insert c k v => r <- insert E c k v;; e <- denotes c (snd r);; ret (RIns (fst r) e)
  | Emplace c k v => r <- emplace E c k v;; e <- denotes c (snd r);; ret (RIns (fst r) e)
  | InsertRange c l => n <- insert_range E c l;; ret (RNat n)
  | InsertMove c l => n <- insert_move E c l;; ret (RNat n)
  | Find c k => it <- find E c k;; e <- denotes c it;; ret (ROpt e)
  | FindEntry c k => it <- find E c k;; p <- u_entry E it;; e <- read_entry p;; ret (ROpt (Some e))
  | Contains c k => b <- contains E c k;; ret (RBool b)
  | Lookup c k => p <- lookup E c k;; n <- deref p;; ret (RVal (n_val n))
  | Write c k v =>
      p <- subscript E c k;;
      update_node p (fun n => MkNode (n_key n) v (n_ord n) (n_time n));;; ret RUnit
  | Erase c k => b <- erase_key E c k;; ret (RBool b)
  | EraseFound c k => it <- find E c k;; erase_u E c it;;; ret RUnit
  | EraseOrdered c n => it <- ordered_nth c n;; erase_o E c it;;; ret RUnit
  | EraseUnordered c n => it <- unordered_nth c n;; erase_u E c it;;; ret RUnit
  | Clear c => clear c;;; ret RUnit
  | Shrink c n => shrink E c n;;; ret RUnit
  | SetCapacity c n => set_capacity E c n;;; ret RUnit
  | ClearExpired c => with_ttl c (fun d => n <- clear_expired E c d;; ret (RNat n))
  | Size c => n <- size c;; ret (RNat n)
  | Capacity c => n <- capacity c;; ret (RNat n)
  | SpaceLeft c => z <- space_left c;; ret (RZ z)
  | IsEmpty c => b <- is_empty c;; ret (RBool b)
  | IsFull c => b <- is_full c;; ret (RBool b)
  | Front c => k <- front c;; ret (RKey k)
  | Back c => k <- back c;; ret (RKey k)
  | HasExpired c k => with_ttl c (fun d => b <- has_expired_key E c d k;; ret (RBool b))
  | AllExpired c => with_ttl c (fun d => b <- all_expired E c d;; ret (RBool b))
  | Equal c d => b <- equals E c d;; ret (RBool b)
  | Ordered c => l <- traverse_ordered E c;; ret (REnts l)
  | Backward c => l <- traverse_backward E c;; ret (REnts l)
  | Unordered c => l <- traverse_unordered c;; ret (REnts l)
  | EntryAt c n => it <- ordered_nth c n;; p <- o_entry E it;; e <- read_entry p;; ret (ROpt (Some e))
  | ValidAt c n => it <- ordered_nth c n;; b <- is_valid_o E c it;; ret (RBool b)
  | MonitorNew c ks => s <- monitor_new E c ks;; ret (RNat s)
  | MonitorShared c s => monitor_shared c s;;; ret RUnit
  | StopMonitoring c => stop_monitoring c;;; ret RUnit
  | IsMonitoring c => b <- is_monitoring c;; ret (RBool b)
  | Totals c => s <- stats c;; x <- get_stats s;;
                ret (RTotals (total_accesses x) (total_hits x) (total_misses x))
  | StatsFor c k => s <- stats c;; x <- get_stats s;;
      match stats_for E x k with
      | Some h => ret (RKeyStats (fst h) (snd h) (accesses_of h))
      | None => throw UnmonitoredKey
      end
  | StatsMonitor c k => stats_update_or c (fun x => Some (stats_monitor E k x))
  | StatsUnmonitor c k => stats_update_or c (stats_unmonitor E k)
  | StatsUnmonitorAll c => stats_update_or c (fun x => Some (stats_unmonitor_all x))
  | StatsResetKey c k => stats_update_or c (stats_reset_key E k)
  | StatsIsMonitoring c k => s <- stats c;; x <- get_stats s;; ret (RBool (stats_is_monitoring E x k))
  | StatsNumber c => s <- stats c;; x <- get_stats s;; ret (RNat (number_of_monitored_keys x))
  | AddHit c id => add_hit_callback c id;;; ret RUnit
  | AddMiss c id => add_miss_callback c id;;; ret RUnit
  | AddAccess c id => add_access_callback c id;;; ret RUnit
  | ClearHit c => clear_hit_callbacks c;;; ret RUnit
  | ClearMiss c => clear_miss_callbacks c;;; ret RUnit
  | ClearAccess c => clear_access_callbacks c;;; ret RUnit
  | ClearCallbacks c => clear_all_callbacks c;;; ret RUnit
  end.

Definition exec (o : op) : M out := fun w =>
  if well_formed w o then body o w else Val RIll w.

(** The outcome of a call inside a history. *)
Inductive outcome : Type := Returned (r : out) | Threw (e : exn).

(** The outcome of a history: the client catches every exception and goes on;
    undefined behaviour or std::terminate end it. *)
Inductive hist : Type :=
| Finished (outs : list outcome) (w : world)
| Undefined (outs : list outcome) (u : ub)
| Terminated (outs : list outcome) (e : exn).

Definition push (o : outcome) (h : hist) : hist :=
  match h with
  | Finished l w => Finished (o :: l) w
  | Undefined l u => Undefined (o :: l) u
  | Terminated l e => Terminated (o :: l) e
  end.

Fixpoint run (l : list op) (w : world) : hist :=
  match l with
  | [] => Finished [] w
  | o :: t =>
      match exec o w with
      | Val r w' => push (Returned r) (run t w')
      | Exc e w' => push (Threw e) (run t w')
      | Undef u => Undefined [] u
      | Term e => Terminated [] e
      end
  end.

End Api.

Arguments out : clear implicits.
Arguments op : clear implicits.
Arguments outcome : clear implicits.
Arguments hist : clear implicits.
