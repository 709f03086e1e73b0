(** Model of the function objects of a cache: programs in which HashFunction and KeyEqual
    are types with many values (function pointers, std::function, objects with state), so
    that two caches of the same type may compare and hash keys differently.
    base-cache.hpp (bc) 341-527, 571-583, 1220-1227, 1568-1583; last-accessed.hpp (la)
    70-125, 234-249; cache.hpp, timed-cache.hpp (their constructors pass the objects on).

    A cache stores the objects twice: in _map (hash and equality, bc:1568) and, the
    equality, in _last_accessed (la:125, 249).  A number stands for a pair of a hash function and
    the equality it goes with; objects that behave alike have the same number, and 0 is the
    value-initialised pair (HashFunction(), KeyEqual()).

    The caches and what they do are those of [Model.v].  Its keys are pairs of the number of
    the objects of the cache that stores the key, and the key; the KeyEqual of its environment
    compares keys with the object they carry (see [compares_by]).  A cache compares keys that
    it stores with keys that are handed to it, which [call] marks with the number of the cache's
    objects.

    Simplifications: a cache whose two copies differ has no meaning here ([MixedFunctions]; that
    this never happens is proved); comparing two caches whose objects differ is undefined, as for
    std::unordered_map; a null function pointer is called by every search of the hash map and by
    no other call ([searches]). *)
From Coq Require Import List Arith ZArith Bool.
Import ListNotations.
From Verif Require Import Monad Types Model Api.
Local Open Scope cpp_scope.
Set Implicit Arguments.

(** The same call, and the same result, with other keys. *)
Definition map_keys {K L V} (f : K -> L) (l : list (K * V)) : list (L * V) := map (fun p => (f (fst p), snd p)) l.
Definition map_op {K L V} (f : K -> L) (o : op K V) : op L V :=
  match o with
  | New n t => New n t | NewFrom n t l => NewFrom n t (map_keys f l) | NewIters t l => NewIters t (map_keys f l)
  | NewMove n t l => NewMove n t (map_keys f l) | NewRvalue t l => NewRvalue t (map_keys f l)
  | NewList t l => NewList t (map_keys f l)
  | Copy c => Copy c | Move c => Move c | Destroy c => Destroy c
  | CopyAssign c d => CopyAssign c d | MoveAssign c d => MoveAssign c d | Swap c d => Swap c d
  | AssignRange c l => AssignRange c (map_keys f l) | AssignMove c l => AssignMove c (map_keys f l)
  | Insert c k v => Insert c (f k) v | Emplace c k v => Emplace c (f k) v
  | InsertRange c l => InsertRange c (map_keys f l) | InsertMove c l => InsertMove c (map_keys f l)
  | Find c k => Find c (f k) | FindEntry c k => FindEntry c (f k) | Contains c k => Contains c (f k)
  | Lookup c k => Lookup c (f k) | Write c k v => Write c (f k) v
  | Erase c k => Erase c (f k) | EraseFound c k => EraseFound c (f k)
  | EraseOrdered c n => EraseOrdered c n | EraseUnordered c n => EraseUnordered c n
  | Clear c => Clear c | Shrink c n => Shrink c n | SetCapacity c n => SetCapacity c n
  | ClearExpired c => ClearExpired c
  | Size c => Size c | Capacity c => Capacity c | SpaceLeft c => SpaceLeft c | IsEmpty c => IsEmpty c
  | IsFull c => IsFull c | Front c => Front c | Back c => Back c | HasExpired c k => HasExpired c (f k)
  | AllExpired c => AllExpired c | Equal c d => Equal c d
  | Ordered c => Ordered c | Backward c => Backward c | Unordered c => Unordered c
  | EntryAt c n => EntryAt c n | ValidAt c n => ValidAt c n
  | MonitorNew c ks => MonitorNew c (map f ks) | MonitorShared c s => MonitorShared c s
  | StopMonitoring c => StopMonitoring c | IsMonitoring c => IsMonitoring c | Totals c => Totals c
  | StatsFor c k => StatsFor c (f k) | StatsMonitor c k => StatsMonitor c (f k)
  | StatsUnmonitor c k => StatsUnmonitor c (f k) | StatsUnmonitorAll c => StatsUnmonitorAll c
  | StatsResetKey c k => StatsResetKey c (f k) | StatsIsMonitoring c k => StatsIsMonitoring c (f k)
  | StatsNumber c => StatsNumber c
  | AddHit c i => AddHit c i | AddMiss c i => AddMiss c i | AddAccess c i => AddAccess c i
  | ClearHit c => ClearHit c | ClearMiss c => ClearMiss c | ClearAccess c => ClearAccess c
  | ClearCallbacks c => ClearCallbacks c
  end.
Definition map_out {K L V} (f : K -> L) (r : out K V) : out L V :=
  let pr (p : K * V) := (f (fst p), snd p) in
  match r with
  | RIll => RIll | RUnit => RUnit | RBool b => RBool b | RNat n => RNat n | RZ z => RZ z
  | RKey k => RKey (f k) | RVal v => RVal v
  | ROpt e => ROpt (option_map pr e) | RIns b e => RIns b (option_map pr e) | REnts l => REnts (map pr l)
  | RKeyStats h m a => RKeyStats h m a | RTotals a h m => RTotals a h m
  end.

Section FunObj.
Context {K V : Type}.
Notation key := (nat * K)%type.
Notation world := (world key V).
Variable E : env key V.
(** Not a null pointer. *)
Variable callable : nat -> bool.

Inductive fop : Type :=
| FNew (i : nat) (o : op K V)            (* a constructor given the objects i *)
| FCall (o : op K V)                     (* any other call *)
| FDirect (d : nat)                      (* Cache e(d), d an LRU::Cache that is not const *)
| FObjects (c : nat).                    (* c.hash_function(), c.key_equal() *)

Record fstate : Type := MkF {
  f_world : world;
  f_map : nat -> nat;                    (* the objects of _map (bc:1568) of each cache *)
  f_last : nat -> nat                    (* the equality in _last_accessed (la:249) *)
}.
Definition init_fstate : fstate := MkF (@init_world key V) (fun _ => 0) (fun _ => 0).
Notation FM := (M fstate).

Definition in_world {A} (m : M world A) : FM A := fun st =>
  match m (f_world st) with
  | Val a w => Val a (MkF w (f_map st) (f_last st))
  | Exc e w => Exc e (MkF w (f_map st) (f_last st))
  | Undef u => Undef u
  | Term e => Term e
  end.
Definition put (c i : nat) (t : nat -> nat) : nat -> nat := fun x => if Nat.eqb x c then i else t x.

(** bc:348-351: the members are built from the arguments. *)
Definition init_objects (c i : nat) : FM unit :=
  modify (fun st => MkF (f_world st) (put c i (f_map st)) (put c i (f_last st))).
(** bc:490-498, 507-519: _map and _last_accessed (a struct, copied by members) are copied with the
    objects in them. *)
Definition copy_objects (c d : nat) : FM unit :=
  modify (fun st => MkF (f_world st) (put c (f_map st d) (f_map st)) (put c (f_last st d) (f_last st))).
(** bc:575-576: swap of two unordered_maps, and of two LastAccessed, exchanges the objects. *)
Definition swap_objects (c d : nat) : FM unit :=
  modify (fun st => MkF (f_world st)
    (put d (f_map st c) (put c (f_map st d) (f_map st)))
    (put d (f_last st c) (put c (f_last st d) (f_last st)))).

(** Calls that compute the hash of a key, or compare keys, even in an empty cache. *)
Definition nonempty {A} (l : list A) : bool := match l with [] => false | _ => true end.
Definition searches (o : op K V) : bool :=
  match o with
  | NewFrom _ _ l | NewIters _ l | NewMove _ _ l | NewRvalue _ l | NewList _ l
  | AssignRange _ l | AssignMove _ l | InsertRange _ l | InsertMove _ l => nonempty l
  | Insert _ _ _ | Emplace _ _ _ | Find _ _ | FindEntry _ _ | Contains _ _ | Lookup _ _ | Write _ _ _
  | Erase _ _ | EraseFound _ _ | HasExpired _ _ => true
  | _ => false
  end.

(** The call on a cache whose objects are [i]. *)
Definition with_objects (i : nat) (o : op K V) : FM (out key V) :=
  if searches o && negb (callable i) then undef NullPointer
  else in_world (exec E (map_op (pair i) o)).

(** bc:341-486: the constructors; all reach bc:348-351 first. *)
Definition constructor (o : op K V) : bool :=
  match o with
  | New _ _ | NewFrom _ _ _ | NewIters _ _ | NewMove _ _ _ | NewRvalue _ _ | NewList _ _ => true
  | _ => false
  end.
Definition construct (i : nat) (o : op K V) : FM (out key V) :=
  r <- with_objects i o;;
  match r with RNat c => init_objects c i;;; ret r | _ => ret r end.

(** The first cache a call names. *)
Definition receiver (o : op K V) : nat :=
  match o with
  | New _ _ | NewFrom _ _ _ | NewIters _ _ | NewMove _ _ _ | NewRvalue _ _ | NewList _ _ => 0
  | CopyAssign c _ | MoveAssign c _ | Swap c _ | Equal c _
  | Copy c | Move c | Destroy c | AssignRange c _ | AssignMove c _
  | Insert c _ _ | Emplace c _ _ | InsertRange c _ | InsertMove c _
  | Find c _ | FindEntry c _ | Contains c _ | Lookup c _ | Write c _ _
  | Erase c _ | EraseFound c _ | EraseOrdered c _ | EraseUnordered c _
  | Clear c | Shrink c _ | SetCapacity c _ | ClearExpired c | Size c | Capacity c | SpaceLeft c
  | IsEmpty c | IsFull c | Front c | Back c | HasExpired c _ | AllExpired c
  | Ordered c | Backward c | Unordered c | EntryAt c _ | ValidAt c _
  | MonitorNew c _ | MonitorShared c _ | StopMonitoring c | IsMonitoring c
  | Totals c | StatsFor c _ | StatsMonitor c _ | StatsUnmonitor c _ | StatsUnmonitorAll c
  | StatsResetKey c _ | StatsIsMonitoring c _ | StatsNumber c
  | AddHit c _ | AddMiss c _ | AddAccess c _ | ClearHit c | ClearMiss c | ClearAccess c
  | ClearCallbacks c => c
  end.

(** What a call does to the objects, once it has returned [r]. *)
Definition move_objects (o : op K V) (r : out key V) : FM unit :=
  match o, r with
  | Copy d, RNat e => copy_objects e d
  | CopyAssign c d, RUnit => copy_objects c d
  (* bc:501-504: default initialisers, then swap *)
  | Move d, RNat e => init_objects e 0;;; swap_objects e d
  (* bc:522-526, 571-583 *)
  | MoveAssign c d, RUnit | Swap c d, RUnit => swap_objects c d
  | _, _ => ret tt
  end.
(** bc:594-597: _map != other._map, after the test for the same cache. *)
Definition comparable (o : op K V) (st : fstate) : bool :=
  match o with
  | Equal c d => Nat.eqb c d || Nat.eqb (f_map st c) (f_map st d)
  | _ => true
  end.
Definition call (o : op K V) : FM (out key V) := fun st =>
  let i := f_map st (receiver o) in
  if negb (well_formed (f_world st) (map_op (pair i) o)) then Val RIll st
  else if negb (Nat.eqb i (f_last st (receiver o))) || negb (comparable o st) then Undef MixedFunctions
  else (r <- with_objects i o;; move_objects o r;;; ret r) st.

(** cache.hpp:127-132 with bc:420-426, 377-390: the elements are inserted in the order of d's hash map into
    a cache built with the default arguments ([C76] shows that reading d while building is the
    same as reading it before). *)
Definition direct (d : nat) : FM (out key V) := fun st =>
  if timed (f_world st) d then Val RIll st
  else match exec E (Unordered d) (f_world st) with
       | Val (REnts l) w => construct 0 (NewIters None (map_keys snd l)) (MkF w (f_map st) (f_last st))
       | Val _ _ => Val RIll st
       | Exc e w => Exc e (MkF w (f_map st) (f_last st))
       | Undef u => Undef u
       | Term e => Term e
       end.
(** bc:1220-1227: _map.hash_function(), _map.key_eq(). *)
Definition objects (c : nat) : FM (out key V) := fun st =>
  if alive (f_world st) c then Val (RNat (f_map st c)) st else Val RIll st.

Definition fexec (p : fop) : FM (out K V) :=
  r <- match p with
       | FNew i o => if constructor o then construct i o else ret RIll
       | FCall o => if constructor o then construct 0 o else call o
       | FDirect d => direct d
       | FObjects c => objects c
       end;;
  ret (map_out snd r).

(** Programs: the client catches every exception and goes on. *)
Inductive fhist : Type :=
| FFinished (outs : list (outcome K V)) (st : fstate)
| FUndefined (outs : list (outcome K V)) (u : ub)
| FTerminated (outs : list (outcome K V)) (e : exn).
Definition fpush (o : outcome K V) (h : fhist) : fhist :=
  match h with
  | FFinished l w => FFinished (o :: l) w
  | FUndefined l u => FUndefined (o :: l) u
  | FTerminated l e => FTerminated (o :: l) e
  end.
Fixpoint f_run (l : list fop) (st : fstate) : fhist :=
  match l with
  | [] => FFinished [] st
  | p :: t =>
      match fexec p st with
      | Val r st' => fpush (Returned r) (f_run t st')
      | Exc e st' => fpush (Threw e) (f_run t st')
      | Undef u => FUndefined [] u
      | Term e => FTerminated [] e
      end
  end.

End FunObj.
Arguments fop : clear implicits.
Arguments fstate : clear implicits.
Arguments fhist : clear implicits.
