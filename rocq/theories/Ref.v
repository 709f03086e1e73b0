(** A pointer-free reference machine: caches are sequences of entries from least
    to most recently used.  It has no counterpart in the C++ code; Sim*.v prove
    that the transcription in Model.v behaves like it for every copy-free
    history, and the property theorems are derived from it.  No property is
    stated in terms of it. *)

From Coq Require Import List Arith ZArith Bool.
Import ListNotations.
From Verif Require Import Monad Types Model Api.
Set Implicit Arguments.
Local Open Scope cpp_scope.

Section Ref.
Context {K V : Type}.

Record entry : Type := Ent { e_key : K; e_val : V; e_time : Z }.

(** [a_hot]: the most recent entry is also the "last accessed" one. *)
Record acache : Type := MkA {
  a_ents : list entry;
  a_hot : bool;
  a_cap : nat;
  a_stats : option nat;
  a_cbs : callbacks;
  a_ttl : option Z
}.

Record aworld : Type := MkAW {
  aw_caches : list (option acache);
  aw_stats : list (option (statistics K));
  aw_log : list (cbevent K V);
  aw_reads : nat
}.

Definition init_aworld : aworld := MkAW [] [] [] 0.

Variable E : env K V.
Notation M := (M aworld).

Definition lookup_ent (k : K) (l : list entry) : option entry :=
  List.find (fun e => key_equal E k (e_key e)) l.
Definition remove_ent (k : K) (l : list entry) : list entry :=
  filter (fun e => negb (key_equal E k (e_key e))) l.
(** Last [n] elements. *)
Definition lastn {A} (n : nat) (l : list A) : list A := skipn (length l - n) l.
Definition last_ent (l : list entry) : option entry :=
  match rev l with [] => None | e :: _ => Some e end.
Definition pair_of (e : entry) : K * V := (e_key e, e_val e).

Definition a_get (c : nat) : M acache := fun w =>
  match slot (aw_caches w) c with Some x => Val x w | None => Undef DeadObject end.
Definition a_put (c : nat) (x : acache) : M unit :=
  modify (fun w => MkAW (upd (aw_caches w) c (Some x)) (aw_stats w) (aw_log w) (aw_reads w)).
Definition a_drop (c : nat) : M unit :=
  modify (fun w => MkAW (upd (aw_caches w) c None) (aw_stats w) (aw_log w) (aw_reads w)).
Definition a_new (x : acache) : M nat := fun w =>
  Val (length (aw_caches w))
      (MkAW (aw_caches w ++ [Some x]) (aw_stats w) (aw_log w) (aw_reads w)).
Definition a_now : M Z := fun w =>
  Val (clock E (aw_reads w))
      (MkAW (aw_caches w) (aw_stats w) (aw_log w) (S (aw_reads w))).
Definition a_getstats (s : nat) : M (statistics K) := fun w =>
  match slot (aw_stats w) s with Some x => Val x w | None => Undef NullPointer end.
Definition a_putstats (s : nat) (x : statistics K) : M unit :=
  modify (fun w => MkAW (aw_caches w) (upd (aw_stats w) s (Some x)) (aw_log w) (aw_reads w)).
Definition a_newstats (x : statistics K) : M nat := fun w =>
  Val (length (aw_stats w))
      (MkAW (aw_caches w) (aw_stats w ++ [Some x]) (aw_log w) (aw_reads w)).
Definition a_emit (l : list (cbevent K V)) : M unit :=
  modify (fun w => MkAW (aw_caches w) (aw_stats w) (aw_log w ++ l) (aw_reads w)).

Definition set_ents (l : list entry) (h : bool) (x : acache) : acache :=
  MkA l h (a_cap x) (a_stats x) (a_cbs x) (a_ttl x).
Definition a_ents_put (c : nat) (l : list entry) (h : bool) : M unit :=
  x <- a_get c;; a_put c (set_ents l h x).

Definition a_count (c : nat) (f : statistics K -> statistics K) : M unit :=
  x <- a_get c;;
  match a_stats x with
  | Some s => y <- a_getstats s;; a_putstats s (f y)
  | None => ret tt
  end.

Definition hit_events (b : callbacks) (k : K) (v : V) : list (cbevent K V) :=
  map (fun id => EvHit id k v) (hit_cbs b) ++ map (fun id => EvAccess id k true) (acc_cbs b).
Definition miss_events (b : callbacks) (k : K) : list (cbevent K V) :=
  map (fun id => EvMiss id k) (miss_cbs b) ++ map (fun id => EvAccess id k false) (acc_cbs b).

Definition a_hit (c : nat) (k : K) (v : V) : M unit :=
  a_count c (stats_register_hit E k);;;
  x <- a_get c;; a_emit (hit_events (a_cbs x) k v).
Definition a_miss (c : nat) (k : K) : M unit :=
  a_count c (stats_register_miss E k);;;
  x <- a_get c;; a_emit (miss_events (a_cbs x) k).

(** Expiry of an entry in a timed cache; untimed: never, and no clock reading. *)
Definition a_expired (ttl : option Z) (e : entry) : M bool :=
  match ttl with
  | None => ret false
  | Some d => t <- a_now;; ret (Z.ltb d (dcast E (t - e_time e)))
  end.

Definition a_find (c : nat) (k : K) : M (option entry) :=
  x <- a_get c;;
  match lookup_ent k (a_ents x) with
  | None => a_miss c k;;; ret None
  | Some e =>
      ex <- a_expired (a_ttl x) e;;
      if ex then a_miss c k;;; ret None
      else
        a_hit c k (e_val e);;;
        a_ents_put c (remove_ent k (a_ents x) ++ [e]) true;;;
        ret (Some e)
  end.

(** The last accessed entry, if it has key [k]. *)
Definition a_hot_ent (x : acache) (k : K) : option entry :=
  if a_hot x then
    match last_ent (a_ents x) with
    | Some e => if key_equal E k (e_key e) then Some e else None
    | None => None
    end
  else None.

Definition a_contains (c : nat) (k : K) : M bool :=
  x <- a_get c;;
  match a_hot_ent x k with
  | Some e =>
      ex <- a_expired (a_ttl x) e;;
      if ex then ret false else a_hit c k (e_val e);;; ret true
  | None =>
      r <- a_find c k;; ret (match r with Some _ => true | None => false end)
  end.

Definition a_lookup (c : nat) (k : K) : M entry :=
  x <- a_get c;;
  match a_hot_ent x k with
  | Some e =>
      ex <- a_expired (a_ttl x) e;;
      if ex then throw KeyExpired else a_hit c k (e_val e);;; ret e
  | None =>
      r <- a_find c k;;
      match r with
      | None => throw KeyNotFound
      | Some e =>
          ex <- a_expired (a_ttl x) e;;
          if ex then throw KeyExpired else ret e
      end
  end.

Definition a_timestamp (x : acache) : M Z :=
  match a_ttl x with None => ret 0%Z | Some _ => a_now end.

Definition a_insert (c : nat) (k : K) (v : V) : M (bool * option entry) :=
  x <- a_get c;;
  if Nat.eqb (a_cap x) 0 then ret (false, None)
  else
    match lookup_ent k (a_ents x) with
    | None =>
        t <- a_timestamp x;;
        a_ents_put c (lastn (a_cap x) (a_ents x ++ [Ent k v t])) true;;;
        ret (true, Some (Ent k v t))
    | Some e =>
        let e' := Ent (e_key e) v (e_time e) in
        a_ents_put c (remove_ent k (a_ents x) ++ [e']) true;;;
        ret (false, Some e')
    end.

Definition a_insert_range (c : nat) (l : list (K * V)) : M nat :=
  foldM (fun n p => r <- a_insert c (fst p) (snd p);;
                    ret (if fst r then S n else n)) l 0.

(** Removal of the entry with key [k] (if any): last accessed is forgotten if it
    was that one. *)
Definition a_remove (c : nat) (k : K) : M unit :=
  x <- a_get c;;
  a_ents_put c (remove_ent k (a_ents x))
    (match a_hot_ent x k with Some _ => false | None => a_hot x end).

Definition a_erase (c : nat) (k : K) : M bool :=
  x <- a_get c;;
  match lookup_ent k (a_ents x) with
  | Some _ => a_remove c k;;; ret true
  | None => ret false
  end.

(** Keep the [n] most recent. *)
Definition a_keep (c : nat) (n : nat) : M unit :=
  x <- a_get c;;
  a_ents_put c (lastn n (a_ents x)) (if Nat.eqb n 0 then false else a_hot x).

Definition a_setcap (c : nat) (n : nat) : M unit :=
  x <- a_get c;;
  a_put c (MkA (a_ents x) (a_hot x) n (a_stats x) (a_cbs x) (a_ttl x)).

Fixpoint a_clear_expired (fuel : nat) (c : nat) (cnt : nat) : M nat :=
  x <- a_get c;;
  match a_ents x with
  | [] => ret cnt
  | e :: _ =>
      ex <- a_expired (a_ttl x) e;;
      if ex then
        match fuel with
        | O => undef FuelExhausted
        | S fuel => a_remove c (e_key e);;; a_clear_expired fuel c (S cnt)
        end
      else ret cnt
  end.

Definition a_newcache (cap : nat) (ttl : option Z) : M nat :=
  a_new (MkA [] false cap None no_callbacks ttl).
Definition a_newfrom (cap : nat) (ttl : option Z) (l : list (K * V)) : M nat :=
  c <- a_newcache cap ttl;; a_insert_range c l;;; ret c.

Definition a_swap (ttl : bool) (c d : nat) : M unit :=
  x <- a_get c;; y <- a_get d;;
  a_put c (MkA (a_ents y) (a_hot y) (a_cap y) (a_stats x) (a_cbs x)
               (if ttl then a_ttl y else a_ttl x));;;
  a_put d (MkA (a_ents x) (a_hot x) (a_cap x)
               (if Nat.eqb c d then a_stats x else a_stats y)
               (if Nat.eqb c d then a_cbs x else a_cbs y)
               (if ttl then a_ttl x else a_ttl y)).

Definition a_move_assign (c d : nat) : M unit :=
  a_swap false c d;;;
  x <- a_get c;; y <- a_get d;;
  a_put c (MkA (a_ents x) (a_hot x) (a_cap x) (a_stats x) (a_cbs x) (a_ttl y)).

Definition a_move (c : nat) : M nat :=
  x <- a_get c;;
  match junk E with
  | None => undef Indeterminate
  | Some n => d <- a_newcache n (a_ttl x);; a_swap false d c;;; ret d
  end.

Definition a_assign (c : nat) (l : list (K * V)) : M unit :=
  a_keep c 0;;;
  x <- a_get c;;
  a_setcap c (Nat.max (a_cap x) (length l));;;
  a_insert_range c l;;; ret tt.

Definition ent_eq (timed : bool) (a b : entry) : bool :=
  key_eqop E (e_key a) (e_key b) && val_eqop E (e_val a) (e_val b)
  && (negb timed || Z.eqb (e_time a) (e_time b)).

Definition a_equal (c d : nat) : M bool :=
  x <- a_get c;; y <- a_get d;;
  ret (Nat.eqb c d ||
       (Nat.eqb (length (a_ents x)) (length (a_ents y))
        && forallb (fun e => match lookup_ent (e_key e) (a_ents y) with
                             | None => false
                             | Some e' => ent_eq (match a_ttl x with None => false | _ => true end) e e'
                             end) (a_ents x)
        && forallb (fun p => key_eqop E (e_key (fst p)) (e_key (snd p)))
                   (combine (a_ents x) (a_ents y)))).

Definition a_stats_of (c : nat) : M nat :=
  x <- a_get c;; match a_stats x with Some s => ret s | None => throw NotMonitoring end.
Definition a_stats_update (c : nat) (f : statistics K -> option (statistics K)) : M (out K V) :=
  s <- a_stats_of c;; x <- a_getstats s;;
  match f x with
  | Some x' => a_putstats s x';;; ret RUnit
  | None => throw UnmonitoredKey
  end.
Definition a_setstats (c : nat) (s : option nat) : M unit :=
  x <- a_get c;;
  a_put c (MkA (a_ents x) (a_hot x) (a_cap x) s (a_cbs x) (a_ttl x)).
Definition a_setcbs (c : nat) (f : callbacks -> callbacks) : M unit :=
  x <- a_get c;;
  a_put c (MkA (a_ents x) (a_hot x) (a_cap x) (a_stats x) (f (a_cbs x)) (a_ttl x)).

Definition a_alive (w : aworld) (c : nat) : bool :=
  match slot (aw_caches w) c with Some _ => true | None => false end.
Definition a_timed (w : aworld) (c : nat) : bool :=
  match slot (aw_caches w) c with
  | Some x => match a_ttl x with Some _ => true | None => false end
  | None => false
  end.
Definition a_well_formed (w : aworld) (o : op K V) : bool :=
  match o with
  | New _ _ | NewFrom _ _ _ | NewIters _ _ | NewMove _ _ _ | NewRvalue _ _
  | NewList _ _ => true
  | CopyAssign c d | MoveAssign c d | Swap c d | Equal c d =>
      a_alive w c && a_alive w d && Bool.eqb (a_timed w c) (a_timed w d)
  | ClearExpired c | HasExpired c _ | AllExpired c => a_timed w c
  | Front c | Back c => a_alive w c && negb (a_timed w c)
  | MonitorShared c s =>
      a_alive w c && match slot (aw_stats w) s with Some _ => true | None => false end
  | Copy c | Move c | Destroy c | AssignRange c _ | AssignMove c _
  | Insert c _ _ | Emplace c _ _ | InsertRange c _ | InsertMove c _
  | Find c _ | FindEntry c _ | Contains c _ | Lookup c _ | Write c _ _
  | Erase c _ | EraseFound c _ | EraseOrdered c _ | EraseUnordered c _
  | Clear c | Shrink c _ | SetCapacity c _ | Size c | Capacity c | SpaceLeft c
  | IsEmpty c | IsFull c | Ordered c | Backward c | Unordered c | EntryAt c _
  | ValidAt c _ | MonitorNew c _ | StopMonitoring c | IsMonitoring c | Totals c
  | StatsFor c _ | StatsMonitor c _ | StatsUnmonitor c _ | StatsUnmonitorAll c
  | StatsResetKey c _ | StatsIsMonitoring c _ | StatsNumber c
  | AddHit c _ | AddMiss c _ | AddAccess c _ | ClearHit c | ClearMiss c
  | ClearAccess c | ClearCallbacks c => a_alive w c
  end.

(** [ch]: position (in order of use) of the element an unordered position
    denotes; used by EraseUnordered only. *)
Definition abody (ch : nat) (o : op K V) : M (out K V) :=
  match o with
  | New cap ttl => c <- a_newcache cap ttl;; ret (RNat c)
  | NewFrom cap ttl l | NewMove cap ttl l => c <- a_newfrom cap ttl l;; ret (RNat c)
  | NewIters ttl l => c <- a_newfrom (Nat.max (length l) DEFAULT_CAPACITY) ttl l;; ret (RNat c)
  | NewRvalue ttl l | NewList ttl l => c <- a_newfrom (length l) ttl l;; ret (RNat c)
  | Copy _ => ret RIll
  | Move c => d <- a_move c;; ret (RNat d)
  | Destroy c => a_get c;;; a_drop c;;; ret RUnit
  | CopyAssign _ _ => ret RUnit
  | MoveAssign c d => a_move_assign c d;;; ret RUnit
  | Swap c d => a_swap true c d;;; ret RUnit
  | AssignRange c l | AssignMove c l => a_assign c l;;; ret RUnit
  | Insert c k v | Emplace c k v =>
      r <- a_insert c k v;; ret (RIns (fst r) (option_map pair_of (snd r)))
  | InsertRange c l | InsertMove c l => n <- a_insert_range c l;; ret (RNat n)
  | Find c k => r <- a_find c k;; ret (ROpt (option_map pair_of r))
  | FindEntry c k =>
      x <- a_get c;;
      r <- a_find c k;;
      match r with
      | None => if lenient_end E then throw InvalidIterator else undef PastTheEnd
      | Some e =>
          ex <- a_expired (a_ttl x) e;;
          if ex then throw KeyExpired else ret (ROpt (Some (pair_of e)))
      end
  | Contains c k => b <- a_contains c k;; ret (RBool b)
  | Lookup c k => e <- a_lookup c k;; ret (RVal (e_val e))
  | Write c k v =>
      e <- a_lookup c k;;
      x <- a_get c;;
      a_ents_put c (remove_ent k (a_ents x) ++ [Ent (e_key e) v (e_time e)]) (a_hot x);;;
      ret RUnit
  | Erase c k => b <- a_erase c k;; ret (RBool b)
  | EraseFound c k =>
      r <- a_find c k;;
      match r with
      | None => throw InvalidIterator
      | Some e => a_remove c (e_key e);;; ret RUnit
      end
  | EraseOrdered c n =>
      x <- a_get c;;
      match nth_error (a_ents x) n with
      | None => throw InvalidIterator
      | Some e =>
          ex <- a_expired (a_ttl x) e;;
          if ex then throw KeyExpired else a_remove c (e_key e);;; ret RUnit
      end
  | EraseUnordered c n =>
      x <- a_get c;;
      if Nat.leb (length (a_ents x)) n then throw InvalidIterator
      else match nth_error (a_ents x) ch with
           | None => throw InvalidIterator
           | Some e => a_remove c (e_key e);;; ret RUnit
           end
  | Clear c => a_keep c 0;;; ret RUnit
  | Shrink c n => a_keep c n;;; ret RUnit
  | SetCapacity c n => a_keep c n;;; a_setcap c n;;; ret RUnit
  | ClearExpired c =>
      x <- a_get c;; n <- a_clear_expired (length (a_ents x)) c 0;; ret (RNat n)
  | Size c => x <- a_get c;; ret (RNat (length (a_ents x)))
  | Capacity c => x <- a_get c;; ret (RNat (a_cap x))
  | SpaceLeft c => x <- a_get c;;
      ret (RZ (wrap64 (Z.of_nat (a_cap x) - Z.of_nat (length (a_ents x)))))
  | IsEmpty c => x <- a_get c;; ret (RBool (Nat.eqb (length (a_ents x)) 0))
  | IsFull c => x <- a_get c;; ret (RBool (Nat.eqb (length (a_ents x)) (a_cap x)))
  | Front c => noexcept (x <- a_get c;;
      match last_ent (a_ents x) with None => throw EmptyCache | Some e => ret (RKey (e_key e)) end)
  | Back c => noexcept (x <- a_get c;;
      match a_ents x with [] => throw EmptyCache | e :: _ => ret (RKey (e_key e)) end)
  | HasExpired c k => x <- a_get c;;
      match lookup_ent k (a_ents x) with
      | None => ret (RBool false)
      | Some e => b <- a_expired (a_ttl x) e;; ret (RBool b)
      end
  | AllExpired c => x <- a_get c;;
      match last_ent (a_ents x) with
      | None => ret (RBool true)
      | Some e => b <- a_expired (a_ttl x) e;; ret (RBool b)
      end
  | Equal c d => b <- a_equal c d;; ret (RBool b)
  | Ordered c | Unordered c => x <- a_get c;; ret (REnts (map pair_of (a_ents x)))
  | Backward c => x <- a_get c;; ret (REnts (rev (map pair_of (a_ents x))))
  | EntryAt c n => x <- a_get c;;
      match nth_error (a_ents x) n with
      | None => throw InvalidIterator
      | Some e => ex <- a_expired (a_ttl x) e;;
                  if ex then throw KeyExpired else ret (ROpt (Some (pair_of e)))
      end
  | ValidAt c n => x <- a_get c;;
      match nth_error (a_ents x) n with
      | None => ret (RBool false)
      | Some e => ex <- a_expired (a_ttl x) e;; ret (RBool (negb ex))
      end
  | MonitorNew c ks => a_get c;;; s <- a_newstats (new_stats E ks);; a_setstats c (Some s);;; ret (RNat s)
  | MonitorShared c s => a_getstats s;;; a_setstats c (Some s);;; ret RUnit
  | StopMonitoring c => a_setstats c None;;; ret RUnit
  | IsMonitoring c => x <- a_get c;;
      ret (RBool (match a_stats x with Some _ => true | None => false end))
  | Totals c => s <- a_stats_of c;; x <- a_getstats s;;
      ret (RTotals (total_accesses x) (total_hits x) (total_misses x))
  | StatsFor c k => s <- a_stats_of c;; x <- a_getstats s;;
      match stats_for E x k with
      | Some h => ret (RKeyStats (fst h) (snd h) (accesses_of h))
      | None => throw UnmonitoredKey
      end
  | StatsMonitor c k => a_stats_update c (fun x => Some (stats_monitor E k x))
  | StatsUnmonitor c k => a_stats_update c (stats_unmonitor E k)
  | StatsUnmonitorAll c => a_stats_update c (fun x => Some (stats_unmonitor_all x))
  | StatsResetKey c k => a_stats_update c (stats_reset_key E k)
  | StatsIsMonitoring c k => s <- a_stats_of c;; x <- a_getstats s;;
      ret (RBool (stats_is_monitoring E x k))
  | StatsNumber c => s <- a_stats_of c;; x <- a_getstats s;;
      ret (RNat (number_of_monitored_keys x))
  | AddHit c id => a_setcbs c (fun b => MkCbs (hit_cbs b ++ [id]) (miss_cbs b) (acc_cbs b));;; ret RUnit
  | AddMiss c id => a_setcbs c (fun b => MkCbs (hit_cbs b) (miss_cbs b ++ [id]) (acc_cbs b));;; ret RUnit
  | AddAccess c id => a_setcbs c (fun b => MkCbs (hit_cbs b) (miss_cbs b) (acc_cbs b ++ [id]));;; ret RUnit
  | ClearHit c => a_setcbs c (fun b => MkCbs [] (miss_cbs b) (acc_cbs b));;; ret RUnit
  | ClearMiss c => a_setcbs c (fun b => MkCbs (hit_cbs b) [] (acc_cbs b));;; ret RUnit
  | ClearAccess c => a_setcbs c (fun b => MkCbs (hit_cbs b) (miss_cbs b) []);;; ret RUnit
  | ClearCallbacks c => a_setcbs c (fun _ => no_callbacks);;; ret RUnit
  end.

Definition aexec (ch : nat) (o : op K V) : M (out K V) := fun w =>
  if a_well_formed w o then abody ch o w else Val RIll w.

End Ref.

Arguments entry : clear implicits.
Arguments acache : clear implicits.
Arguments aworld : clear implicits.
