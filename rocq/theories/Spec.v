(** Specification vocabulary: what the property theorems talk about, in terms of
    the calls of Api.v and nothing else (no internals of Model.v, no Ref.v). *)
From Coq Require Import List Arith ZArith Bool Permutation.
Import ListNotations.
From Verif Require Import Monad Types Model Api.
Set Implicit Arguments.

(** Environments in which KeyEqual is an equivalence, hash map insertion adds
    one node, allocations succeed, and callbacks do nothing to the caches but
    are recorded. *)
Record good {K V} (E : env K V) : Prop := {
  good_refl : forall k, key_equal E k k = true;
  good_sym : forall a b, key_equal E a b = key_equal E b a;
  good_trans : forall a b c, key_equal E a b = true -> key_equal E b c = true ->
                             key_equal E a c = true;
  good_place : forall l n, Permutation (place E l n) (n :: l);
  good_fails : forall n, fails E n = false;
  good_cb : forall ev w, cb E ev w = Val tt (with_log (fun l => l ++ [ev]) w)
}.

(** Calls other than the copy constructor and copy assignment between two
    different objects. *)
Definition copy_free {K V} (o : op K V) : bool :=
  match o with
  | Copy _ => false
  | CopyAssign c d => Nat.eqb c d
  | _ => true
  end.

(** ... and whose result does not depend on the order of the hash map. *)
Definition plain {K V} (o : op K V) : bool :=
  copy_free o &&
  match o with Unordered _ | EraseUnordered _ _ => false | _ => true end.

(** Copy-free calls that do not pick an element by its place in the hash map. *)
Definition hash_free {K V} (o : op K V) : bool :=
  copy_free o && match o with EraseUnordered _ _ => false | _ => true end.

(** Calls documented as observers. *)
Definition observer {K V} (o : op K V) : bool :=
  match o with
  | Size _ | Capacity _ | SpaceLeft _ | IsEmpty _ | IsFull _ | Front _ | Back _ | Equal _ _
  | HasExpired _ _ | AllExpired _ | Ordered _ | Backward _ | Unordered _ | EntryAt _ _ | ValidAt _ _
  | IsMonitoring _ | Totals _ | StatsFor _ _ | StatsIsMonitoring _ _ | StatsNumber _ => true
  | _ => false
  end.

(** Of these, the ones that do not read the clock. *)
Definition pure_observer {K V} (o : op K V) : bool :=
  match o with
  | Size _ | Capacity _ | SpaceLeft _ | IsEmpty _ | IsFull _ | Front _ | Back _ | Equal _ _
  | Ordered _ | Backward _ | Unordered _ | IsMonitoring _ | Totals _ | StatsFor _ _
  | StatsIsMonitoring _ _ | StatsNumber _ => true
  | _ => false
  end.

(** Calls that may register a hit or a miss, or change a statistics object. *)
Definition registers {K V} (o : op K V) : bool :=
  match o with
  | Find _ _ | FindEntry _ _ | Contains _ _ | Lookup _ _ | Write _ _ _ | EraseFound _ _
  | StatsMonitor _ _ | StatsUnmonitor _ _ | StatsUnmonitorAll _ | StatsResetKey _ _ => true
  | _ => false
  end.

(** The caches a call names. *)
Definition mentions {K V} (o : op K V) : list nat :=
  match o with
  | New _ _ | NewFrom _ _ _ | NewIters _ _ | NewMove _ _ _ | NewRvalue _ _ | NewList _ _ => []
  | CopyAssign c d | MoveAssign c d | Swap c d | Equal c d => [c; d]
  | Copy c | Move c | Destroy c | AssignRange c _ | AssignMove c _
  | Insert c _ _ | Emplace c _ _ | InsertRange c _ | InsertMove c _
  | Find c _ | FindEntry c _ | Contains c _ | Lookup c _ | Write c _ _
  | Erase c _ | EraseFound c _ | EraseOrdered c _ | EraseUnordered c _
  | Clear c | Shrink c _ | SetCapacity c _ | ClearExpired c | Size c | Capacity c | SpaceLeft c
  | IsEmpty c | IsFull c | Front c | Back c | HasExpired c _ | AllExpired c
  | Ordered c | Backward c | Unordered c | EntryAt c _ | ValidAt c _
  | MonitorNew c _ | MonitorShared c _ | StopMonitoring c | IsMonitoring c
  | Totals c | StatsFor c _ | StatsMonitor c _ | StatsUnmonitor c _ | StatsUnmonitorAll c
  | StatsResetKey c _ | StatsIsMonitoring c _ | StatsNumber c
  | AddHit c _ | AddMiss c _ | AddAccess c _ | ClearHit c | ClearMiss c | ClearAccess c
  | ClearCallbacks c => [c]
  end.

(** Calls on cache [d] alone whose result is neither the number of a new object
    nor dependent on the order of the hash map, and that attach no existing
    statistics object. *)
Definition concerns {K V} (d : nat) (o : op K V) : bool :=
  plain o && forallb (Nat.eqb d) (mentions o) &&
  match o with
  | New _ _ | NewFrom _ _ _ | NewIters _ _ | NewMove _ _ _ | NewRvalue _ _ | NewList _ _
  | Move _ | MonitorNew _ _ | MonitorShared _ _ => false
  | _ => true
  end.

(** The same environment with the clock readings [m], [m+1], ... *)
Definition shift {K V} (m : nat) (E : env K V) : env K V :=
  MkEnv (key_equal E) (key_eqop E) (val_eqop E) (place E) (rehash E) (fun n => clock E (m + n))
        (dcast E) (junk E) (lenient_end E) (fails E) (cb E).
(** The same environment with another hash function: elements are placed
    elsewhere and rehashing happens at other times. *)
Definition rehashed {K V} (p : list (nat * mnode K V) -> nat * mnode K V -> list (nat * mnode K V))
  (r : store K V -> bool) (E : env K V) : env K V :=
  MkEnv (key_equal E) (key_eqop E) (val_eqop E) p r (clock E)
        (dcast E) (junk E) (lenient_end E) (fails E) (cb E).

(** What the client learns from a history: the outcomes, and how it ended. *)
Inductive ending : Type := Alive | Crashed (u : ub) | Aborted (e : exn).
Definition seen {K V} (h : hist K V) : list (outcome K V) * ending :=
  match h with
  | Finished l _ => (l, Alive)
  | Undefined l u => (l, Crashed u)
  | Terminated l e => (l, Aborted e)
  end.

Section Spec.
Context {K V : Type}.
Variable E : env K V.

Notation world := (world K V).

(** Worlds a program can reach without copying caches: by calls, which may
    return or throw, and by assignments to the value of an element through a
    pointer, reference or iterator to it (as returned by lookup() or find(), or
    while moving out of a cache). *)
Inductive reachable : world -> Prop :=
| reach_init : reachable init_world
| reach_return w o r w' :
    reachable w -> copy_free o = true -> exec E o w = Val r w' -> reachable w'
| reach_throw w o e w' :
    reachable w -> copy_free o = true -> exec E o w = Exc e w' -> reachable w'
| reach_write w p v w' :
    reachable w ->
    update_node p (fun n => MkNode (n_key n) v (n_ord n) (n_time n)) w = Val tt w' ->
    reachable w'.

(** What the client sees of a cache: the elements from least to most recently
    used, the capacity, the size. *)
Definition contents (c : nat) (w : world) (l : list (K * V)) : Prop :=
  exec E (Ordered c) w = Val (REnts l) w.
Definition capacity_is (c : nat) (w : world) (n : nat) : Prop :=
  exec E (Capacity c) w = Val (RNat n) w.
Definition size_is (c : nat) (w : world) (n : nat) : Prop :=
  exec E (Size c) w = Val (RNat n) w.
(** The time to live given to the constructor ([None]: not a TimedCache). *)
Definition ttl_of (c : nat) (w : world) (d : option Z) : Prop :=
  exists x, slot (w_caches w) c = Some x /\ c_ttl x = d.

(** No program can tell the two worlds apart (by calls whose result does not
    depend on the order of the hash map). *)
Definition same_seen (w w' : world) : Prop :=
  forall ops, forallb plain ops = true -> seen (run E ops w) = seen (run E ops w').

(** Two histories look the same: same outcomes and ending, and if they finish,
    the same callbacks were called. *)
Definition heard (w : world) (h : hist K V) (l : list (cbevent K V)) : Prop :=
  match h with Finished _ w' => w_log w' = w_log w ++ l | _ => True end.
Definition alike (w w' : world) (h h' : hist K V) : Prop :=
  seen h = seen h' /\ exists l, heard w h l /\ heard w' h' l.

(** The same, except that unordered traversals may show the elements in another
    order. *)
Definition similar (o : op K V) (r r' : outcome K V) : Prop :=
  r = r' \/
  exists c l l', o = Unordered c /\ r = Returned (REnts l) /\ r' = Returned (REnts l') /\ Permutation l l'.
Fixpoint similars (ops : list (op K V)) (rs rs' : list (outcome K V)) : Prop :=
  match ops, rs, rs' with
  | o :: t, r :: rs, r' :: rs' => similar o r r' /\ similars t rs rs'
  | _, [], [] => True
  | _, _, _ => False
  end.
Definition alike_unordered (ops : list (op K V)) (w w' : world) (h h' : hist K V) : Prop :=
  similars ops (fst (seen h)) (fst (seen h')) /\ snd (seen h) = snd (seen h') /\
  exists l, heard w h l /\ heard w' h' l.

(** The two caches do not share a statistics object. *)
Definition separate (w : world) (c d : nat) : Prop :=
  forall x y s, slot (w_caches w) c = Some x -> slot (w_caches w) d = Some y ->
                c_stats x = Some s -> c_stats y <> Some s.

(** A call with its outcome. *)
Definition call (o : op K V) (w : world) (r : outcome K V) (w' : world) : Prop :=
  match r with
  | Returned x => exec E o w = Val x w'
  | Threw e => exec E o w = Exc e w'
  end.

(** The ways to read key [k] of cache [c], with the outcome for a key that is
    present ([Some]: the element) or absent ([None]). *)
Inductive reads (c : nat) (k : K) : op K V -> (option (K * V) -> outcome K V) -> Prop :=
| reads_find : reads c k (Find c k) (fun p => Returned (ROpt p))
| reads_contains : reads c k (Contains c k)
    (fun p => Returned (RBool (match p with Some _ => true | None => false end)))
| reads_lookup : reads c k (Lookup c k)
    (fun p => match p with Some (_, v) => Returned (RVal v) | None => Threw KeyNotFound end).

(** The two ways to insert one element. *)
Inductive puts (c : nat) (k : K) (v : V) : op K V -> Prop :=
| puts_insert : puts c k v (Insert c k v)
| puts_emplace : puts c k v (Emplace c k v).

(** Constructors: the capacity documented for a call that builds a cache with
    time to live [ttl] from the elements [l]. *)
Inductive builds (ttl : option Z) : op K V -> nat -> list (K * V) -> Prop :=
| builds_new cap : builds ttl (New cap ttl) cap []
| builds_from cap l : builds ttl (NewFrom cap ttl l) cap l
| builds_move cap l : builds ttl (NewMove cap ttl l) cap l
| builds_iters l : builds ttl (NewIters ttl l) (Nat.max (length l) 128) l
| builds_rvalue l : builds ttl (NewRvalue ttl l) (length l) l
| builds_list l : builds ttl (NewList ttl l) (length l) l.

(** Insertion of, and assignment from, a range. *)
Inductive puts_range (c : nat) (l : list (K * V)) : op K V -> Prop :=
| puts_lvalue : puts_range c l (InsertRange c l)
| puts_rvalue : puts_range c l (InsertMove c l).
Inductive assigns (c : nat) (l : list (K * V)) : op K V -> Prop :=
| assigns_lvalue : assigns c l (AssignRange c l)
| assigns_rvalue : assigns c l (AssignMove c l).

(** Outcomes that report a new element, counted. *)
Definition news (outs : list (outcome K V)) : nat :=
  length (filter (fun r => match r with Returned (RIns true _) => true | _ => false end) outs).

(** Sequences of key/value pairs. *)
Definition look (k : K) (l : list (K * V)) : option (K * V) :=
  List.find (fun p => key_equal E k (fst p)) l.
Definition has (k : K) (l : list (K * V)) : bool :=
  existsb (fun p => key_equal E k (fst p)) l.
Definition without (k : K) (l : list (K * V)) : list (K * V) :=
  filter (fun p => negb (key_equal E k (fst p))) l.
(** The last [n]. *)
Definition newest {A} (n : nat) (l : list A) : list A := skipn (length l - n) l.
(** No two keys are equal. *)
Fixpoint distinct (l : list (K * V)) : Prop :=
  match l with
  | [] => True
  | p :: t => has (fst p) t = false /\ distinct t
  end.

(* ---------------------------------------------------------------- *)
(** ** A textbook LRU cache

    A capacity and a sequence of items, most recently used first. *)

Record lru : Type := Lru { lcap : nat; items : list (K * V) }.

Inductive lcall : Type :=
| LInsert (k : K) (v : V) | LEmplace (k : K) (v : V)
| LInsertRange (l : list (K * V)) | LInsertMove (l : list (K * V))
| LAssignRange (l : list (K * V)) | LAssignMove (l : list (K * V))
| LFind (k : K) | LContains (k : K) | LLookup (k : K) | LWrite (k : K) (v : V)
| LErase (k : K) | LEraseFound (k : K) | LEraseOrdered (n : nat)
| LClear | LShrink (n : nat) | LSetCapacity (n : nat)
| LSize | LCapacity | LSpaceLeft | LIsEmpty | LIsFull | LFront | LBack
| LOrdered | LBackward | LUnordered | LEntryAt (n : nat) | LValidAt (n : nat).

(** The call made on cache [c]. *)
Definition on (c : nat) (x : lcall) : op K V :=
  match x with
  | LInsert k v => Insert c k v | LEmplace k v => Emplace c k v
  | LInsertRange l => InsertRange c l | LInsertMove l => InsertMove c l
  | LAssignRange l => AssignRange c l | LAssignMove l => AssignMove c l
  | LFind k => Find c k | LContains k => Contains c k
  | LLookup k => Lookup c k | LWrite k v => Write c k v
  | LErase k => Erase c k | LEraseFound k => EraseFound c k
  | LEraseOrdered n => EraseOrdered c n
  | LClear => Clear c | LShrink n => Shrink c n | LSetCapacity n => SetCapacity c n
  | LSize => Size c | LCapacity => Capacity c | LSpaceLeft => SpaceLeft c
  | LIsEmpty => IsEmpty c | LIsFull => IsFull c | LFront => Front c | LBack => Back c
  | LOrdered => Ordered c | LBackward => Backward c | LUnordered => Unordered c
  | LEntryAt n => EntryAt c n | LValidAt n => ValidAt c n
  end.

Definition ltake (n : nat) (s : lru) : lru := Lru (lcap s) (firstn n (items s)).

(** Put: returns whether the key is new, and the item. *)
Definition lput (k : K) (v : V) (s : lru) : (bool * option (K * V)) * lru :=
  if Nat.eqb (lcap s) 0 then ((false, None), s)
  else match look k (items s) with
       | Some (k0, _) => ((false, Some (k0, v)), Lru (lcap s) ((k0, v) :: without k (items s)))
       | None => ((true, Some (k, v)), ltake (lcap s) (Lru (lcap s) ((k, v) :: items s)))
       end.
Fixpoint lputs (l : list (K * V)) (s : lru) : nat * lru :=
  match l with
  | [] => (0, s)
  | (k, v) :: t =>
      let '((b, _), s1) := lput k v s in
      let '(n, s2) := lputs t s1 in
      (if b then S n else n, s2)
  end.
(** Get: the item moves to the front. *)
Definition lget (k : K) (s : lru) : option (K * V) * lru :=
  match look k (items s) with
  | Some p => (Some p, Lru (lcap s) (p :: without k (items s)))
  | None => (None, s)
  end.
Definition ldel (k : K) (s : lru) : lru := Lru (lcap s) (without k (items s)).
Definition lassign (l : list (K * V)) (s : lru) : lru :=
  snd (lputs l (Lru (Nat.max (lcap s) (length l)) [])).

Definition size_t (z : Z) : Z := (z mod 2 ^ 64)%Z.

(** One call: its outcome and the next state; [None]: the program is terminated
    (front() and back() are noexcept but throw when empty). *)
Definition lstep (x : lcall) (s : lru) : option (outcome K V * lru) :=
  let rt r s' := Some (Returned r, s') in
  let th e s' := Some (Threw e, s') in
  match x with
  | LInsert k v | LEmplace k v =>
      let '((b, p), s') := lput k v s in rt (RIns b p) s'
  | LInsertRange l | LInsertMove l => let '(n, s') := lputs l s in rt (RNat n) s'
  | LAssignRange l | LAssignMove l => rt RUnit (lassign l s)
  | LFind k => let '(p, s') := lget k s in rt (ROpt p) s'
  | LContains k =>
      let '(p, s') := lget k s in rt (RBool (match p with Some _ => true | None => false end)) s'
  | LLookup k =>
      let '(p, s') := lget k s in
      match p with Some (_, v) => rt (RVal v) s' | None => th KeyNotFound s' end
  | LWrite k v =>
      match lget k s with
      | (Some (k0, _), s') => rt RUnit (Lru (lcap s') ((k0, v) :: without k (items s')))
      | (None, s') => th KeyNotFound s'
      end
  | LErase k => rt (RBool (has k (items s))) (ldel k s)
  | LEraseFound k => if has k (items s) then rt RUnit (ldel k s) else th InvalidIterator s
  | LEraseOrdered n =>
      match nth_error (rev (items s)) n with
      | Some (k, _) => rt RUnit (ldel k s)
      | None => th InvalidIterator s
      end
  | LClear => rt RUnit (ltake 0 s)
  | LShrink n => rt RUnit (ltake n s)
  | LSetCapacity n => rt RUnit (ltake n (Lru n (items s)))
  | LSize => rt (RNat (length (items s))) s
  | LCapacity => rt (RNat (lcap s)) s
  | LSpaceLeft => rt (RZ (size_t (Z.of_nat (lcap s) - Z.of_nat (length (items s))))) s
  | LIsEmpty => rt (RBool (Nat.eqb (length (items s)) 0)) s
  | LIsFull => rt (RBool (Nat.eqb (length (items s)) (lcap s))) s
  | LFront => match items s with (k, _) :: _ => rt (RKey k) s | [] => None end
  | LBack => match rev (items s) with (k, _) :: _ => rt (RKey k) s | [] => None end
  | LOrdered => rt (REnts (rev (items s))) s
  | LBackward | LUnordered => rt (REnts (items s)) s
  | LEntryAt n =>
      match nth_error (rev (items s)) n with
      | Some p => rt (ROpt (Some p)) s
      | None => th InvalidIterator s
      end
  | LValidAt n => rt (RBool (Nat.ltb n (length (items s)))) s
  end.

(** A history: outcomes, and the final state unless terminated. *)
Fixpoint lrun (l : list lcall) (s : lru) : list (outcome K V) * option lru :=
  match l with
  | [] => ([], Some s)
  | x :: t =>
      match lstep x s with
      | None => ([], None)
      | Some (r, s') => let '(rs, f) := lrun t s' in (r :: rs, f)
      end
  end.

(** Outcomes agree: equal, except that the unordered traversal may show the
    items in any order. *)
Definition agree (x : lcall) (r r' : outcome K V) : Prop :=
  match x with
  | LUnordered => exists l l', r = Returned (REnts l) /\ r' = Returned (REnts l') /\ Permutation l l'
  | _ => r = r'
  end.
Fixpoint agrees (l : list lcall) (rs rs' : list (outcome K V)) : Prop :=
  match l, rs, rs' with
  | x :: t, r :: rs, r' :: rs' => agree x r r' /\ agrees t rs rs'
  | _, [], [] => True
  | _, _, _ => False
  end.

(* ---------------------------------------------------------------- *)
(** ** Keys used by a history *)

(** Insertions and reads of keys. *)
Definition lkey (x : lcall) : option K :=
  match x with
  | LInsert k _ | LEmplace k _ | LFind k | LContains k | LLookup k => Some k
  | _ => None
  end.
(** Was the key inserted or hit? *)
Definition luse (x : lcall) (r : outcome K V) : list K :=
  match x, r with
  | LInsert k _, _ | LEmplace k _, _ | LFind k, Returned (ROpt (Some _))
  | LContains k, Returned (RBool true) | LLookup k, Returned (RVal _) => [k]
  | _, _ => []
  end.
Fixpoint luses (l : list lcall) (rs : list (outcome K V)) : list K :=
  match l, rs with
  | x :: t, r :: rs => luse x r ++ luses t rs
  | _, _ => []
  end.
(** One representative of each of the different keys. *)
Definition different (ks : list K) : list K :=
  fold_left (fun acc k => if existsb (key_equal E k) acc then acc else k :: acc) ks [].

(** ** Values written by a history *)

(** The last value the sequence gives to the key. *)
Definition given (k : K) (l : list (K * V)) : option V :=
  option_map snd (look k (rev l)).
(** The value last written for the key, [old] if the call writes none. *)
Definition lwrite (k : K) (x : lcall) (old : option V) : option V :=
  match x with
  | LInsert k' v | LEmplace k' v | LWrite k' v => if key_equal E k k' then Some v else old
  | LInsertRange l | LInsertMove l | LAssignRange l | LAssignMove l =>
      match given k l with Some v => Some v | None => old end
  | _ => old
  end.
Fixpoint lwritten (k : K) (l : list lcall) (old : option V) : option V :=
  match l with
  | [] => old
  | x :: t => lwritten k t (lwrite k x old)
  end.

(** Calls that insert at most one element. *)
Definition single (x : lcall) : bool :=
  match x with
  | LInsertRange _ | LInsertMove _ | LAssignRange _ | LAssignMove _ => false
  | _ => true
  end.

(** The same call with the key [k] replaced by [k']. *)
Inductive renamed (k k' : K) : lcall -> lcall -> Prop :=
| ren_insert v : renamed k k' (LInsert k v) (LInsert k' v)
| ren_emplace v : renamed k k' (LEmplace k v) (LEmplace k' v)
| ren_find : renamed k k' (LFind k) (LFind k')
| ren_contains : renamed k k' (LContains k) (LContains k')
| ren_lookup : renamed k k' (LLookup k) (LLookup k')
| ren_write v : renamed k k' (LWrite k v) (LWrite k' v)
| ren_erase : renamed k k' (LErase k) (LErase k')
| ren_erase_found : renamed k k' (LEraseFound k) (LEraseFound k').

End Spec.
