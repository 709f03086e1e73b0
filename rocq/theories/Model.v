(** Transcription of the library, function by function.  File names are relative
    to /repo/include/lru (bc = internal/base-cache.hpp, tc = timed-cache.hpp,
    ch = cache.hpp, la = internal/last-accessed.hpp, sm =
    internal/statistics-mutator.hpp, st = statistics.hpp, cm =
    internal/callback-manager.hpp, bu = internal/base-unordered-iterator.hpp,
    bo = internal/base-ordered-iterator.hpp, bi = internal/base-iterator.hpp,
    ti = internal/timed-information.hpp). *)

From Coq Require Import List Arith ZArith Bool.
Import ListNotations.
From Verif Require Import Monad Types.
Set Implicit Arguments.
Local Open Scope cpp_scope.

(** internal/definitions.hpp:36 *)
Definition DEFAULT_CAPACITY : nat := 128.

(** 64-bit size_t arithmetic. *)
Definition wrap64 (z : Z) : Z := Z.modulo z (2 ^ 64).

(** Slot [i] of a table, and its update. *)
Definition slot {A} (l : list (option A)) (i : nat) : option A := nth i l None.
Fixpoint upd {A} (l : list A) (i : nat) (a : A) : list A :=
  match l, i with
  | [], _ => []
  | _ :: t, O => a :: t
  | x :: t, S j => x :: upd t j a
  end.

(** Element number [i] of a numbered sequence. *)
Fixpoint assoc {A} (i : nat) (l : list (nat * A)) : option A :=
  match l with
  | [] => None
  | (j, a) :: t => if Nat.eqb i j then Some a else assoc i t
  end.

(** The sequence without element number [i]. *)
Fixpoint unassoc {A} (i : nat) (l : list (nat * A)) : list (nat * A) :=
  match l with
  | [] => []
  | (j, a) :: t => if Nat.eqb i j then t else (j, a) :: unassoc i t
  end.

(** The sequence with [f] applied to element number [i]. *)
Definition alter {A} (i : nat) (f : A -> A) (l : list (nat * A)) : list (nat * A) :=
  map (fun p => if Nat.eqb i (fst p) then (fst p, f (snd p)) else p) l.

Fixpoint natlist_eqb (a b : list nat) : bool :=
  match a, b with
  | [], [] => true
  | x :: a', y :: b' => Nat.eqb x y && natlist_eqb a' b'
  | _, _ => false
  end.

Section Model.
Context {K V : Type}.

Notation mnode := (@mnode K V).
Notation store := (@store K V).
Notation statistics := (@statistics K).
Notation cbevent := (@cbevent K V).
Notation world := (@world K V).
Notation env := (@env K V).
Notation M := (M world).

Variable E : env.

(* ------------------------------------------------------------------ *)
(** ** Access to the world *)
(* ------------------------------------------------------------------ *)

Definition with_caches (f : list (option cache) -> list (option cache)) (w : world) : world :=
  MkWorld (f (w_caches w)) (w_stores w) (w_stats w) (w_log w) (w_reads w) (w_steps w).
Definition with_stores (f : list (option store) -> list (option store)) (w : world) : world :=
  MkWorld (w_caches w) (f (w_stores w)) (w_stats w) (w_log w) (w_reads w) (w_steps w).
Definition with_stats (f : list (option statistics) -> list (option statistics)) (w : world)
  : world :=
  MkWorld (w_caches w) (w_stores w) (f (w_stats w)) (w_log w) (w_reads w) (w_steps w).
Definition with_log (f : list cbevent -> list cbevent) (w : world) : world :=
  MkWorld (w_caches w) (w_stores w) (w_stats w) (f (w_log w)) (w_reads w) (w_steps w).

Definition get_cache (c : nat) : M cache := fun w =>
  match slot (w_caches w) c with Some x => Val x w | None => Undef DeadObject end.
Definition put_cache (c : nat) (x : cache) : M unit :=
  modify (with_caches (fun l => upd l c (Some x))).
Definition drop_cache (c : nat) : M unit :=
  modify (with_caches (fun l => upd l c None)).
Definition get_store (r : nat) : M store := fun w =>
  match slot (w_stores w) r with Some x => Val x w | None => Undef DanglingNode end.
Definition put_store (r : nat) (s : store) : M unit :=
  modify (with_stores (fun l => upd l r (Some s))).
Definition drop_store (r : nat) : M unit :=
  modify (with_stores (fun l => upd l r None)).
Definition get_stats (s : nat) : M statistics := fun w =>
  match slot (w_stats w) s with Some x => Val x w | None => Undef NullPointer end.
Definition put_stats (s : nat) (x : statistics) : M unit :=
  modify (with_stats (fun l => upd l s (Some x))).

(** A new cache object / region / statistics object. *)
Definition alloc_cache (x : cache) : M nat := fun w =>
  Val (length (w_caches w)) (with_caches (fun l => l ++ [Some x]) w).
Definition alloc_store (s : store) : M nat := fun w =>
  Val (length (w_stores w)) (with_stores (fun l => l ++ [Some s]) w).
Definition alloc_stats (x : statistics) : M nat := fun w =>
  Val (length (w_stats w)) (with_stats (fun l => l ++ [Some x]) w).

(** The n-th call of Clock::now() (internal/definitions.hpp:80). *)
Definition now : M Z := fun w =>
  Val (clock E (w_reads w))
      (MkWorld (w_caches w) (w_stores w) (w_stats w) (w_log w) (S (w_reads w)) (w_steps w)).

(** A step that may throw std::bad_alloc (or whatever an element's copy
    constructor throws). *)
Definition fallible : M unit := fun w =>
  let w' := MkWorld (w_caches w) (w_stores w) (w_stats w) (w_log w) (w_reads w)
                    (S (w_steps w)) in
  if fails E (w_steps w) then Exc BadAlloc w' else Val tt w'.

(* ------------------------------------------------------------------ *)
(** ** std::unordered_map and std::list, as used *)
(* ------------------------------------------------------------------ *)

(** A std::unordered_map iterator that is not end(): the node and the number of
    rehashes its map had seen when the iterator was made. *)
Definition miter : Type := (mptr * nat)%type.

(** Pointer / reference dereference. *)
Definition deref (p : mptr) : M mnode :=
  s <- get_store (fst p);;
  match assoc (snd p) (s_map s) with
  | Some n => ret n
  | None => undef DanglingNode
  end.

(** unordered_map iterator dereference. *)
Definition deref_it (i : miter) : M mnode :=
  s <- get_store (fst (fst i));;
  if Nat.eqb (s_epoch s) (snd i) then deref (fst i) else undef RehashedIterator.

(** Assignment through a pointer, reference or iterator to a map node. *)
Definition update_node (p : mptr) (f : mnode -> mnode) : M unit :=
  s <- get_store (fst p);;
  match assoc (snd p) (s_map s) with
  | Some _ => put_store (fst p)
      (MkStore (alter (snd p) f (s_map s)) (s_ord s) (s_next s) (s_epoch s))
  | None => undef DanglingNode
  end.

(** The map and list of cache [c]. *)
Definition own (c : nat) : M (nat * store) :=
  x <- get_cache c;; s <- get_store (c_rid x);; ret (c_rid x, s).

(** unordered_map::find on a sequence of nodes: libstdc++ calls
    KeyEqual(argument, stored key). *)
Definition node_with (k : K) (l : list (nat * mnode)) : option (nat * mnode) :=
  List.find (fun p => key_equal E k (n_key (snd p))) l.

(** _map.find(key) *)
Definition map_find (c : nat) (k : K) : M (option miter) :=
  '(r, s) <- own c;;
  match node_with k (s_map s) with
  | Some (i, _) => ret (Some ((r, i), s_epoch s))
  | None => ret None
  end.

(** _map.size() *)
Definition map_size (c : nat) : M nat :=
  '(_, s) <- own c;; ret (length (s_map s)).

(** _map.emplace(key, information): no effect if an equal key is present;
    otherwise allocates a node, places it, maybe rehashes. *)
Definition map_emplace (c : nat) (n : mnode) : M (miter * bool) :=
  '(r, s) <- own c;;
  match node_with (n_key n) (s_map s) with
  | Some (i, _) => ret (((r, i), s_epoch s), false)
  | None =>
      fallible;;;
      let e := if rehash E s then S (s_epoch s) else s_epoch s in
      put_store r (MkStore (place E (s_map s) (s_next s, n)) (s_ord s)
                           (S (s_next s)) e);;;
      ret (((r, s_next s), e), true)
  end.

(** _map.erase(iterator) *)
Definition map_erase_it (c : nat) (i : miter) : M unit :=
  '(r, s) <- own c;;
  if Nat.eqb (fst (fst i)) r then
    deref_it i;;;
    put_store r (MkStore (unassoc (snd (fst i)) (s_map s)) (s_ord s) (s_next s) (s_epoch s))
  else undef ForeignMapIterator.

(** _map.erase(key) *)
Definition map_erase_key (c : nat) (k : K) : M unit :=
  '(r, s) <- own c;;
  match node_with k (s_map s) with
  | Some (i, _) =>
      put_store r (MkStore (unassoc i (s_map s)) (s_ord s) (s_next s) (s_epoch s))
  | None => ret tt
  end.

(** _order.splice(_order.end(), _order, it): [it] must point into _order. *)
Definition list_splice_back (c : nat) (q : option qptr) : M unit :=
  '(r, s) <- own c;;
  match q with
  | None => undef SingularIterator
  | Some (r', i) =>
      if Nat.eqb r' r then
        match assoc i (s_ord s) with
        | Some p => put_store r
            (MkStore (s_map s) (unassoc i (s_ord s) ++ [(i, p)]) (s_next s) (s_epoch s))
        | None => undef DanglingListNode
        end
      else undef ForeignListIterator
  end.

(** _order.erase(it): [it] must point into _order. *)
Definition list_erase (c : nat) (q : option qptr) : M unit :=
  '(r, s) <- own c;;
  match q with
  | None => undef SingularIterator
  | Some (r', i) =>
      if Nat.eqb r' r then
        match assoc i (s_ord s) with
        | Some _ => put_store r
            (MkStore (s_map s) (unassoc i (s_ord s)) (s_next s) (s_epoch s))
        | None => undef DanglingListNode
        end
      else undef ForeignListIterator
  end.

(** _order.emplace_back(key): appends a list node referring to the key of map
    node [p]. *)
Definition list_emplace_back (c : nat) (p : mptr) : M unit :=
  fallible;;;
  '(r, s) <- own c;;
  put_store r (MkStore (s_map s) (s_ord s ++ [(s_next s, p)]) (S (s_next s)) (s_epoch s)).

(** _order.front() (the referenced map node) and _order.begin(). *)
Definition list_front (c : nat) : M mptr :=
  '(_, s) <- own c;;
  match s_ord s with
  | [] => undef EmptyContainer
  | (_, p) :: _ => ret p
  end.
Definition list_begin (c : nat) : M (option qptr) :=
  '(r, s) <- own c;;
  match s_ord s with
  | [] => ret None
  | (i, _) :: _ => ret (Some (r, i))
  end.

(** _order.back() and std::prev(_order.end()). *)
Definition list_back (c : nat) : M mptr :=
  '(_, s) <- own c;;
  match rev (s_ord s) with
  | [] => undef EmptyContainer
  | (_, p) :: _ => ret p
  end.
Definition list_prev_end (c : nat) : M qptr :=
  '(r, s) <- own c;;
  match rev (s_ord s) with
  | [] => undef PastTheEnd
  | (i, _) :: _ => ret (r, i)
  end.

(** _order.front() = std::ref(key) *)
Definition list_set_front (c : nat) (p : mptr) : M unit :=
  '(r, s) <- own c;;
  match s_ord s with
  | [] => undef EmptyContainer
  | (i, _) :: t => put_store r (MkStore (s_map s) ((i, p) :: t) (s_next s) (s_epoch s))
  end.

(** Dereference of a list iterator: the reference it holds. *)
Definition list_deref (q : qptr) : M mptr :=
  s <- get_store (fst q);;
  match assoc (snd q) (s_ord s) with
  | Some p => ret p
  | None => undef DanglingListNode
  end.

(* ------------------------------------------------------------------ *)
(** ** LastAccessed *)
(* ------------------------------------------------------------------ *)

(** la:108-114 operator=(iterator) *)
Definition set_last (c : nat) (p : option mptr) : M unit :=
  x <- get_cache c;;
  put_cache c (MkCache (c_rid x) p (c_cap x) (c_stats x) (c_cbs x) (c_ttl x)).

(** la:227-231 invalidate() *)
Definition invalidate_last (c : nat) : M unit := set_last c None.

(** la:122-132 operator==(last_accessed, key) *)
Definition last_is (c : nat) (k : K) : M bool :=
  x <- get_cache c;;
  match c_last x with
  | None => ret false
  | Some p => n <- deref p;; ret (key_equal E k (n_key n))
  end.

(** la:174-213: key(), information(), value() with their assert(is_valid()) *)
Definition last_ptr (c : nat) : M mptr :=
  x <- get_cache c;;
  match c_last x with
  | None => undef AssertFailed
  | Some p => ret p
  end.

(* ------------------------------------------------------------------ *)
(** ** Statistics and callbacks *)
(* ------------------------------------------------------------------ *)

(** lookup in Statistics::_key_map (std::hash / operator==, st:237) *)
Fixpoint stat_find (k : K) (l : list (K * (Z * Z))) : option (Z * Z) :=
  match l with
  | [] => None
  | (k', h) :: t => if key_eqop E k k' then Some h else stat_find k t
  end.
Fixpoint stat_update (k : K) (f : Z * Z -> Z * Z) (l : list (K * (Z * Z)))
  : list (K * (Z * Z)) :=
  match l with
  | [] => []
  | (k', h) :: t => if key_eqop E k k' then (k', f h) :: t
                    else (k', h) :: stat_update k f t
  end.

(** sm:79-89 *)
Definition stats_register_hit (k : K) (x : statistics) : statistics :=
  MkStats (wrap64 (st_acc x + 1)) (wrap64 (st_hits x + 1))
    (stat_update k (fun h => (wrap64 (fst h + 1), snd h)) (st_keys x)).

(** sm:94-103 *)
Definition stats_register_miss (k : K) (x : statistics) : statistics :=
  MkStats (wrap64 (st_acc x + 1)) (st_hits x)
    (stat_update k (fun h => (fst h, wrap64 (snd h + 1))) (st_keys x)).

(** cm:141-145 _call_each.  The range-for walks the vector; if a callback
    changes that vector (or the cache dies) the loop's iterators are invalid. *)
Fixpoint call_each_from (sel : callbacks -> list nat) (all : list nat) (c : nat)
  (mk : nat -> M cbevent) (ids : list nat) : M unit :=
  match ids with
  | [] => ret tt
  | id :: t =>
      ev <- mk id;;
      cb E ev;;;
      x <- get_cache c;;
      if natlist_eqb (sel (c_cbs x)) all then call_each_from sel all c mk t
      else undef VectorInvalidated
  end.
Definition call_each (sel : callbacks -> list nat) (c : nat) (mk : nat -> M cbevent)
  : M unit :=
  x <- get_cache c;;
  call_each_from sel (sel (c_cbs x)) c mk (sel (c_cbs x)).

(** bc:1491-1497 _register_hit, cm:58-61 hit.  [p] is the node whose value is
    passed by reference: each callback sees the value it holds when called. *)
Definition register_hit (c : nat) (k : K) (p : mptr) : M unit :=
  x <- get_cache c;;
  match c_stats x with
  | Some s => st <- get_stats s;; put_stats s (stats_register_hit k st)
  | None => ret tt
  end;;;
  call_each hit_cbs c (fun id => n <- deref p;; ret (EvHit id k (n_val n)));;;
  call_each acc_cbs c (fun id => ret (EvAccess id k true)).

(** bc:1501-1507 _register_miss, cm:66-69 miss *)
Definition register_miss (c : nat) (k : K) : M unit :=
  x <- get_cache c;;
  match c_stats x with
  | Some s => st <- get_stats s;; put_stats s (stats_register_miss k st)
  | None => ret tt
  end;;;
  call_each miss_cbs c (fun id => ret (EvMiss id k));;;
  call_each acc_cbs c (fun id => ret (EvAccess id k false)).

(* ------------------------------------------------------------------ *)
(** ** Size, order and erasure helpers of BaseCache *)
(* ------------------------------------------------------------------ *)

(** bc:1173-1175 *)
Definition size (c : nat) : M nat := map_size c.

(** bc:1193-1195 *)
Definition capacity (c : nat) : M nat := x <- get_cache c;; ret (c_cap x).

(** bc:1394-1400 _move_to_front(QueueIterator) *)
Definition move_to_front (c : nat) (q : option qptr) : M unit :=
  n <- size c;;
  if Nat.eqb n 1 then ret tt else list_splice_back c q.

(** bc:1407-1413 _move_to_front(MapIterator, const Value&); the assignment of
    the value may throw. *)
Definition move_to_front_value (c : nat) (i : miter) (v : V) : M unit :=
  n <- deref_it i;;
  move_to_front c (n_ord n);;;
  fallible;;;
  update_node (fst i) (fun n => MkNode (n_key n) v (n_ord n) (n_time n)).

(** bc:1423-1430 _erase(MapConstIterator); la:140-145 compares keys. *)
Definition erase_it (c : nat) (i : miter) : M unit :=
  n <- deref_it i;;
  same <- last_is c (n_key n);;
  (if same then invalidate_last c else ret tt);;;
  n <- deref_it i;;
  list_erase c (n_ord n);;;
  map_erase_it c i.

(** bc:1440-1451 _erase(const Key&, const Information&), called with references
    into node [p]. *)
Definition erase_key_info (c : nat) (p : mptr) : M unit :=
  n <- deref p;;
  same <- last_is c (n_key n);;
  (if same then invalidate_last c else ret tt);;;
  n <- deref p;;
  list_erase c (n_ord n);;;
  map_erase_key c (n_key n).

(** bc:1416-1418 _erase_lru *)
Definition erase_lru (c : nat) : M unit :=
  p <- list_front c;;
  n <- deref p;;
  i <- map_find c (n_key n);;
  match i with
  | Some i => erase_it c i
  | None => undef PastTheEnd
  end.

(** bc:1563-1565 _is_too_full *)
Definition is_too_full (c : nat) : M bool :=
  n <- size c;; cap <- capacity c;; ret (Nat.ltb cap n).

(** bc:1555-1559 _evict_lru_for *)
Definition evict_lru_for (c : nat) (key : mptr) : M unit :=
  p <- list_front c;;
  n <- deref p;;
  map_erase_key c (n_key n);;;
  list_set_front c key;;;
  q <- list_begin c;;
  move_to_front c q.

(** bc:1542-1550 _insert_new_key *)
Definition insert_new_key (c : nat) (key : mptr) : M qptr :=
  full <- is_too_full c;;
  (if full then evict_lru_for c key else list_emplace_back c key);;;
  list_prev_end c.

(** bc:1142-1146 clear() *)
Definition clear (c : nat) : M unit :=
  '(r, s) <- own c;;
  put_store r (MkStore [] (s_ord s) (s_next s) (s_epoch s));;;
  '(r, s) <- own c;;
  put_store r (MkStore (s_map s) [] (s_next s) (s_epoch s));;;
  invalidate_last c.

(** The loop "while (size() > n) _erase_lru();" of bc:1163-1165 and
    bc:1186-1188.  Recursion is on fuel; the callers pass the current size. *)
Fixpoint erase_lru_while (fuel : nat) (c : nat) (n : nat) : M unit :=
  sz <- size c;;
  if Nat.ltb n sz then
    match fuel with
    | O => undef FuelExhausted
    | S fuel => erase_lru c;;; erase_lru_while fuel c n
    end
  else ret tt.

(** bc:1156-1166 shrink *)
Definition shrink (c : nat) (new_size : nat) : M unit :=
  sz <- size c;;
  if Nat.leb sz new_size then ret tt
  else if Nat.eqb new_size 0 then clear c
  else erase_lru_while sz c new_size.

(** bc:1184-1190 capacity(size_t) *)
Definition set_capacity (c : nat) (new_capacity : nat) : M unit :=
  sz <- size c;;
  erase_lru_while sz c new_capacity;;;
  x <- get_cache c;;
  put_cache c (MkCache (c_rid x) (c_last x) new_capacity (c_stats x) (c_cbs x) (c_ttl x)).

(** bc:1202-1204 space_left: unsigned subtraction *)
Definition space_left (c : nat) : M Z :=
  cap <- capacity c;; n <- size c;;
  ret (wrap64 (Z.of_nat cap - Z.of_nat n)).

(** bc:1207-1209 is_empty, bc:1215-1217 is_full *)
Definition is_empty (c : nat) : M bool := n <- size c;; ret (Nat.eqb n 0).
Definition is_full (c : nat) : M bool :=
  n <- size c;; cap <- capacity c;; ret (Nat.eqb n cap).

(* ------------------------------------------------------------------ *)
(** ** Expiry *)
(* ------------------------------------------------------------------ *)

(** tc:375-378 _has_expired, with _time_to_live = [d] *)
Definition has_expired_info (d : Z) (n : mnode) : M bool :=
  t <- now;; ret (Z.ltb d (dcast E (t - n_time n))).

(** The timestamp given to a new Information: none for LRU::Cache
    (information.hpp:53-56), Clock::now() for LRU::TimedCache (ti:66-69, 81-85). *)
Definition timestamp (c : nat) : M Z :=
  x <- get_cache c;;
  match c_ttl x with
  | None => ret 0%Z
  | Some _ => now
  end.

(* ------------------------------------------------------------------ *)
(** ** Iterators *)
(* ------------------------------------------------------------------ *)

(** Underlying iterators: unordered_map's and std::list's. *)
Inductive upos : Type := UEnd (c : nat) | UAt (i : miter).
Inductive opos : Type := OEnd (c : nat) | OAt (q : qptr).

Definition mptr_eqb (p q : mptr) : bool :=
  Nat.eqb (fst p) (fst q) && Nat.eqb (snd p) (snd q).
Definition upos_eqb (a b : upos) : bool :=
  match a, b with
  | UEnd c, UEnd d => Nat.eqb c d
  | UAt i, UAt j => mptr_eqb (fst i) (fst j)
  | _, _ => false
  end.
Definition opos_eqb (a b : opos) : bool :=
  match a, b with
  | OEnd c, OEnd d => Nat.eqb c d
  | OAt p, OAt q => mptr_eqb p q
  | _, _ => false
  end.

(** bi:201-211: underlying iterator, cached entry (references to a node's key
    and value), cache. *)
Record uiter : Type := MkU { ui_cache : nat; ui_pos : upos; ui_entry : option mptr }.
Record oiter : Type := MkO { oi_cache : nat; oi_pos : opos; oi_entry : option mptr }.

(** bc:626-658 *)
Definition unordered_begin (c : nat) : M uiter :=
  '(r, s) <- own c;;
  match s_map s with
  | [] => ret (MkU c (UEnd c) None)
  | (i, _) :: _ => ret (MkU c (UAt ((r, i), s_epoch s)) None)
  end.
Definition unordered_end (c : nat) : uiter := MkU c (UEnd c) None.

(** bc:662-694 *)
Definition ordered_begin (c : nat) : M oiter :=
  '(r, s) <- own c;;
  match s_ord s with
  | [] => ret (MkO c (OEnd c) None)
  | (i, _) :: _ => ret (MkO c (OAt (r, i)) None)
  end.
Definition ordered_end (c : nat) : oiter := MkO c (OEnd c) None.

(** bu:126-129, bo:151-153: comparison of the underlying iterators *)
Definition u_eq (a b : uiter) : bool := upos_eqb (ui_pos a) (ui_pos b).
Definition o_eq (a b : oiter) : bool := opos_eqb (oi_pos a) (oi_pos b).

(** The element after number [i] in a sequence. *)
Fixpoint next_after {A} (i : nat) (l : list (nat * A)) : option nat :=
  match l with
  | [] => None
  | (j, _) :: t => if Nat.eqb i j
                   then match t with [] => None | (j', _) :: _ => Some j' end
                   else next_after i t
  end.

(** bu:148-152 operator++ of an unordered iterator *)
Definition u_next (it : uiter) : M uiter :=
  match ui_pos it with
  | UEnd _ => undef PastTheEnd
  | UAt i =>
      deref_it i;;;
      s <- get_store (fst (fst i));;
      match next_after (snd (fst i)) (s_map s) with
      | Some j => ret (MkU (ui_cache it) (UAt ((fst (fst i), j), snd i)) None)
      | None => ret (MkU (ui_cache it) (UEnd (ui_cache it)) None)
      end
  end.

(** bo:236-240 operator++ of an ordered iterator *)
Definition o_next (it : oiter) : M oiter :=
  match oi_pos it with
  | OEnd _ => undef PastTheEnd
  | OAt q =>
      list_deref q;;;
      s <- get_store (fst q);;
      match next_after (snd q) (s_ord s) with
      | Some j => ret (MkO (oi_cache it) (OAt (fst q, j)) None)
      | None => ret (MkO (oi_cache it) (OEnd (oi_cache it)) None)
      end
  end.

(** bo:257-261 operator-- of an ordered iterator *)
Definition o_prev (it : oiter) : M oiter :=
  match oi_pos it with
  | OEnd c =>
      '(r, s) <- own c;;
      match rev (s_ord s) with
      | [] => undef PastTheEnd
      | (j, _) :: _ => ret (MkO (oi_cache it) (OAt (r, j)) None)
      end
  | OAt q =>
      list_deref q;;;
      s <- get_store (fst q);;
      match next_after (snd q) (rev (s_ord s)) with
      | Some j => ret (MkO (oi_cache it) (OAt (fst q, j)) None)
      | None => undef PastTheEnd
      end
  end.

(** bu:169-175 operator* of an unordered iterator: the entry (node) referred to,
    and the iterator, which now caches it. *)
Definition u_deref (it : uiter) : M (mptr * uiter) :=
  match ui_entry it with
  | Some p => ret (p, it)
  | None =>
      match ui_pos it with
      | UEnd _ => undef PastTheEnd
      | UAt i => deref_it i;;; ret (fst i, MkU (ui_cache it) (ui_pos it) (Some (fst i)))
      end
  end.

(** bo:272-274, 304-316 operator*, _maybe_lookup, _lookup of an ordered iterator *)
Definition o_deref (it : oiter) : M (mptr * oiter) :=
  match oi_entry it with
  | Some p => ret (p, it)
  | None =>
      match oi_pos it with
      | OEnd _ => undef PastTheEnd
      | OAt q =>
          p <- list_deref q;;
          n <- deref p;;
          i <- map_find (oi_cache it) (n_key n);;
          match i with
          | None => undef PastTheEnd
          | Some i => ret (fst i, MkO (oi_cache it) (oi_pos it) (Some (fst i)))
          end
      end
  end.

(** tc:276-279 has_expired(key) *)
Definition has_expired_key (c : nat) (d : Z) (k : K) : M bool :=
  i <- map_find c k;;
  match i with
  | None => ret false
  | Some i => n <- deref_it i;; has_expired_info d n
  end.

(** tc:284-290 has_expired(OrderedConstIterator), of cache [c].  The iterator is passed
    by value, and a copy does not take the cached entry along (bi:88-93). *)
Definition has_expired_o (c : nat) (d : Z) (it : oiter) : M bool :=
  if o_eq it (ordered_end c) then ret false
  else
    '(p, _) <- o_deref (MkO (oi_cache it) (oi_pos it) None);;
    n <- deref p;;
    i <- map_find c (n_key n);;
    match i with
    | None => undef AssertFailed
    | Some i => n <- deref_it i;; has_expired_info d n
    end.

(** tc:295-300 has_expired(UnorderedConstIterator) *)
Definition has_expired_u (c : nat) (d : Z) (it : uiter) : M bool :=
  if u_eq it (unordered_end c) then ret false
  else
    match ui_pos it with
    | UEnd _ => undef AssertFailed
    | UAt i => n <- deref_it i;; has_expired_info d n
    end.

(** bc:731-734 and tc:303-308 is_valid(UnorderedConstIterator) *)
Definition is_valid_u (c : nat) (it : uiter) : M bool :=
  x <- get_cache c;;
  if u_eq it (unordered_end c) then ret false
  else match c_ttl x with
       | None => ret true
       | Some d => b <- has_expired_u c d it;; ret (negb b)
       end.

(** bc:741-743 and tc:311-315 is_valid(OrderedConstIterator) *)
Definition is_valid_o (c : nat) (it : oiter) : M bool :=
  x <- get_cache c;;
  if o_eq it (ordered_end c) then ret false
  else match c_ttl x with
       | None => ret true
       | Some d => b <- has_expired_o c d it;; ret (negb b)
       end.

(** bc:752-757 and tc:320-326 throw_if_invalid(UnorderedConstIterator) *)
Definition throw_if_invalid_u (c : nat) (it : uiter) : M unit :=
  x <- get_cache c;;
  if u_eq it (unordered_end c) then throw InvalidIterator
  else match c_ttl x with
       | None => ret tt
       | Some d => b <- has_expired_u c d it;;
                   if b then throw KeyExpired else ret tt
       end.

(** bc:766-770 and tc:331-336 throw_if_invalid(OrderedConstIterator) *)
Definition throw_if_invalid_o (c : nat) (it : oiter) : M unit :=
  x <- get_cache c;;
  if o_eq it (ordered_end c) then throw InvalidIterator
  else match c_ttl x with
       | None => ret tt
       | Some d => b <- has_expired_o c d it;;
                   if b then throw KeyExpired else ret tt
       end.

(** bu:181-188 entry() of an unordered iterator: the entry is built (through the
    underlying iterator, even past the end) before the validity check. *)
Definition u_entry (it : uiter) : M mptr :=
  match ui_entry it with
  | Some p => throw_if_invalid_u (ui_cache it) it;;; ret p
  | None =>
      match ui_pos it with
      | UEnd _ =>
          if lenient_end E
          then throw_if_invalid_u (ui_cache it) it;;; undef PastTheEnd
          else undef PastTheEnd
      | UAt i =>
          deref_it i;;;
          throw_if_invalid_u (ui_cache it)
            (MkU (ui_cache it) (ui_pos it) (Some (fst i)));;;
          ret (fst i)
      end
  end.

(** bu:194-204: key() and value() of an unordered iterator read the entry *)
Definition u_key (it : uiter) : M K := p <- u_entry it;; n <- deref p;; ret (n_key n).
Definition u_value (it : uiter) : M V := p <- u_entry it;; n <- deref p;; ret (n_val n).

(** bo:278-281 entry() of an ordered iterator *)
Definition o_entry (it : oiter) : M mptr :=
  throw_if_invalid_o (oi_cache it) it;;;
  '(p, _) <- o_deref it;; ret p.

(** bo:285-287 value(), bo:291-295 key() of an ordered iterator *)
Definition o_value (it : oiter) : M V := p <- o_entry it;; n <- deref p;; ret (n_val n).
Definition o_key (it : oiter) : M K :=
  throw_if_invalid_o (oi_cache it) it;;;
  match oi_pos it with
  | OEnd _ => undef PastTheEnd
  | OAt q => p <- list_deref q;; n <- deref p;; ret (n_key n)
  end.

(** bo:107-113, 324-332: conversion (copying) from an unordered iterator *)
Definition o_from_u (it : uiter) : M oiter :=
  if u_eq it (unordered_end (ui_cache it)) then throw InvalidIteratorConversion
  else match ui_pos it with
       | UEnd _ => undef PastTheEnd
       | UAt i =>
           n <- deref_it i;;
           match n_ord n with
           | Some q => ret (MkO (ui_cache it) (OAt q) None)
           | None => undef SingularIterator
           end
       end.

(** bo:123-130: the same from an rvalue, which also takes the cached entry *)
Definition o_from_u_move (it : uiter) : M oiter :=
  o <- o_from_u it;; ret (MkO (oi_cache o) (oi_pos o) (ui_entry it)).

(** bo:171-187 comparison of an ordered with an unordered iterator *)
Definition ou_eq (a : oiter) (b : uiter) : M bool :=
  if negb (Nat.eqb (oi_cache a) (ui_cache b)) then ret false
  else if u_eq b (unordered_end (ui_cache b)) then ret (o_eq a (ordered_end (oi_cache a)))
  else noexcept (o <- o_from_u b;; ret (o_eq a o)).

(* ------------------------------------------------------------------ *)
(** ** Lookup *)
(* ------------------------------------------------------------------ *)

Definition uiter_of (c : nat) (i : option miter) : uiter :=
  match i with
  | Some i => MkU c (UAt i) None
  | None => unordered_end c
  end.

(** The common hit tail of ch:155-157 and tc:201-203. *)
Definition find_hit (c : nat) (k : K) (i : miter) : M unit :=
  deref_it i;;;
  register_hit c k (fst i);;;
  n <- deref_it i;;
  move_to_front c (n_ord n);;;
  deref_it i;;;
  set_last c (Some (fst i)).

(** ch:152-177 Cache::find and tc:197-228 TimedCache::find (the const and
    non-const overloads have the same body); virtual in bc:864,876. *)
Definition find (c : nat) (k : K) : M uiter :=
  x <- get_cache c;;
  match c_ttl x with
  | None =>
      i <- map_find c k;;
      match i with
      | Some i => find_hit c k i;;; ret (uiter_of c (Some i))
      | None => register_miss c k;;; ret (uiter_of c None)
      end
  | Some d =>
      i <- map_find c k;;
      match i with
      | Some i =>
          n <- deref_it i;;
          ex <- has_expired_info d n;;
          if ex then register_miss c k;;; ret (unordered_end c)
          else find_hit c k i;;; ret (uiter_of c (Some i))
      | None => register_miss c k;;; ret (unordered_end c)
      end
  end.

(** bc:1469-1471 and tc:344-347 _last_accessed_is_ok *)
Definition last_accessed_is_ok (c : nat) : M bool :=
  x <- get_cache c;;
  match c_ttl x with
  | None => ret true
  | Some d => p <- last_ptr c;; n <- deref p;; ex <- has_expired_info d n;; ret (negb ex)
  end.

(** bc:1474-1486 and tc:350-369 _value_for_last_accessed (a reference) *)
Definition value_for_last_accessed (c : nat) : M mptr :=
  x <- get_cache c;;
  p <- last_ptr c;;
  match c_ttl x with
  | None => ret p
  | Some d => n <- deref p;; ex <- has_expired_info d n;;
              if ex then throw KeyExpired else ret p
  end.

(** bc:786-798 contains *)
Definition contains (c : nat) (k : K) : M bool :=
  hot <- last_is c k;;
  if hot then
    ok <- last_accessed_is_ok c;;
    if ok then p <- last_ptr c;; register_hit c k p;;; ret true
    else ret false
  else
    it <- find c k;; ret (negb (u_eq it (unordered_end c))).

(** bc:811-852 lookup (both overloads): a reference to the value *)
Definition lookup (c : nat) (k : K) : M mptr :=
  hot <- last_is c k;;
  if hot then
    p <- value_for_last_accessed c;;
    register_hit c k p;;;
    ret p
  else
    it <- find c k;;
    if u_eq it (unordered_end c) then throw KeyNotFound
    else u_entry it.

(** bc:879-886 operator[] *)
Definition subscript (c : nat) (k : K) : M mptr := lookup c k.

(* ------------------------------------------------------------------ *)
(** ** Insertion and erasure *)
(* ------------------------------------------------------------------ *)

Definition set_node_order (p : mptr) (q : qptr) : M unit :=
  update_node p (fun n => MkNode (n_key n) (n_val n) (Some q) (n_time n)).

(** bc:900-923 insert(key, value) *)
Definition insert (c : nat) (k : K) (v : V) : M (bool * uiter) :=
  cap <- capacity c;;
  if Nat.eqb cap 0 then ret (false, unordered_end c)
  else
    i <- map_find c k;;
    match i with
    | None =>
        t <- timestamp c;;
        '(i, fresh) <- map_emplace c (MkNode k v None t);;
        (if fresh then ret tt else undef AssertFailed);;;
        q <- insert_new_key c (fst i);;
        set_node_order (fst i) q;;;
        deref_it i;;;
        set_last c (Some (fst i));;;
        ret (true, uiter_of c (Some i))
    | Some i =>
        move_to_front_value c i v;;;
        deref_it i;;;
        set_last c (Some (fst i));;;
        ret (false, uiter_of c (Some i))
    end.

(** bc:1042-1087 emplace (both overloads, the key and value already described by
    their constructor arguments).  Differs from insert only in the order of
    assert and order assignment and in constructing the value before the
    move-to-front (a fallible step). *)
Definition emplace (c : nat) (k : K) (v : V) : M (bool * uiter) :=
  cap <- capacity c;;
  if Nat.eqb cap 0 then ret (false, unordered_end c)
  else
    fallible;;;
    i <- map_find c k;;
    match i with
    | None =>
        t <- timestamp c;;
        '(i, fresh) <- map_emplace c (MkNode k v None t);;
        q <- insert_new_key c (fst i);;
        set_node_order (fst i) q;;;
        (if fresh then ret tt else undef AssertFailed);;;
        deref_it i;;;
        set_last c (Some (fst i));;;
        ret (true, uiter_of c (Some i))
    | Some i =>
        fallible;;;
        move_to_front_value c i v;;;
        deref_it i;;;
        set_last c (Some (fst i));;;
        ret (false, uiter_of c (Some i))
    end.

(** bc:938-968, 1003-1005 insert(begin, end), insert(Range&), insert(list) *)
Definition insert_range (c : nat) (l : list (K * V)) : M nat :=
  foldM (fun cnt p => r <- insert c (fst p) (snd p);;
                      ret (if fst r then S cnt else cnt)) l 0.

(** bc:979-989 insert(Range&&).  Simplification: what the moved-from elements of
    the range look like afterwards is not modelled. *)
Definition insert_move (c : nat) (l : list (K * V)) : M nat :=
  foldM (fun cnt p => r <- emplace c (fst p) (snd p);;
                      ret (if fst r then S cnt else cnt)) l 0.

(** bc:1097-1112 erase(key) *)
Definition erase_key (c : nat) (k : K) : M bool :=
  hot <- last_is c k;;
  if hot then p <- last_ptr c;; erase_key_info c p;;; ret true
  else
    i <- map_find c k;;
    match i with
    | Some i => erase_it c i;;; ret true
    | None => ret false
    end.

(** bc:1118-1126 erase(UnorderedConstIterator) *)
Definition erase_u (c : nat) (it : uiter) : M unit :=
  if u_eq it (unordered_end c) then throw InvalidIterator
  else match ui_pos it with
       | UEnd _ => undef PastTheEnd
       | UAt i => erase_it c i
       end.

(** bc:1133-1139 erase(OrderedConstIterator): note iterator.key() checks
    validity, so it can throw for an expired element. *)
Definition erase_o (c : nat) (it : oiter) : M unit :=
  if o_eq it (ordered_end c) then throw InvalidIterator
  else
    k <- o_key it;;
    i <- map_find c k;;
    match i with
    | Some i => erase_it c i
    | None => undef PastTheEnd
    end.

(* ------------------------------------------------------------------ *)
(** ** Construction, assignment, swap, comparison *)
(* ------------------------------------------------------------------ *)

Definition empty_store : store := MkStore [] [] 0 0.

(** bc:348-352 (and ch:81-85, tc:89-95): the capacity constructor *)
Definition new_cache (cap : nat) (ttl : option Z) : M nat :=
  r <- alloc_store empty_store;;
  alloc_cache (MkCache r None cap None no_callbacks ttl).

(** bc:529 destructor *)
Definition destroy (c : nat) : M unit :=
  x <- get_cache c;; drop_store (c_rid x);;; drop_cache c.

(** If the body of a delegating constructor throws, the object is destroyed. *)
Definition with_new (cap : nat) (ttl : option Z) (body : nat -> M nat) : M nat :=
  c <- new_cache cap ttl;;
  fun w => match body c w with
           | Exc e w' => (destroy c;;; throw e) w'
           | Val _ w' => Val c w'
           | Undef u => Undef u
           | Term e => Term e
           end.

(** bc:362-369, 403-409, 471-476: capacity and lvalue range / iterators / list *)
Definition new_from (cap : nat) (ttl : option Z) (l : list (K * V)) : M nat :=
  with_new cap ttl (fun c => insert_range c l).

(** bc:383-394, 421-425: capacity inferred as max(distance, 128) *)
Definition new_from_iters (ttl : option Z) (l : list (K * V)) : M nat :=
  new_from (Nat.max (length l) DEFAULT_CAPACITY) ttl l.

(** bc:436-442 capacity and rvalue range; bc:456-463 rvalue range only, capacity
    = distance *)
Definition new_from_move (cap : nat) (ttl : option Z) (l : list (K * V)) : M nat :=
  with_new cap ttl (fun c => insert_move c l).
Definition new_from_rvalue (ttl : option Z) (l : list (K * V)) : M nat :=
  new_from_move (length l) ttl l.

(** bc:483-487 initializer list only, capacity = list.size() *)
Definition new_from_list (ttl : option Z) (l : list (K * V)) : M nat :=
  new_from (length l) ttl l.

(** Copy of a std::unordered_map: new nodes (in a new region, keeping their
    numbers), values copied including the stored QueueIterators; iteration order
    decided by [place]. *)
Definition copy_map (l : list (nat * mnode)) : list (nat * mnode) :=
  fold_left (fun acc p => place E acc p) l [].

(** bc:1530-1534 _reassign_references: each list node is re-pointed to the key
    of this cache's map.  (noexcept in C++; it cannot throw.)  The [order]
    iterators stored in the map's Information objects are not touched. *)
Fixpoint reassign (c : nat) (ids : list nat) : M unit :=
  match ids with
  | [] => ret tt
  | i :: t =>
      '(r, s) <- own c;;
      p <- list_deref (r, i);;
      n <- deref p;;
      f <- map_find c (n_key n);;
      match f with
      | None => undef PastTheEnd
      | Some f =>
          put_store r (MkStore (s_map s) (alter i (fun _ => fst f) (s_ord s))
                               (s_next s) (s_epoch s));;;
          reassign c t
      end
  end.
Definition reassign_references (c : nat) : M unit :=
  '(r, s) <- own c;; reassign c (map fst (s_ord s)).

(** bc:490-498 copy constructor (tc: also copies _time_to_live). *)
Definition copy_new (c : nat) : M nat :=
  x <- get_cache c;;
  s <- get_store (c_rid x);;
  fallible;;;
  fallible;;;
  r <- alloc_store (MkStore (copy_map (s_map s)) (s_ord s) (s_next s) 0);;
  d <- alloc_cache (MkCache r (c_last x) (c_cap x) (c_stats x) (c_cbs x) (c_ttl x));;
  reassign_references d;;;
  ret d.

(** bc:507-519 copy assignment [c = d] (noexcept; tc: also _time_to_live).  The
    old nodes of [c] are destroyed and new ones made: a fresh region. *)
Definition copy_assign (c d : nat) : M unit :=
  noexcept (
    if Nat.eqb c d then ret tt
    else
      x <- get_cache c;;
      y <- get_cache d;;
      s <- get_store (c_rid y);;
      fallible;;;
      fallible;;;
      drop_store (c_rid x);;;
      r <- alloc_store (MkStore (copy_map (s_map s)) (s_ord s) (s_next s) 0);;
      put_cache c (MkCache r (c_last y) (c_cap y) (c_stats y) (c_cbs y) (c_ttl y));;;
      reassign_references c).

(** bc:571-578 swap (noexcept): order, map, last accessed, capacity *)
Definition base_swap (c d : nat) : M unit :=
  x <- get_cache c;;
  y <- get_cache d;;
  if Nat.eqb c d then ret tt
  else
    put_cache c (MkCache (c_rid y) (c_last y) (c_cap y) (c_stats x) (c_cbs x) (c_ttl x));;;
    put_cache d (MkCache (c_rid x) (c_last x) (c_cap x) (c_stats y) (c_cbs y) (c_ttl y)).

(** tc:181-186 TimedCache::swap also swaps _time_to_live; for LRU::Cache it is
    bc:571-578. *)
Definition swap (c d : nat) : M unit :=
  x <- get_cache c;;
  y <- get_cache d;;
  base_swap c d;;;
  x' <- get_cache c;;
  put_cache c (MkCache (c_rid x') (c_last x') (c_cap x') (c_stats x') (c_cbs x') (c_ttl y));;;
  y' <- get_cache d;;
  put_cache d (MkCache (c_rid y') (c_last y') (c_cap y') (c_stats y') (c_cbs y') (c_ttl x)).

(** bc:501-504 move constructor: the new object's _capacity is never
    initialised before it is swapped into the source.  TimedCache's implicit
    move constructor then copies _time_to_live. *)
Definition move_new (c : nat) : M nat :=
  x <- get_cache c;;
  match junk E with
  | None => undef Indeterminate
  | Some n =>
      d <- new_cache n (c_ttl x);;
      base_swap d c;;;
      ret d
  end.

(** bc:522-526 move assignment [c = std::move(d)]: base swap; TimedCache's
    implicit move assignment then copies _time_to_live. *)
Definition move_assign (c d : nat) : M unit :=
  base_swap c d;;;
  x <- get_cache c;;
  y <- get_cache d;;
  put_cache c (MkCache (c_rid x) (c_last x) (c_cap x) (c_stats x) (c_cbs x) (c_ttl y)).

(** bc:1513-1523 _clear_and_increase_capacity *)
Definition clear_and_increase_capacity (c : nat) (distance : nat) : M unit :=
  clear c;;;
  x <- get_cache c;;
  if Nat.ltb (c_cap x) distance then
    put_cache c (MkCache (c_rid x) (c_last x) distance (c_stats x) (c_cbs x) (c_ttl x))
  else ret tt.

(** bc:541-545, 564-566 assignment from an lvalue range or initializer list;
    bc:554-558 from an rvalue range *)
Definition assign_range (c : nat) (l : list (K * V)) : M unit :=
  clear_and_increase_capacity c (length l);;; insert_range c l;;; ret tt.
Definition assign_move (c : nat) (l : list (K * V)) : M unit :=
  clear_and_increase_capacity c (length l);;; insert_move c l;;; ret tt.

(** information.hpp:101-109 and ti:94-97: values equal and, for timed caches,
    insertion times equal *)
Definition info_eq (timed : bool) (a b : mnode) : bool :=
  val_eqop E (n_val a) (n_val b) && (negb timed || Z.eqb (n_time a) (n_time b)).

(** operator== of std::unordered_map: same size and every element equal to the
    element of the other map with the same key *)
Definition map_eq (timed : bool) (a b : list (nat * mnode)) : bool :=
  Nat.eqb (length a) (length b) &&
  forallb (fun p => match node_with (n_key (snd p)) b with
                    | None => false
                    | Some (_, m) => key_eqop E (n_key (snd p)) (n_key m)
                                     && info_eq timed (snd p) m
                    end) a.

(** std::equal over the two orders with the lambda of bc:603-605 *)
Fixpoint order_eq (a b : list (nat * mptr)) : M bool :=
  match a, b with
  | [], [] => ret true
  | (_, p) :: a', (_, q) :: b' =>
      n <- deref p;;
      m <- deref q;;
      if key_eqop E (n_key n) (n_key m) then order_eq a' b' else ret false
  | _, _ => ret false
  end.

(** bc:594-607 operator== (and bc:616-618 operator!=, its negation) *)
Definition equals (c d : nat) : M bool :=
  noexcept (
    '(_, s) <- own c;;
    '(_, s') <- own d;;
    x <- get_cache c;;
    if Nat.eqb c d then ret true
    else if map_eq (match c_ttl x with None => false | _ => true end) (s_map s) (s_map s')
    then order_eq (s_ord s) (s_ord s')
    else ret false).

(* ------------------------------------------------------------------ *)
(** ** LRU::Cache and LRU::TimedCache only *)
(* ------------------------------------------------------------------ *)

(** ch:180-187 front, ch:190-197 back: noexcept, yet they throw when empty *)
Definition front (c : nat) : M K :=
  noexcept (
    e <- is_empty c;;
    if e then throw EmptyCache else p <- list_back c;; n <- deref p;; ret (n_key n)).
Definition back (c : nat) : M K :=
  noexcept (
    e <- is_empty c;;
    if e then throw EmptyCache else p <- list_front c;; n <- deref p;; ret (n_key n)).

(** tc:234-241 all_expired *)
Definition all_expired (c : nat) (d : Z) : M bool :=
  e <- is_empty c;;
  if e then ret true
  else
    p <- list_back c;;
    n <- deref p;;
    i <- map_find c (n_key n);;
    match i with
    | None => undef PastTheEnd
    | Some i => n <- deref_it i;; has_expired_info d n
    end.

(** tc:258-269, the loop of clear_expired; recursion on fuel (the size) *)
Fixpoint clear_expired_loop (fuel : nat) (c : nat) (d : Z) (cnt : nat) : M nat :=
  '(_, s) <- own c;;
  match s_ord s with
  | [] => ret cnt
  | (_, p) :: _ =>
      n <- deref p;;
      i <- map_find c (n_key n);;
      match i with
      | None => undef PastTheEnd
      | Some i =>
          n <- deref_it i;;
          ex <- has_expired_info d n;;
          if ex then
            match fuel with
            | O => undef FuelExhausted
            | S fuel => erase_it c i;;; clear_expired_loop fuel c d (S cnt)
            end
          else ret cnt
      end
  end.

(** tc:247-272 clear_expired *)
Definition clear_expired (c : nat) (d : Z) : M nat :=
  e <- is_empty c;;
  if e then ret 0
  else n <- size c;; clear_expired_loop n c d 0.

(* ------------------------------------------------------------------ *)
(** ** Monitoring and callback registration *)
(* ------------------------------------------------------------------ *)

(** st:60-61, st:172-175 and the constructors st:66-101: register keys *)
Definition stats_monitor (k : K) (x : statistics) : statistics :=
  match stat_find k (st_keys x) with
  | Some _ => x
  | None => MkStats (st_acc x) (st_hits x) (st_keys x ++ [(k, (0, 0)%Z)])
  end.
Definition new_stats (ks : list K) : statistics :=
  fold_left (fun x k => stats_monitor k x) ks (MkStats 0 0 []).

(** st:104-116 *)
Definition total_accesses (x : statistics) : Z := st_acc x.
Definition total_hits (x : statistics) : Z := st_hits x.
Definition total_misses (x : statistics) : Z := wrap64 (total_accesses x - total_hits x).

(** st:152-164 stats_for, operator[]; st:131-147 and key-statistics.hpp:48-50 *)
Definition stats_for (x : statistics) (k : K) : option (Z * Z) := stat_find k (st_keys x).
Definition accesses_of (h : Z * Z) : Z := wrap64 (fst h + snd h).

(** st:182-189 unmonitor ([None]: throws UnmonitoredKey), st:192-194 *)
Fixpoint stat_remove (k : K) (l : list (K * (Z * Z))) : list (K * (Z * Z)) :=
  match l with
  | [] => []
  | (k', h) :: t => if key_eqop E k k' then t else (k', h) :: stat_remove k t
  end.
Definition stats_unmonitor (k : K) (x : statistics) : option statistics :=
  match stat_find k (st_keys x) with
  | None => None
  | Some _ => Some (MkStats (st_acc x) (st_hits x) (stat_remove k (st_keys x)))
  end.
Definition stats_unmonitor_all (x : statistics) : statistics :=
  MkStats (st_acc x) (st_hits x) [].

(** st:199-206 reset_key, key-statistics.hpp:53-56.  (reset_all, st:209-213, does
    not compile when used: it names _key_map.second; not modelled.) *)
Definition stats_reset_key (k : K) (x : statistics) : option statistics :=
  match stat_find k (st_keys x) with
  | None => None
  | Some _ => Some (MkStats (st_acc x) (st_hits x)
                      (stat_update k (fun _ => (0, 0)%Z) (st_keys x)))
  end.

(** st:218-231 *)
Definition stats_is_monitoring (x : statistics) (k : K) : bool :=
  match stat_find k (st_keys x) with Some _ => true | None => false end.
Definition number_of_monitored_keys (x : statistics) : nat := length (st_keys x).

Definition set_stats (c : nat) (s : option nat) : M unit :=
  x <- get_cache c;;
  put_cache c (MkCache (c_rid x) (c_last x) (c_cap x) s (c_cbs x) (c_ttl x)).

(** bc:1243-1254 monitor(shared_ptr); bc:1263-1268 monitor(args...); bc:1273-1275
    stop_monitoring; bc:1279-1281 is_monitoring *)
Definition monitor_shared (c s : nat) : M unit := get_stats s;;; set_stats c (Some s).
Definition monitor_new (c : nat) (ks : list K) : M nat :=
  get_cache c;;; s <- alloc_stats (new_stats ks);; set_stats c (Some s);;; ret s.
Definition stop_monitoring (c : nat) : M unit := set_stats c None.
Definition is_monitoring (c : nat) : M bool :=
  x <- get_cache c;; ret (match c_stats x with Some _ => true | None => false end).

(** bc:1286-1301 stats() *)
Definition stats (c : nat) : M nat :=
  x <- get_cache c;;
  match c_stats x with Some s => ret s | None => throw NotMonitoring end.

Definition set_cbs (c : nat) (f : callbacks -> callbacks) : M unit :=
  x <- get_cache c;;
  put_cache c (MkCache (c_rid x) (c_last x) (c_cap x) (c_stats x) (f (c_cbs x)) (c_ttl x)).

(** bc:1320-1364, cm:75-118 *)
Definition add_hit_callback (c id : nat) : M unit :=
  set_cbs c (fun b => MkCbs (hit_cbs b ++ [id]) (miss_cbs b) (acc_cbs b)).
Definition add_miss_callback (c id : nat) : M unit :=
  set_cbs c (fun b => MkCbs (hit_cbs b) (miss_cbs b ++ [id]) (acc_cbs b)).
Definition add_access_callback (c id : nat) : M unit :=
  set_cbs c (fun b => MkCbs (hit_cbs b) (miss_cbs b) (acc_cbs b ++ [id])).
Definition clear_hit_callbacks (c : nat) : M unit :=
  set_cbs c (fun b => MkCbs [] (miss_cbs b) (acc_cbs b)).
Definition clear_miss_callbacks (c : nat) : M unit :=
  set_cbs c (fun b => MkCbs (hit_cbs b) [] (acc_cbs b)).
Definition clear_access_callbacks (c : nat) : M unit :=
  set_cbs c (fun b => MkCbs (hit_cbs b) (miss_cbs b) []).
Definition clear_all_callbacks (c : nat) : M unit := set_cbs c (fun _ => no_callbacks).

(* ------------------------------------------------------------------ *)
(** ** Loops a client writes over the iterator interface *)
(* ------------------------------------------------------------------ *)

Definition read_entry (p : mptr) : M (K * V) := n <- deref p;; ret (n_key n, n_val n).

(** for (it = c.ordered_begin(); it != c.ordered_end(); ++it) use( *it ) *)
Fixpoint o_collect (fuel : nat) (c : nat) (it : oiter) : M (list (K * V)) :=
  if o_eq it (ordered_end c) then ret []
  else match fuel with
       | O => undef FuelExhausted
       | S fuel =>
           '(p, it') <- o_deref it;;
           e <- read_entry p;;
           it'' <- o_next it';;
           l <- o_collect fuel c it'';;
           ret (e :: l)
       end.
Definition traverse_ordered (c : nat) : M (list (K * V)) :=
  n <- size c;; it <- ordered_begin c;; o_collect n c it.

(** for (it = c.ordered_end(); it != c.ordered_begin();) use( *--it ) *)
Fixpoint o_collect_back (fuel : nat) (c : nat) (it : oiter) : M (list (K * V)) :=
  b <- ordered_begin c;;
  if o_eq it b then ret []
  else match fuel with
       | O => undef FuelExhausted
       | S fuel =>
           it' <- o_prev it;;
           '(p, it'') <- o_deref it';;
           e <- read_entry p;;
           l <- o_collect_back fuel c it'';;
           ret (e :: l)
       end.
Definition traverse_backward (c : nat) : M (list (K * V)) :=
  n <- size c;; o_collect_back n c (ordered_end c).

(** for (auto& e : c): unordered iteration *)
Fixpoint u_collect (fuel : nat) (c : nat) (it : uiter) : M (list (K * V)) :=
  if u_eq it (unordered_end c) then ret []
  else match fuel with
       | O => undef FuelExhausted
       | S fuel =>
           '(p, it') <- u_deref it;;
           e <- read_entry p;;
           it'' <- u_next it';;
           l <- u_collect fuel c it'';;
           ret (e :: l)
       end.
Definition traverse_unordered (c : nat) : M (list (K * V)) :=
  n <- size c;; it <- unordered_begin c;; u_collect n c it.

(** it = c.ordered_begin(); for (n times) if (it != c.ordered_end()) ++it; *)
Fixpoint o_advance (n : nat) (c : nat) (it : oiter) : M oiter :=
  match n with
  | O => ret it
  | S n => if o_eq it (ordered_end c) then ret it
           else it' <- o_next it;; o_advance n c it'
  end.
Definition ordered_nth (c n : nat) : M oiter := it <- ordered_begin c;; o_advance n c it.

Fixpoint u_advance (n : nat) (c : nat) (it : uiter) : M uiter :=
  match n with
  | O => ret it
  | S n => if u_eq it (unordered_end c) then ret it
           else it' <- u_next it;; u_advance n c it'
  end.
Definition unordered_nth (c n : nat) : M uiter := it <- unordered_begin c;; u_advance n c it.

End Model.
