(** The functions of Model.v that search the hash table, or compare a key with
    the last accessed one, written once more with the calls of the user's
    HashFunction and KeyEqual made visible: they are counted, and they may throw.

    A search (unordered_map::find, emplace, erase(key)) calls the hash function
    once; it or KeyEqual may throw during the search, before anything has been
    changed (for emplace and erase(key) this is the standard's guarantee).
    unordered_map::erase(iterator) does not search.
    LastAccessed::operator== calls KeyEqual once if the object is valid.

    Abbreviations as in Model.v.  Each function is its namesake of Model.v, which
    has the comments on the rest.  Iteration is in IterSearches.v; has_expired, clear_expired,
    constructors, copies and comparison of caches are in MoreSearches.v. *)
From Coq Require Import List Arith ZArith Bool.
Import ListNotations.
From Verif Require Import Monad Types Model Api.
Set Implicit Arguments.
Local Open Scope cpp_scope.

Section Searches.
Context {K V : Type}.
Variable E : env K V.
(** What the n-th search, and the n-th comparison with the last accessed key,
    throws (if anything). *)
Variables search_throws compare_throws : nat -> option nat.

(** The number of searches and of comparisons so far, and the world. *)
Record hworld : Type := MkH { h_searches : nat; h_compares : nat; h_world : world K V }.
Notation H := (M hworld).

(** A part of the code without searches. *)
Definition lift {A} (m : M (world K V) A) : H A := fun h =>
  match m (h_world h) with
  | Val a w => Val a (MkH (h_searches h) (h_compares h) w)
  | Exc e w => Exc e (MkH (h_searches h) (h_compares h) w)
  | Undef u => Undef u
  | Term e => Term e
  end.
Definition search : H unit := fun h =>
  let h' := MkH (S (h_searches h)) (h_compares h) (h_world h) in
  match search_throws (h_searches h) with Some n => Exc (UserExn n) h' | None => Val tt h' end.
Definition compare : H unit := fun h =>
  let h' := MkH (h_searches h) (S (h_compares h)) (h_world h) in
  match compare_throws (h_compares h) with Some n => Exc (UserExn n) h' | None => Val tt h' end.

(** _map.find(key), _map.emplace(key, information), _map.erase(key) *)
Definition h_map_find (c : nat) (k : K) : H (option miter) := search;;; lift (map_find E c k).
Definition h_map_emplace (c : nat) (n : mnode K V) : H (miter * bool) := search;;; lift (map_emplace E c n).
Definition h_map_erase_key (c : nat) (k : K) : H unit := search;;; lift (map_erase_key E c k).

(** la:122-145 operator==(last_accessed, key) and (last_accessed, iterator), noexcept *)
Definition h_last_is (c : nat) (k : K) : H bool :=
  x <- lift (get_cache c);;
  match c_last x with
  | None => ret false
  | Some p => noexcept (compare;;; n <- lift (deref p);; ret (key_equal E k (n_key n)))
  end.

(** bc:1423-1430 _erase(MapConstIterator) *)
Definition h_erase_it (c : nat) (i : miter) : H unit :=
  n <- lift (deref_it i);;
  same <- h_last_is c (n_key n);;
  (if same then lift (invalidate_last c) else ret tt);;;
  n <- lift (deref_it i);;
  lift (list_erase c (n_ord n));;;
  lift (map_erase_it c i).

(** bc:1440-1451 _erase(const Key&, const Information&) *)
Definition h_erase_key_info (c : nat) (p : mptr) : H unit :=
  n <- lift (deref p);;
  same <- h_last_is c (n_key n);;
  (if same then lift (invalidate_last c) else ret tt);;;
  n <- lift (deref p);;
  lift (list_erase c (n_ord n));;;
  h_map_erase_key c (n_key n).

(** bc:1416-1418 _erase_lru *)
Definition h_erase_lru (c : nat) : H unit :=
  p <- lift (list_front c);;
  n <- lift (deref p);;
  i <- h_map_find c (n_key n);;
  match i with
  | Some i => h_erase_it c i
  | None => undef PastTheEnd
  end.

(** bc:1555-1559 _evict_lru_for *)
Definition h_evict_lru_for (c : nat) (key : mptr) : H unit :=
  p <- lift (list_front c);;
  n <- lift (deref p);;
  h_map_erase_key c (n_key n);;;
  lift (list_set_front c key);;;
  q <- lift (list_begin c);;
  lift (move_to_front c q).

(** bc:1542-1550 _insert_new_key *)
Definition h_insert_new_key (c : nat) (key : mptr) : H qptr :=
  full <- lift (is_too_full c);;
  (if full then h_evict_lru_for c key else lift (list_emplace_back E c key));;;
  lift (list_prev_end c).

(** The loop of bc:1163-1165 and bc:1186-1188 *)
Fixpoint h_erase_lru_while (fuel : nat) (c : nat) (n : nat) : H unit :=
  sz <- lift (size c);;
  if Nat.ltb n sz then
    match fuel with
    | O => undef FuelExhausted
    | S fuel => h_erase_lru c;;; h_erase_lru_while fuel c n
    end
  else ret tt.

(** bc:1156-1166 shrink *)
Definition h_shrink (c : nat) (new_size : nat) : H unit :=
  sz <- lift (size c);;
  if Nat.leb sz new_size then ret tt
  else if Nat.eqb new_size 0 then lift (clear c)
  else h_erase_lru_while sz c new_size.

(** bc:1184-1190 capacity(size_t) *)
Definition h_set_capacity (c : nat) (new_capacity : nat) : H unit :=
  sz <- lift (size c);;
  h_erase_lru_while sz c new_capacity;;;
  x <- lift (get_cache c);;
  lift (put_cache c (MkCache (c_rid x) (c_last x) new_capacity (c_stats x) (c_cbs x) (c_ttl x))).

(** ch:152-177 Cache::find and tc:197-228 TimedCache::find *)
Definition h_find (c : nat) (k : K) : H uiter :=
  x <- lift (get_cache c);;
  match c_ttl x with
  | None =>
      i <- h_map_find c k;;
      match i with
      | Some i => lift (find_hit E c k i);;; ret (uiter_of c (Some i))
      | None => lift (register_miss E c k);;; ret (uiter_of c None)
      end
  | Some d =>
      i <- h_map_find c k;;
      match i with
      | Some i =>
          n <- lift (deref_it i);;
          ex <- lift (has_expired_info E d n);;
          if ex then lift (register_miss E c k);;; ret (unordered_end c)
          else lift (find_hit E c k i);;; ret (uiter_of c (Some i))
      | None => lift (register_miss E c k);;; ret (unordered_end c)
      end
  end.

(** bc:786-798 contains *)
Definition h_contains (c : nat) (k : K) : H bool :=
  hot <- h_last_is c k;;
  if hot then
    ok <- lift (last_accessed_is_ok E c);;
    if ok then p <- lift (last_ptr c);; lift (register_hit E c k p);;; ret true
    else ret false
  else
    it <- h_find c k;; ret (negb (u_eq it (unordered_end c))).

(** bc:811-852 lookup *)
Definition h_lookup (c : nat) (k : K) : H mptr :=
  hot <- h_last_is c k;;
  if hot then
    p <- lift (value_for_last_accessed E c);;
    lift (register_hit E c k p);;;
    ret p
  else
    it <- h_find c k;;
    if u_eq it (unordered_end c) then throw KeyNotFound
    else lift (u_entry E it).

(** bc:900-923 insert(key, value) *)
Definition h_insert (c : nat) (k : K) (v : V) : H (bool * uiter) :=
  cap <- lift (capacity c);;
  if Nat.eqb cap 0 then ret (false, unordered_end c)
  else
    i <- h_map_find c k;;
    match i with
    | None =>
        t <- lift (timestamp E c);;
        '(i, fresh) <- h_map_emplace c (MkNode k v None t);;
        (if fresh then ret tt else undef AssertFailed);;;
        q <- h_insert_new_key c (fst i);;
        lift (set_node_order (fst i) q);;;
        lift (deref_it i);;;
        lift (set_last c (Some (fst i)));;;
        ret (true, uiter_of c (Some i))
    | Some i =>
        lift (move_to_front_value E c i v);;;
        lift (deref_it i);;;
        lift (set_last c (Some (fst i)));;;
        ret (false, uiter_of c (Some i))
    end.

(** bc:1042-1087 emplace *)
Definition h_emplace (c : nat) (k : K) (v : V) : H (bool * uiter) :=
  cap <- lift (capacity c);;
  if Nat.eqb cap 0 then ret (false, unordered_end c)
  else
    lift (fallible E);;;
    i <- h_map_find c k;;
    match i with
    | None =>
        t <- lift (timestamp E c);;
        '(i, fresh) <- h_map_emplace c (MkNode k v None t);;
        q <- h_insert_new_key c (fst i);;
        lift (set_node_order (fst i) q);;;
        (if fresh then ret tt else undef AssertFailed);;;
        lift (deref_it i);;;
        lift (set_last c (Some (fst i)));;;
        ret (true, uiter_of c (Some i))
    | Some i =>
        lift (fallible E);;;
        lift (move_to_front_value E c i v);;;
        lift (deref_it i);;;
        lift (set_last c (Some (fst i)));;;
        ret (false, uiter_of c (Some i))
    end.

(** bc:1097-1112 erase(key) *)
Definition h_erase_key (c : nat) (k : K) : H bool :=
  hot <- h_last_is c k;;
  if hot then p <- lift (last_ptr c);; h_erase_key_info c p;;; ret true
  else
    i <- h_map_find c k;;
    match i with
    | Some i => h_erase_it c i;;; ret true
    | None => ret false
    end.

(** The calls covered. *)
Definition searching (o : op K V) : bool :=
  match o with
  | Insert _ _ _ | Emplace _ _ _ | Find _ _ | Contains _ _ | Lookup _ _ | Write _ _ _
  | Erase _ _ | Shrink _ _ | SetCapacity _ _ => true
  | _ => false
  end.
Definition h_body (o : op K V) : H (out K V) :=
  match o with
  | Insert c k v => r <- h_insert c k v;; e <- lift (denotes c (snd r));; ret (RIns (fst r) e)
  | Emplace c k v => r <- h_emplace c k v;; e <- lift (denotes c (snd r));; ret (RIns (fst r) e)
  | Find c k => it <- h_find c k;; e <- lift (denotes c it);; ret (ROpt e)
  | Contains c k => b <- h_contains c k;; ret (RBool b)
  | Lookup c k => p <- h_lookup c k;; n <- lift (deref p);; ret (RVal (n_val n))
  | Write c k v =>
      p <- h_lookup c k;;
      lift (update_node p (fun n => MkNode (n_key n) v (n_ord n) (n_time n)));;; ret RUnit
  | Erase c k => b <- h_erase_key c k;; ret (RBool b)
  | Shrink c n => h_shrink c n;;; ret RUnit
  | SetCapacity c n => h_set_capacity c n;;; ret RUnit
  | _ => lift (body E o)
  end.
Definition h_exec (o : op K V) : H (out K V) := fun h =>
  if well_formed (h_world h) o then h_body o h else Val RIll h.

End Searches.
Arguments hworld : clear implicits.
