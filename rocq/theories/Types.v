(** Data of the model: memory layout of the caches, and the environment (the
    oracles standing for everything the library does not decide itself).

    MEMORY.  Each cache object owns one std::unordered_map and one std::list
    (base-cache.hpp:1568-1571).  Swapping two standard containers exchanges
    their internals, and pointers/iterators keep following the elements.  The
    model therefore keeps the internals of the map and list of one cache in a
    numbered [store] (a "region"); the cache object holds the region number and
    swap exchanges region numbers.  A pointer to a map node (the key/Information
    pair) is (region, node number), and so is a list iterator.  Node numbers are
    never reused inside a region, so a pointer to an erased element is
    detectably dangling.

    SIMPLIFICATIONS.  (1) buckets and hashing of std::unordered_map are not
    represented: the map is the sequence of its nodes in iteration order, a
    lookup returns the node whose key is KeyEqual to the argument; the position
    a new node takes (and any reordering by a rehash) is the oracle [place].
    (2) LastAccessed's two pointers and flag (last-accessed.hpp:240-246), always
    set and cleared together and always to the two halves of one map node, are
    one optional node pointer.  (3) size_t quantities that count elements are
    [nat]; the counters of Statistics and space_left(), which could wrap, are
    [Z] modulo 2^64. *)

From Coq Require Import List Arith ZArith Bool Permutation.
Import ListNotations.
From Verif Require Import Monad.
Set Implicit Arguments.

Definition mptr : Type := (nat * nat)%type.  (* pointer to a map node *)
Definition qptr : Type := (nat * nat)%type.  (* std::list iterator (not end) *)

Section Types.
Context {K V : Type}.

(** A node of the map: std::pair<const Key, Information>
    (information.hpp:44-124; timed-information.hpp:110 adds insertion_time,
    which is 0 and never read for the untimed cache).  [n_ord = None] is the
    value-initialised QueueIterator of information.hpp:54 and :76. *)
Record mnode : Type := MkNode {
  n_key : K;
  n_val : V;
  n_ord : option qptr;
  n_time : Z
}.

(** Internals of one cache's _map and _order (base-cache.hpp:1568,1571;
    definitions.hpp:69-77).  [s_map] in iteration order; [s_ord] from begin()
    (least recent) to end() (most recent), each list node holding a
    reference_wrapper to a key of a map node.  [s_epoch] counts rehashes. *)
Record store : Type := MkStore {
  s_map : list (nat * mnode);
  s_ord : list (nat * mptr);
  s_next : nat;
  s_epoch : nat
}.

(** CallbackManager's three vectors (callback-manager.hpp:147-154); a callback
    is represented by a number. *)
Record callbacks : Type := MkCbs {
  hit_cbs : list nat;
  miss_cbs : list nat;
  acc_cbs : list nat
}.
Definition no_callbacks : callbacks := MkCbs [] [] [].

(** A cache object (base-cache.hpp:1567-1583, timed-cache.hpp:381).
    [c_ttl = None]: an LRU::Cache; [Some d]: an LRU::TimedCache with
    _time_to_live = d (in units of its Duration).  [c_stats] is the shared_ptr
    of statistics-mutator.hpp:144. *)
Record cache : Type := MkCache {
  c_rid : nat;
  c_last : option mptr;
  c_cap : nat;
  c_stats : option nat;
  c_cbs : callbacks;
  c_ttl : option Z
}.

(** Statistics (statistics.hpp:240-246); per key (hits, misses)
    (key-statistics.hpp:58-62). *)
Record statistics : Type := MkStats {
  st_acc : Z;
  st_hits : Z;
  st_keys : list (K * (Z * Z))
}.

(** An invocation of a user callback (callback-manager.hpp:58-69). *)
Inductive cbevent : Type :=
| EvHit (id : nat) (k : K) (v : V)
| EvMiss (id : nat) (k : K)
| EvAccess (id : nat) (k : K) (was_hit : bool).

(** Everything the program can reach: cache objects, regions, statistics
    objects (each table grows by one slot per allocation; a slot is emptied when
    the object dies), the log of callback invocations, the number of clock
    readings made and of fallible steps executed so far. *)
Record world : Type := MkWorld {
  w_caches : list (option cache);
  w_stores : list (option store);
  w_stats : list (option statistics);
  w_log : list cbevent;
  w_reads : nat;
  w_steps : nat
}.

Definition init_world : world := MkWorld [] [] [] [] 0 0.

(** What the library leaves to its environment. *)
Record env : Type := MkEnv {
  (** KeyEqual template parameter (base-cache.hpp:115). *)
  key_equal : K -> K -> bool;
  (** operator== of Key: used by cache comparison (base-cache.hpp:604, std::pair
      comparison) and by the std::unordered_map of Statistics
      (statistics.hpp:237). *)
  key_eqop : K -> K -> bool;
  (** operator== of Value (information.hpp:103). *)
  val_eqop : V -> V -> bool;
  (** Where std::unordered_map::emplace puts the new node. *)
  place : list (nat * mnode) -> nat * mnode -> list (nat * mnode);
  (** Whether that emplace rehashes. *)
  rehash : store -> bool;
  (** Clock::now(): the n-th reading (definitions.hpp:80), in clock ticks. *)
  clock : nat -> Z;
  (** std::chrono::duration_cast<Duration> from clock ticks
      (timed-cache.hpp:377); floating Durations are represented by scaling. *)
  dcast : Z -> Z;
  (** Value found in an uninitialised size_t, [None] for the abstract machine in
      which reading it is undefined. *)
  junk : option nat;
  (** Whether binding a reference through a past-the-end unordered_map iterator
      is harmless ([true], as compiled code behaves) or undefined ([false]). *)
  lenient_end : bool;
  (** Does the n-th fallible step (allocation, element copy) throw? *)
  fails : nat -> bool;
  (** Effect of a user callback. *)
  cb : cbevent -> M world unit
}.

End Types.

Arguments mnode : clear implicits.
Arguments store : clear implicits.
Arguments statistics : clear implicits.
Arguments cbevent : clear implicits.
Arguments world : clear implicits.
Arguments env : clear implicits.
