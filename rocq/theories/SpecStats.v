(** Specification vocabulary, continued: what a client can work out about
    monitoring, statistics and callbacks from its own calls and their outcomes. *)
From Coq Require Import List Arith ZArith Bool.
Import ListNotations.
From Verif Require Import Monad Types Model Api Spec.
Set Implicit Arguments.

(** operator== of keys is an equivalence. *)
Record eqop_good {K V} (E : env K V) : Prop := {
  eqop_refl : forall k, key_eqop E k k = true;
  eqop_sym : forall a b, key_eqop E a b = key_eqop E b a;
  eqop_trans : forall a b c, key_eqop E a b = true -> key_eqop E b c = true -> key_eqop E a c = true
}.

(** Calls that construct no timed cache. *)
Definition untimed {K V} (o : op K V) : bool :=
  match o with
  | New _ (Some _) | NewFrom _ (Some _) _ | NewIters (Some _) _ | NewMove _ (Some _) _
  | NewRvalue (Some _) _ | NewList (Some _) _ => false
  | _ => true
  end.

(** Accesses by find only. *)
Definition by_find {K V} (o : op K V) : bool :=
  match o with FindEntry _ _ | Contains _ _ | Lookup _ _ | Write _ _ _ => false | _ => true end.
(** Histories in which a client can tell from the outcome of every call whether
    it was counted as a hit or a miss: there are no timed caches, or all
    accesses are made by find. *)
Definition countable {K V} (ops : list (op K V)) : Prop :=
  forallb untimed ops = true \/ forallb by_find ops = true.

Section SpecStats.
Context {K V : Type}.

(** An access: cache, key asked for, and whether it succeeded. *)
Definition access_of (o : op K V) (r : outcome K V) : option (nat * K * bool) :=
  match o, r with
  | Find c k, Returned (ROpt (Some _)) | FindEntry c k, Returned (ROpt (Some _))
  | Contains c k, Returned (RBool true) | Lookup c k, Returned (RVal _)
  | Write c k _, Returned RUnit | EraseFound c k, Returned RUnit => Some (c, k, true)
  | Find c k, Returned (ROpt None) | FindEntry c k, Threw InvalidIterator
  | Contains c k, Returned (RBool false) | Lookup c k, Threw KeyNotFound
  | Write c k _, Threw KeyNotFound | EraseFound c k, Threw InvalidIterator => Some (c, k, false)
  | _, _ => None
  end.

(** The calls that are accesses: cache and key asked for. *)
Definition asks (o : op K V) : option (nat * K) :=
  match o with
  | Find c k | FindEntry c k | Contains c k | Lookup c k | Write c k _ | EraseFound c k => Some (c, k)
  | _ => None
  end.

(** The cache whose statistics a call reads or changes. *)
Definition uses_stats (o : op K V) : option nat :=
  match o with
  | Totals c | StatsFor c _ | StatsMonitor c _ | StatsUnmonitor c _ | StatsUnmonitorAll c
  | StatsResetKey c _ | StatsIsMonitoring c _ | StatsNumber c => Some c
  | _ => None
  end.

(** What happens to a statistics object; lists of these have the latest first. *)
Inductive bevent : Type :=
| BAccess (k : K) (hit : bool)
| BMonitor (k : K) | BUnmonitor (k : K) | BUnmonitorAll | BReset (k : K).

Definition n_accesses (b : list bevent) : nat :=
  length (filter (fun e => match e with BAccess _ _ => true | _ => false end) b).
Definition n_hits (b : list bevent) : nat :=
  length (filter (fun e => match e with BAccess _ true => true | _ => false end) b).
Definition n_misses (b : list bevent) : nat :=
  length (filter (fun e => match e with BAccess _ false => true | _ => false end) b).

(** Total accesses, hits and misses after one more access (modulo 2^64). *)
Definition counts (hit : bool) (x : Z * Z * Z) : Z * Z * Z :=
  let '(a, h, m) := x in
  (size_t (a + 1), if hit then size_t (h + 1) else h, if hit then m else size_t (m + 1)).

(** The statistics object attached to a cache. *)
Definition has_stats (w : world K V) (c s : nat) : Prop :=
  exists x, slot (w_caches w) c = Some x /\ c_stats x = Some s.

Variable E : env K V.

(** Total accesses, hits and misses that stats() of [c] shows. *)
Definition totals_are (c : nat) (w : world K V) (r : Z * Z * Z) : Prop :=
  exec E (Totals c) w = Val (RTotals (fst (fst r)) (snd (fst r)) (snd r)) w.

(** Hits and misses of a key since it was monitored (or reset); [None]: not
    monitored. *)
Fixpoint key_count (k : K) (b : list bevent) : option (nat * nat) :=
  match b with
  | [] => None
  | BMonitor k' :: t =>
      match key_count k t with
      | Some x => Some x
      | None => if key_eqop E k k' then Some (0, 0) else None
      end
  | BUnmonitor k' :: t => if key_eqop E k k' then None else key_count k t
  | BUnmonitorAll :: _ => None
  | BReset k' :: t => if key_eqop E k k' then option_map (fun _ => (0, 0)) (key_count k t) else key_count k t
  | BAccess k' hit :: t =>
      if key_eqop E k k'
      then option_map (fun x => if hit then (S (fst x), snd x) else (fst x, S (snd x))) (key_count k t)
      else key_count k t
  end.

(** Attached statistics object and registered callbacks of each cache, events of
    each statistics object. *)
Record ledger : Type := MkLedger {
  attached : nat -> option nat;
  subs : nat -> callbacks;
  books : nat -> list bevent
}.
Definition blank : ledger := MkLedger (fun _ => None) (fun _ => no_callbacks) (fun _ => []).
Definition fset {A} (f : nat -> A) (i : nat) (x : A) : nat -> A := fun j => if Nat.eqb i j then x else f j.
Definition attach c s L := MkLedger (fset (attached L) c s) (subs L) (books L).
Definition subscribe c (f : callbacks -> callbacks) L :=
  MkLedger (attached L) (fset (subs L) c (f (subs L c))) (books L).
(** An event of the statistics object attached to [c], if any. *)
Definition record c e L :=
  match attached L c with
  | Some s => MkLedger (attached L) (subs L) (fset (books L) s (e :: books L s))
  | None => L
  end.

Definition note_call (o : op K V) (r : outcome K V) (L : ledger) : ledger :=
  match access_of o r with
  | Some (c, k, hit) => record c (BAccess k hit) L
  | None =>
      match o, r with
      | MonitorNew c ks, Returned (RNat s) =>
          attach c (Some s) (MkLedger (attached L) (subs L) (fset (books L) s (rev (map BMonitor ks))))
      | MonitorShared c s, Returned RUnit => attach c (Some s) L
      | StopMonitoring c, Returned RUnit => attach c None L
      | StatsMonitor c k, Returned RUnit => record c (BMonitor k) L
      | StatsUnmonitor c k, Returned RUnit => record c (BUnmonitor k) L
      | StatsUnmonitorAll c, Returned RUnit => record c BUnmonitorAll L
      | StatsResetKey c k, Returned RUnit => record c (BReset k) L
      | AddHit c id, Returned RUnit => subscribe c (fun b => MkCbs (hit_cbs b ++ [id]) (miss_cbs b) (acc_cbs b)) L
      | AddMiss c id, Returned RUnit => subscribe c (fun b => MkCbs (hit_cbs b) (miss_cbs b ++ [id]) (acc_cbs b)) L
      | AddAccess c id, Returned RUnit => subscribe c (fun b => MkCbs (hit_cbs b) (miss_cbs b) (acc_cbs b ++ [id])) L
      | ClearHit c, Returned RUnit => subscribe c (fun b => MkCbs [] (miss_cbs b) (acc_cbs b)) L
      | ClearMiss c, Returned RUnit => subscribe c (fun b => MkCbs (hit_cbs b) [] (acc_cbs b)) L
      | ClearAccess c, Returned RUnit => subscribe c (fun b => MkCbs (hit_cbs b) (miss_cbs b) []) L
      | ClearCallbacks c, Returned RUnit => subscribe c (fun _ => no_callbacks) L
      | _, _ => L
      end
  end.
Fixpoint note_calls (ops : list (op K V)) (outs : list (outcome K V)) (L : ledger) : ledger :=
  match ops, outs with
  | o :: t, r :: rs => note_calls t rs (note_call o r L)
  | _, _ => L
  end.
Definition ledger_of ops outs := note_calls ops outs blank.

(** The accesses cache [c] makes while statistics object [s] is attached to it. *)
Fixpoint accesses_by (c s : nat) (ops : list (op K V)) (outs : list (outcome K V)) (L : ledger) : list (K * bool) :=
  match ops, outs with
  | o :: t, r :: rs =>
      match access_of o r with
      | Some (c', k, hit) =>
          if Nat.eqb c' c && match attached L c with Some s' => Nat.eqb s' s | None => false end
          then [(k, hit)] else []
      | None => []
      end ++ accesses_by c s t rs (note_call o r L)
  | _, _ => []
  end.
(** The sum of [f] over the first [n] caches. *)
Definition sum_over (n : nat) (f : nat -> nat) : nat := list_sum (map f (seq 0 n)).

(** The callbacks a hit or a miss calls. *)
Definition hit_calls (b : callbacks) (k : K) (v : V) : list (cbevent K V) :=
  map (fun id => EvHit id k v) (hit_cbs b) ++ map (fun id => EvAccess id k true) (acc_cbs b).
Definition miss_calls (b : callbacks) (k : K) : list (cbevent K V) :=
  map (fun id => EvMiss id k) (miss_cbs b) ++ map (fun id => EvAccess id k false) (acc_cbs b).

(** A list of keys without repetition. *)
Fixpoint unique_keys (l : list K) : Prop :=
  match l with
  | [] => True
  | k :: t => (forall k', In k' t -> key_eqop E k k' = false) /\ unique_keys t
  end.

End SpecStats.
