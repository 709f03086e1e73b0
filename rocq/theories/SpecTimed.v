(** Specification vocabulary for timed caches: insertion times, age, expiry.
    In terms of calls, their outcomes, and the readings of the clock. *)
From Coq Require Import List Arith ZArith Bool.
Import ListNotations.
From Verif Require Import Monad Types Model Api Spec SpecStats.
Set Implicit Arguments.

(** The same environment with the clock stopped at time [z]. *)
Definition frozen {K V} (z : Z) (E : env K V) : env K V :=
  MkEnv (key_equal E) (key_eqop E) (val_eqop E) (place E) (rehash E) (fun _ => z)
        (dcast E) (junk E) (lenient_end E) (fails E) (cb E).

(** The time to live a constructor is given. *)
Definition given_ttl {K V} (o : op K V) : option (option Z) :=
  match o with
  | New _ t | NewFrom _ t _ | NewIters t _ | NewMove _ t _ | NewRvalue t _ | NewList t _ => Some t
  | _ => None
  end.
(** The same constructor of LRU::Cache. *)
Definition untime {K V} (o : op K V) : op K V :=
  match o with
  | New n _ => New n None
  | NewFrom n _ l => NewFrom n None l
  | NewIters _ l => NewIters None l
  | NewMove n _ l => NewMove n None l
  | NewRvalue _ l => NewRvalue None l
  | NewList _ l => NewList None l
  | _ => o
  end.
(** Calls that both kinds of cache offer, other than == (for timed caches this
    compares insertion times, too). *)
Definition common {K V} (o : op K V) : bool :=
  match o with
  | Front _ | Back _ | HasExpired _ _ | AllExpired _ | ClearExpired _ | Equal _ _ => false
  | _ => true
  end.

Section SpecTimed.
Context {K V : Type}.
Variable E : env K V.

Notation world := (world K V).

(** Asked at time [z], cache [c] says that its element [k] has expired. *)
Definition old (c : nat) (w : world) (k : K) (z : Z) : Prop :=
  exists w', exec (frozen z E) (HasExpired c k) w = Val (RBool true) w'.

(** [k] is the key of the most recently used of the elements [l]. *)
Definition is_newest (k : K) (l : list (K * V)) : Prop :=
  exists l0 p, l = l0 ++ [p] /\ key_equal E k (fst p) = true.

(** The cache and the key of a call that inserted an element or assigned to one,
    or found one and left it in the cache. *)
Definition touched (o : op K V) (r : outcome K V) : option (nat * K) :=
  match o, r with
  | Insert c k _, Returned (RIns _ (Some _)) | Emplace c k _, Returned (RIns _ (Some _))
  | Find c k, Returned (ROpt (Some _)) | FindEntry c k, Returned (ROpt (Some _))
  | Contains c k, Returned (RBool true) | Lookup c k, Returned (RVal _)
  | Write c k _, Returned RUnit => Some (c, k)
  | _, _ => None
  end.

(** Something inserted at time [t] is, at time [z], not older than the time to
    live [d] (in whole units of the duration given to the constructor). *)
Definition young (d t z : Z) : Prop := (dcast E (z - t) <= d)%Z.

(** The readings of the clock made between two worlds. *)
Definition during (w w' : world) (i : nat) : Prop := w_reads w <= i < w_reads w'.

(** The cache in which the elements of cache [c] are after a call. *)
Definition follow (o : op K V) (r : outcome K V) (c : nat) : nat :=
  match o, r with
  | Swap a b, Returned RUnit | MoveAssign a b, Returned RUnit =>
      if Nat.eqb c a then b else if Nat.eqb c b then a else c
  | Move a, Returned (RNat d) => if Nat.eqb c a then d else c
  | _, _ => c
  end.

(** The elements a call puts into existing cache [c] at once. *)
Definition range_into (c : nat) (o : op K V) : list (K * V) :=
  match o with
  | InsertRange d l | InsertMove d l | AssignRange d l | AssignMove d l => if Nat.eqb c d then l else []
  | _ => []
  end.

(** Along the history, starting with the cache called [c], an element with key
    [k] is there after every call, and no range of elements put there contains
    [k] (a range may push out [k] and bring it back).  [c'] is where the element
    is in the end. *)
Inductive kept (k : K) : nat -> world -> list (op K V) -> nat -> world -> Prop :=
| kept_nil c w : kept k c w [] c w
| kept_cons c w o oc w1 l t c' w' :
    copy_free o = true -> call E o w oc w1 ->
    has E k (range_into c o) = false ->
    contents E (follow o oc c) w1 l -> has E k l = true ->
    kept k (follow o oc c) w1 t c' w' ->
    kept k c w (o :: t) c' w'.

(** A call, its outcome, and a cache it may add elements to. *)
Inductive adds : op K V -> outcome K V -> nat -> Prop :=
| adds_put c k v o r : puts c k v o -> adds o r c
| adds_range c l o r : puts_range c l o -> adds o r c
| adds_assign c l o r : assigns c l o -> adds o r c
| adds_build ttl cap l o c : builds ttl o cap l -> adds o (Returned (RNat c)) c.

(** Key [k] is not in cache [c] (or there is no such cache). *)
Definition absent (k : K) (c : nat) (w : world) : Prop :=
  alive w c = false \/ exists l, contents E c w l /\ has E k l = false.
Definition present (k : K) (c : nat) (w : world) : Prop :=
  exists l, contents E c w l /\ has E k l = true.

(** The access [o] to key [k] of cache [c] succeeds / does not. *)
Definition served (o : op K V) (oc : outcome K V) (c : nat) (k : K) : Prop :=
  access_of o oc = Some (c, k, true).

(** The elements [l] of cache [c], from least to most recently used, are also
    in order of insertion: whenever one has expired, so have those before it. *)
Definition in_age_order (c : nat) (w : world) (l : list (K * V)) : Prop :=
  forall l1 p l2 q l3 z, l = l1 ++ p :: l2 ++ q :: l3 -> old c w (fst q) z -> old c w (fst p) z.

(** Calls that may use an element of cache [c] again (and so change its place in
    the order), or exchange the elements of [c] for others, or destroy [c]. *)
Definition reuses (c : nat) (o : op K V) (r : outcome K V) : bool :=
  match o, r with
  | Insert d _ _, Returned (RIns true _) | Emplace d _ _, Returned (RIns true _) => false
  | Insert d _ _, Returned (RIns false None) | Emplace d _ _, Returned (RIns false None) => false
  | Find d _, Returned (ROpt None) | Contains d _, Returned (RBool false) => false
  | FindEntry d _, Threw InvalidIterator | EraseFound d _, Threw InvalidIterator => false
  | Lookup d _, Threw KeyNotFound | Write d _ _, Threw KeyNotFound => false
  | Insert d _ _, _ | Emplace d _ _, _ | Find d _, _ | FindEntry d _, _ | Contains d _, _
  | Lookup d _, _ | Write d _ _, _ | EraseFound d _, _
  | InsertRange d _, _ | InsertMove d _, _ | AssignRange d _, _ | AssignMove d _, _
  | Move d, _ | Destroy d, _ => Nat.eqb c d
  | Swap a b, _ | MoveAssign a b, _ => Nat.eqb c a || Nat.eqb c b
  | _, _ => false
  end.
(** A history after the construction of cache [c] in which every element of [c]
    is inserted once and never used again. *)
Fixpoint inserts_only (c : nat) (ops : list (op K V)) (outs : list (outcome K V)) : bool :=
  match ops, outs with
  | o :: t, r :: rs => negb (reuses c o r) && inserts_only c t rs
  | _, _ => true
  end.

(** All caches constructed are timed, and nothing in them ever expires. *)
Definition everlasting (ops : list (op K V)) : Prop :=
  forall o t, In o ops -> given_ttl o = Some t ->
  exists d, t = Some d /\ forall i j, young d (clock E i) (clock E j).

Definition monotone_time : Prop :=
  (forall i j, i <= j -> (clock E i <= clock E j)%Z) /\
  (forall x y, (x <= y)%Z -> (dcast E x <= dcast E y)%Z).

End SpecTimed.
