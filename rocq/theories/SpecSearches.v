(** Specification vocabulary for the calls of the hash function and of KeyEqual. *)
From Coq Require Import List Arith ZArith Bool.
Import ListNotations.
From Verif Require Import Monad Types Model Api Spec Searches.
Set Implicit Arguments.

Section SpecSearches.
Context {K V : Type}.

(** Nothing throws. *)
Definition calm (f : nat -> option nat) : Prop := forall i, f i = None.

(** Without the counters. *)
Definition forget {A} (r : res (hworld K V) A) : res (world K V) A :=
  match r with
  | Val a h => Val a (h_world h)
  | Exc e h => Exc e (h_world h)
  | Undef u => Undef u
  | Term e => Term e
  end.

(** The call returned, or threw, after this number of searches. *)
Definition searched {A} (h : hworld K V) (r : res (hworld K V) A) (n : nat) : Prop :=
  match r with
  | Val _ h' | Exc _ h' => h_searches h' = h_searches h + n
  | _ => False
  end.

(** The call has looked at, or stored, an element with key [k]. *)
Inductive finds (c : nat) (k : K) : op K V -> out K V -> Prop :=
| finds_insert v b e : finds c k (Insert c k v) (RIns b (Some e))
| finds_emplace v b e : finds c k (Emplace c k v) (RIns b (Some e))
| finds_find e : finds c k (Find c k) (ROpt (Some e))
| finds_contains : finds c k (Contains c k) (RBool true)
| finds_lookup v : finds c k (Lookup c k) (RVal v)
| finds_write v : finds c k (Write c k v) RUnit.

(** Accesses to one key. *)
Inductive accesses (c : nat) (k : K) : op K V -> Prop :=
| accesses_contains : accesses c k (Contains c k)
| accesses_lookup : accesses c k (Lookup c k)
| accesses_write v : accesses c k (Write c k v).

(** No cache, statistics object or log entry is different. *)
Definition unchanged (w w' : world K V) : Prop :=
  w_caches w' = w_caches w /\ w_stores w' = w_stores w /\ w_stats w' = w_stats w /\ w_log w' = w_log w.

(** A search made during the call threw, and its exception arrived at the caller,
    in a world of which [P] holds. *)
Definition failed {A} (st : nat -> option nat) (h : hworld K V) (r : res (hworld K V) A) (P : world K V -> Prop) : Prop :=
  exists i n h', st i = Some n /\ h_searches h <= i /\ h_searches h' = S i /\
    r = Exc (UserExn n) h' /\ P (h_world h').
(** A comparison with the last accessed key made during the call threw, which
    ended the program. *)
Definition ended {A} (ct : nat -> option nat) (h : hworld K V) (r : res (hworld K V) A) : Prop :=
  exists i n, ct i = Some n /\ h_compares h <= i /\ r = Term (UserExn n).

(** Calls that search only before they change anything. *)
Inductive early (E : env K V) (w : world K V) : op K V -> Prop :=
| early_find c k : early E w (Find c k)
| early_access c k o : accesses c k o -> early E w o
| early_insert c k v l n : contents E c w l -> capacity_is E c w n ->
    look E k l <> None \/ length l < n -> early E w (Insert c k v)
| early_emplace c k v l n : contents E c w l -> capacity_is E c w n ->
    look E k l <> None \/ length l < n -> early E w (Emplace c k v)
| early_erase c k l : contents E c w l ->
    (forall l' p, l = l' ++ [p] -> key_equal E k (fst p) = false) -> early E w (Erase c k).

(** How many searches a call makes in a cache with the elements [l], least recent
    first, and this capacity. *)
Inductive makes (E : env K V) (c : nat) (l : list (K * V)) (cap : nat) : op K V -> nat -> Prop :=
| makes_find k : makes E c l cap (Find c k) 1
| makes_access k o : accesses c k o ->
    (forall l' p, l = l' ++ [p] -> key_equal E k (fst p) = false) -> makes E c l cap o 1
| makes_erase k : makes E c l cap (Erase c k) 1
| makes_nothing k v o : o = Insert c k v \/ o = Emplace c k v -> cap = 0 -> makes E c l cap o 0
| makes_update k v o : o = Insert c k v \/ o = Emplace c k v -> look E k l <> None -> makes E c l cap o 1
| makes_new k v o : o = Insert c k v \/ o = Emplace c k v -> look E k l = None -> length l < cap ->
    makes E c l cap o 2
| makes_evict k v o : o = Insert c k v \/ o = Emplace c k v -> look E k l = None -> length l = cap -> 0 < cap ->
    makes E c l cap o 3
| makes_clear : makes E c l cap (Shrink c 0) 0
| makes_shrink m : 0 < m -> makes E c l cap (Shrink c m) (length l - m)
| makes_capacity m : makes E c l cap (SetCapacity c m) (length l - m).

End SpecSearches.
