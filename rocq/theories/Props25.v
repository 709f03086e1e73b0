(** Property theorems: calls of the hash function by ranges, constructors, copies,
    comparison and timed caches. *)
From Coq Require Import List Arith ZArith Bool Permutation.
Import ListNotations.
From Verif Require Import Monad Types Model Api EnvEx Spec ExBase Searches SpecSearches MoreSearches SpecMoreSearches MoreSearchProofs MoreSearchMain MoreSearchCost.

(** Functions that never throw, and functions of which one call throws. *)
Definition never (i : nat) : option nat := None.
Definition throws_at (j n : nat) (i : nat) : option nat := if Nat.eqb i j then Some n else None.
Definition start {K V} (w : world K V) : hworld K V := MkH 0 0 w.

(** C96.  How often the hash function is called.  Apart from counting, the calls are those the other theorems are
    about. *)
Theorem C96_same_calls : forall (K V : Type) (E : env K V), good E -> forall st ct keeps o h, calm st -> calm ct ->
  reachable E (h_world h) -> also_searching o = true -> forget (m_exec E st ct keeps o h) = exec E o (h_world h).
Proof. exact @also_forget. Qed.
Print Assumptions C96_same_calls.
(** Inserting a range is inserting its elements one by one, also when a search throws. *)
Theorem C96_one_by_one : forall (K V : Type) (E : env K V), good E -> forall st ct keeps c l o f h, singly c l o f ->
  reachable E (h_world h) -> alive (h_world h) c = true ->
  m_exec E st ct keeps o h = each E st ct f l 0 h.
Proof. exact @one_by_one. Qed.
Print Assumptions C96_one_by_one.
(** ... which takes one search for each element, one more for each new key and one more for each eviction, ... *)
Theorem C96_range : forall (K V : Type) (E : env K V), good E -> forall st ct, calm st -> calm ct ->
  forall keeps c l o h l0 cap, puts_range c l o -> reachable E (h_world h) -> contents E c (h_world h) l0 ->
  capacity_is E c (h_world h) cap -> searched h (m_exec E st ct keeps o h) (range_searches E l cap l0).
Proof. exact @range_cost. Qed.
Print Assumptions C96_range.
(** ... as a constructor from a range does, ... *)
Theorem C96_constructor : forall (K V : Type) (E : env K V), good E -> forall st ct, calm st -> calm ct ->
  forall keeps ttl o cap l h, builds ttl o cap l -> reachable E (h_world h) ->
  searched h (m_exec E st ct keeps o h) (range_searches E l cap []).
Proof. exact @build_cost. Qed.
Print Assumptions C96_constructor.
(** ... and assignment from a range, which evicts nothing. *)
Theorem C96_assignment : forall (K V : Type) (E : env K V), good E -> forall st ct, calm st -> calm ct ->
  forall keeps c l o h cap, assigns c l o -> reachable E (h_world h) -> alive (h_world h) c = true ->
  capacity_is E c (h_world h) cap ->
  searched h (m_exec E st ct keeps o h) (length l + new_keys E l (Nat.max cap (length l)) []).
Proof. exact @assign_cost. Qed.
Print Assumptions C96_assignment.
(** has_expired searches once, all_expired once unless the cache is empty; comparing a cache with itself, or
    assigning it to itself, takes none. *)
Theorem C96_number : forall (K V : Type) (E : env K V), good E -> forall st ct, calm st -> calm ct ->
  forall keeps c l o n h, reachable E (h_world h) -> contents E c (h_world h) l -> also_makes c l o n ->
  well_formed (h_world h) o = true -> searched h (m_exec E st ct keeps o h) n.
Proof. exact @also_makes_ok. Qed.
Print Assumptions C96_number.
(** clear_expired searches once for each element that it removes, and once for the one at which it stops. *)
Theorem C96_clear_expired : forall (K V : Type) (E : env K V), good E -> forall st ct, calm st -> calm ct ->
  forall keeps c l h n w', reachable E (h_world h) -> contents E c (h_world h) l ->
  exec E (ClearExpired c) (h_world h) = Val (RNat n) w' ->
  searched h (m_exec E st ct keeps (ClearExpired c) h) (Nat.min (length l) (S n)).
Proof. exact @clear_cost. Qed.
Print Assumptions C96_clear_expired.
(** Comparing caches of different sizes takes no search; otherwise at most one for each element, and
    exactly that if they are equal. *)
Theorem C96_equal : forall (K V : Type) (E : env K V), good E -> forall st ct, calm st -> calm ct ->
  forall keeps c d l l' h b w', reachable E (h_world h) -> contents E c (h_world h) l -> contents E d (h_world h) l' -> c <> d ->
  exec E (Equal c d) (h_world h) = Val (RBool b) w' ->
  exists n, searched h (m_exec E st ct keeps (Equal c d) h) n /\ n <= length l /\ (b = true -> n = length l) /\
    (length l = length l' -> l <> [] -> 1 <= n) /\ (length l <> length l' -> n = 0).
Proof. exact @equal_searches. Qed.
Print Assumptions C96_equal.
(** The copy constructor and copy assignment search once for each element, and hash it once more if the
    hash table does not keep hash values. *)
Theorem C96_copy : forall (K V : Type) (E : env K V), good E -> forall st ct, calm st -> calm ct ->
  forall keeps c l h, reachable E (h_world h) -> contents E c (h_world h) l ->
  searched h (m_exec E st ct keeps (Copy c) h) (copy_searches keeps (length l)).
Proof. exact @copy_cost. Qed.
Print Assumptions C96_copy.
Theorem C96_copy_assign : forall (K V : Type) (E : env K V), good E -> forall st ct, calm st -> calm ct ->
  forall keeps c d l h, reachable E (h_world h) -> contents E d (h_world h) l -> c <> d ->
  same_kind (h_world h) c d = true ->
  searched h (m_exec E st ct keeps (CopyAssign c d) h) (copy_searches keeps (length l)).
Proof. exact @copy_assign_cost. Qed.
Print Assumptions C96_copy_assign.
(** Two caches with elements, and a timed cache of which two elements have expired. *)
Definition two : world nat nat := world_after E0 [New 3 None; NewFrom 3 None [(1, 10); (2, 20); (3, 30)]; Insert 0 1 10; Insert 0 2 20; Insert 0 3 30].
Definition aged : world nat nat := world_after ET [New 3 (Some 3%Z); Insert 0 1 10; Insert 0 2 20; AllExpired 0; Insert 0 3 30].
Lemma two_reachable : reachable E0 two. Proof. reached. Qed.
Lemma aged_reachable : reachable ET aged. Proof. reached. Qed.
Example C96_case : good E0 /\ calm never /\ reachable E0 full /\ reachable E0 two /\ reachable ET aged /\
  (* a new key, an old one and a new one into a full cache: 3 + 1 + 3 *)
  range_searches E0 [(4, 40); (2, 21); (5, 50)] 3 [(1, 10); (3, 30); (2, 20)] = 7 /\
  (exists h', m_exec E0 never never true (InsertRange 0 [(4, 40); (2, 21); (5, 50)]) (start full) = Val (RNat 2) h' /\ h_searches h' = 7) /\
  range_searches E0 [(1, 10); (2, 20); (3, 30)] 2 [] = 7 /\
  (exists h', m_exec E0 never never true (NewFrom 2 None [(1, 10); (2, 20); (3, 30)]) (start full) = Val (RNat 1) h' /\ h_searches h' = 7) /\
  (exists h', m_exec E0 never never true (AssignRange 0 [(1, 10); (2, 20); (1, 30); (4, 40)]) (start full) = Val RUnit h' /\ h_searches h' = 7) /\
  (exists h', m_exec E0 never never true (Equal 0 1) (start two) = Val (RBool true) h' /\ h_searches h' = 3) /\
  (exists h', m_exec E0 never never true (Copy 0) (start two) = Val (RNat 2) h' /\ h_searches h' = 3) /\
  (exists h', m_exec E0 never never false (CopyAssign 0 1) (start two) = Val RUnit h' /\ h_searches h' = 6) /\
  also_makes 0 [(1, 10); (2, 20); (3, 30)] (AllExpired 0 : op nat nat) 1 /\
  (exists h', m_exec ET never never true (AllExpired 0) (start aged) = Val (RBool false) h' /\ h_searches h' = 1) /\
  (exists h', m_exec ET never never true (ClearExpired 0) (start aged) = Val (RNat 2) h' /\ h_searches h' = 3).
Proof.
  split; [apply ex_good|]. split; [intros i; reflexivity|]. split; [exact full_reachable|]. split; [exact two_reachable|]. split; [exact aged_reachable|].
  split; [vm_compute; reflexivity|]. split; [eexists; split; vm_compute; reflexivity|].
  split; [vm_compute; reflexivity|]. do 5 (split; [eexists; split; vm_compute; reflexivity|]).
  split; [constructor; discriminate|]. split; [eexists; split; vm_compute; reflexivity|].
  eexists; split; vm_compute; reflexivity.
Qed.

(** C97.  An exception of the hash function reaches the caller of these calls: false.  has_expired(key) is noexcept, ... *)
Theorem C97_has_expired_refuted : exists (E : env nat nat) st ct keeps w, good E /\ reachable E w /\ calm ct /\ st 0 = Some 9 /\
  timed w 0 = true /\ m_exec E st ct keeps (HasExpired 0 2) (start w) = Term (UserExn 9).
Proof.
  exists ET, (throws_at 0 9), never, true, aged. split; [apply ex_good|]. split; [exact aged_reachable|]. split; [intros i; reflexivity|].
  split; [reflexivity|]. split; vm_compute; reflexivity.
Qed.
Print Assumptions C97_has_expired_refuted.
(** ... so are operator== and copy assignment, ... *)
Theorem C97_equal_refuted : exists (E : env nat nat) st ct keeps w, good E /\ reachable E w /\ calm ct /\ st 0 = Some 9 /\
  same_kind w 0 1 = true /\ m_exec E st ct keeps (Equal 0 1) (start w) = Term (UserExn 9) /\
  m_exec E st ct keeps (CopyAssign 0 1) (start w) = Term (UserExn 9).
Proof.
  exists E0, (throws_at 0 9), never, true, two. split; [apply ex_good|]. split; [exact two_reachable|]. split; [intros i; reflexivity|].
  split; [reflexivity|]. split; [vm_compute; reflexivity|]. split; vm_compute; reflexivity.
Qed.
Print Assumptions C97_equal_refuted.
(** ... and so is the part of the copy constructor that searches the copied hash table. *)
Theorem C97_copy_refuted : exists (E : env nat nat) st ct keeps w, good E /\ reachable E w /\ calm ct /\ st 4 = Some 9 /\
  m_exec E st ct keeps (Copy 0) (start w) = Term (UserExn 9).
Proof.
  exists E0, (throws_at 4 9), never, false, two. split; [apply ex_good|]. split; [exact two_reachable|]. split; [intros i; reflexivity|].
  split; [reflexivity|]. vm_compute. reflexivity.
Qed.
Print Assumptions C97_copy_refuted.
(** The largest true part: the first three end the program if a search throws, and never throw; ... *)
Theorem C97_sealed_partial : forall (K V : Type) (E : env K V), good E -> forall st ct keeps o h, sealed o ->
  forget (m_exec E st ct keeps o h) = exec E o (h_world h) \/ ended_searching st h (m_exec E st ct keeps o h).
Proof. exact @sealed_settles. Qed.
Print Assumptions C97_sealed_partial.
(** ... the copy constructor throws before anything has changed, or ends the program; ... *)
Theorem C97_copy_partial : forall (K V : Type) (E : env K V) st ct keeps c h,
  forget (m_exec E st ct keeps (Copy c) h) = exec E (Copy c) (h_world h) \/
  failed st h (m_exec E st ct keeps (Copy c) h) (unchanged (h_world h)) \/ ended_searching st h (m_exec E st ct keeps (Copy c) h).
Proof. exact @copy_settles. Qed.
Print Assumptions C97_copy_partial.
(** ... all_expired throws and changes nothing; ... *)
Theorem C97_all_expired_partial : forall (K V : Type) (E : env K V) st ct keeps c h,
  forget (m_exec E st ct keeps (AllExpired c) h) = exec E (AllExpired c) (h_world h) \/
  failed st h (m_exec E st ct keeps (AllExpired c) h) (unchanged (h_world h)).
Proof. exact @all_expired_settles. Qed.
Print Assumptions C97_all_expired_partial.
(** ... clear_expired throws, and has removed the first of the elements that it would have removed; ... *)
Theorem C97_clear_expired_partial : forall (K V : Type) (E : env K V), good E -> forall st ct keeps c l h,
  reachable E (h_world h) -> contents E c (h_world h) l ->
  forget (m_exec E st ct keeps (ClearExpired c) h) = exec E (ClearExpired c) (h_world h) \/
  failed st h (m_exec E st ct keeps (ClearExpired c) h) (part_cleared E c l (h_world h)) \/
  ended ct h (m_exec E st ct keeps (ClearExpired c) h).
Proof. exact @clear_settles. Qed.
Print Assumptions C97_clear_expired_partial.
(** ... a constructor throws, and leaves no cache behind and every other one as it was; ... *)
Theorem C97_constructor_partial : forall (K V : Type) (E : env K V), good E -> forall st ct keeps ttl o cap l h,
  builds ttl o cap l -> reachable E (h_world h) ->
  forget (m_exec E st ct keeps o h) = exec E o (h_world h) \/
  failed st h (m_exec E st ct keeps o h) (as_before E (h_world h)) \/ ended ct h (m_exec E st ct keeps o h).
Proof. exact @constructor_settles. Qed.
Print Assumptions C97_constructor_partial.
(** ... insertion of a range throws what the insertion of one of its elements does (see C84), with those before it inserted; ... *)
Theorem C97_range_partial : forall (K V : Type) (E : env K V), good E -> forall st ct keeps c l o f h e h',
  singly c l o f -> reachable E (h_world h) -> alive (h_world h) c = true -> m_exec E st ct keeps o h = Exc e h' ->
  exists m p outs h1, nth_error l m = Some p /\ run E (map f (firstn m l)) (h_world h) = Finished outs (h_world h1) /\
    h_searches h <= h_searches h1 /\ h_exec E st ct (f p) h1 = Exc e h'.
Proof. exact @range_threw. Qed.
Print Assumptions C97_range_partial.
(** ... and so does assignment, with the old elements gone. *)
Theorem C97_assignment_partial : forall (K V : Type) (E : env K V), good E -> forall st ct keeps c l o h e h' cap,
  assigns c l o -> reachable E (h_world h) -> alive (h_world h) c = true -> capacity_is E c (h_world h) cap ->
  m_exec E st ct keeps o h = Exc e h' ->
  exists f w1 m p outs h1, (exists o', singly c l o' f) /\ reachable E w1 /\ contents E c w1 [] /\ capacity_is E c w1 (Nat.max cap (length l)) /\
    nth_error l m = Some p /\ run E (map f (firstn m l)) w1 = Finished outs (h_world h1) /\
    h_searches h <= h_searches h1 /\ h_exec E st ct (f p) h1 = Exc e h'.
Proof. exact @assign_threw. Qed.
Print Assumptions C97_assignment_partial.
(** Cases in which something does throw. *)
Example C97_case :
  failed (throws_at 1 9) (start two) (m_exec E0 (throws_at 1 9) never false (Copy 0) (start two)) (unchanged two) /\
  failed (throws_at 0 9) (start aged) (m_exec ET (throws_at 0 9) never true (AllExpired 0) (start aged)) (unchanged aged) /\
  failed (throws_at 1 9) (start aged) (m_exec ET (throws_at 1 9) never true (ClearExpired 0) (start aged))
    (fun w => contents ET 0 w [(2, 20); (3, 30)]) /\
  failed (throws_at 3 9) (start full) (m_exec E0 (throws_at 3 9) never true (NewFrom 2 None [(7, 70); (8, 80)]) (start full))
    (fun w => alive w 1 = false /\ contents E0 0 w [(1, 10); (3, 30); (2, 20)]) /\
  failed (throws_at 2 9) (start roomy) (m_exec E0 (throws_at 2 9) never true (InsertRange 0 [(7, 70); (8, 80)]) (start roomy))
    (fun w => exists l, contents E0 0 roomy l /\ contents E0 0 w (l ++ [(7, 70)])) /\
  failed (throws_at 2 9) (start full) (m_exec E0 (throws_at 2 9) never true (AssignMove 0 [(7, 70); (8, 80)]) (start full))
    (fun w => contents E0 0 w [(7, 70)]).
Proof.
  split; [|split; [|split; [|split; [|split]]]].
  - exists 1, 9. eexists. split; [reflexivity|]. split; [repeat constructor|]. split; [|split; [vm_compute; reflexivity|]]; [reflexivity|]. vm_compute. auto.
  - exists 0, 9. eexists. split; [reflexivity|]. split; [repeat constructor|]. split; [|split; [vm_compute; reflexivity|]]; [reflexivity|]. vm_compute. auto.
  - exists 1, 9. eexists. split; [reflexivity|]. split; [repeat constructor|]. split; [|split; [vm_compute; reflexivity|]]; [reflexivity|]. vm_compute. auto.
  - exists 3, 9. eexists. split; [reflexivity|]. split; [repeat constructor|]. split; [|split; [vm_compute; reflexivity|]]; [reflexivity|].
    split; vm_compute; reflexivity.
  - exists 2, 9. eexists. split; [reflexivity|]. split; [repeat constructor|]. split; [|split; [vm_compute; reflexivity|]]; [reflexivity|].
    eexists. split; vm_compute; reflexivity.
  - exists 2, 9. eexists. split; [reflexivity|]. split; [repeat constructor|]. split; [|split; [vm_compute; reflexivity|]]; [reflexivity|].
    vm_compute; reflexivity.
Qed.
