(** Property theorems: calls of the hash function and of KeyEqual. *)
From Coq Require Import List Arith ZArith Bool Permutation.
Import ListNotations.
From Verif Require Import Monad Types Model Api EnvEx Spec ExBase Searches SpecSearches SearchProofs SearchMain SearchCost.

(** Functions that never throw, and functions of which one call throws. *)
Definition never (i : nat) : option nat := None.
Definition throws_at (j n : nat) (i : nat) : option nat := if Nat.eqb i j then Some n else None.
Lemma never_calm : calm never. Proof. intros i. reflexivity. Qed.
Definition start {K V} (w : world K V) : hworld K V := MkH 0 0 w.

(** C83.  "A contains(key) + lookup(key) sequence will involve only a single hash table
    lookup": after a call that has found or stored the key, contains, lookup and a
    write through lookup search no more, for any key equal to it. *)
Theorem C83_once : forall (K V : Type) (E : env K V), good E -> forall st ct, calm st -> calm ct ->
  forall c k o h r h1 k' o2, reachable E (h_world h) ->
  h_exec E st ct o h = Val r h1 -> finds c k o r ->
  key_equal E k k' = true -> accesses c k' o2 -> searched h1 (h_exec E st ct o2 h1) 0.
Proof. exact @once. Qed.
Print Assumptions C83_once.
(** The first of them searches at most once. *)
Theorem C83_at_most_once : forall (K V : Type) (E : env K V), good E -> forall st ct, calm st -> calm ct ->
  forall c k o h, reachable E (h_world h) -> accesses c k o ->
  exists n, n <= 1 /\ searched h (h_exec E st ct o h) n.
Proof. exact @at_most_once. Qed.
Print Assumptions C83_at_most_once.
(** The number of searches of the other calls. *)
Theorem C83_number : forall (K V : Type) (E : env K V), good E -> forall st ct, calm st -> calm ct ->
  forall c l cap o n h, reachable E (h_world h) -> contents E c (h_world h) l -> capacity_is E c (h_world h) cap ->
  makes E c l cap o n -> searched h (h_exec E st ct o h) n.
Proof. exact @makes_ok. Qed.
Print Assumptions C83_number.
(** Apart from counting, the calls are those the other theorems are about. *)
Theorem C83_same_calls : forall (K V : Type) (E : env K V), good E -> forall st ct o h, calm st -> calm ct ->
  searching o = true -> forget (h_exec E st ct o h) = exec E o (h_world h).
Proof. exact @calm_forget. Qed.
Print Assumptions C83_same_calls.
(** In the full cache [full]: contains(1) searches once, then lookup(1) not at all;
    inserting a fourth key searches three times. *)
Example C83_case : good E0 /\ reachable E0 full /\
  (exists h1, h_exec E0 never never (Contains 0 1) (start full) = Val (RBool true) h1 /\ h_searches h1 = 1 /\
     finds 0 1 (Contains 0 1) (RBool true : out nat nat) /\ accesses 0 1 (Lookup 0 1 : op nat nat) /\
     exists h2, h_exec E0 never never (Lookup 0 1) h1 = Val (RVal 10) h2 /\ h_searches h2 = 1) /\
  makes E0 0 [(1, 10); (3, 30); (2, 20)] 3 (Insert 0 4 40) 3 /\
  (exists h1, h_exec E0 never never (Insert 0 4 40) (start full) = Val (RIns true (Some (4, 40))) h1 /\ h_searches h1 = 3) /\
  makes E0 0 [(1, 10); (3, 30); (2, 20)] 3 (SetCapacity 0 1) 2 /\
  (exists h1, h_exec E0 never never (SetCapacity 0 1) (start full) = Val RUnit h1 /\ h_searches h1 = 2) /\
  (* keys equal but not identical *)
  (exists h1 h2, h_exec (mod_env still) never never (Contains 0 1) (start (world_after (mod_env still) [New 2 None; Insert 0 1 7; Insert 0 2 8])) = Val (RBool true) h1 /\
     key_equal (mod_env still) 1 11 = true /\
     h_exec (mod_env still) never never (Lookup 0 11) h1 = Val (RVal 7) h2 /\ h_searches h2 = 1).
Proof.
  split; [apply ex_good|]. split; [exact full_reachable|]. split; [|split; [|split; [|split; [|split]]]].
  - eexists. split; [vm_compute; reflexivity|]. split; [vm_compute; reflexivity|]. split; [constructor|]. split; [constructor|].
    eexists. split; [vm_compute; reflexivity|vm_compute; reflexivity].
  - eapply makes_evict; [left; reflexivity|vm_compute; reflexivity|reflexivity|repeat constructor].
  - eexists. split; [vm_compute; reflexivity|vm_compute; reflexivity].
  - exact (makes_capacity E0 0 [(1, 10); (3, 30); (2, 20)] 3 1).
  - eexists. split; [vm_compute; reflexivity|vm_compute; reflexivity].
  - eexists. eexists. split; [vm_compute; reflexivity|]. split; [vm_compute; reflexivity|].
    split; [vm_compute; reflexivity|vm_compute; reflexivity].
Qed.

(** C84.  An exception of the hash function leaves the cache as it was: false.  Inserting
    into a full cache searches a third time, to erase the least recent key, when the new key is
    already in the hash table: the cache then has more elements than its capacity, and looking
    up the new key is undefined. *)
Theorem C84_insert_refuted : exists (E : env nat nat) st ct w h', good E /\ reachable E w /\ calm ct /\
  contents E 0 w [(1, 10); (3, 30); (2, 20)] /\ capacity_is E 0 w 3 /\
  h_exec E st ct (Insert 0 4 40) (start w) = Exc (UserExn 9) h' /\
  size_is E 0 (h_world h') 4 /\ capacity_is E 0 (h_world h') 3 /\
  exec E (Lookup 0 4) (h_world h') = Undef SingularIterator.
Proof.
  exists E0, (throws_at 2 9), never, full. eexists.
  split; [apply ex_good|]. split; [exact full_reachable|]. split; [exact never_calm|].
  split; [exact full_contents|]. split; [exact full_capacity|]. split; [vm_compute; reflexivity|].
  split; [vm_compute; reflexivity|]. split; [vm_compute; reflexivity|vm_compute; reflexivity].
Qed.
Print Assumptions C84_insert_refuted.
(** Erasing the last accessed key takes it off the list, then searches for it in the table:
    the key then is still found, and looking it up is undefined. *)
Theorem C84_erase_refuted : exists (E : env nat nat) st ct w h', good E /\ reachable E w /\ calm ct /\
  contents E 0 w [(1, 10); (3, 30); (2, 20)] /\
  h_exec E st ct (Erase 0 2) (start w) = Exc (UserExn 9) h' /\
  size_is E 0 (h_world h') 3 /\ exec E (Ordered 0) (h_world h') = Val (REnts [(1, 10); (3, 30)]) (h_world h') /\
  exec E (Lookup 0 2) (h_world h') = Undef DanglingListNode.
Proof.
  exists E0, (throws_at 0 9), never, full. eexists.
  split; [apply ex_good|]. split; [exact full_reachable|]. split; [exact never_calm|].
  split; [exact full_contents|]. split; [vm_compute; reflexivity|].
  split; [vm_compute; reflexivity|]. split; [vm_compute; reflexivity|vm_compute; reflexivity].
Qed.
Print Assumptions C84_erase_refuted.
(** The largest true part.  Calls that search before they change anything: find, contains,
    lookup, insertion of a key that is there or for which there is room, and erasure of
    a key that is not the most recent one. *)
Theorem C84_early_partial : forall (K V : Type) (E : env K V), good E ->
  forall st ct o h, reachable E (h_world h) -> early E (h_world h) o ->
  forget (h_exec E st ct o h) = exec E o (h_world h) \/
  failed st h (h_exec E st ct o h) (unchanged (h_world h)) \/ ended ct h (h_exec E st ct o h).
Proof. exact @early_settles. Qed.
Print Assumptions C84_early_partial.
(** shrink and capacity stop early, as if shrinking to a larger size had been asked for. *)
Theorem C84_shrink_partial : forall (K V : Type) (E : env K V), good E ->
  forall st ct c n h l o, reachable E (h_world h) -> contents E c (h_world h) l ->
  o = Shrink c n \/ o = SetCapacity c n ->
  forget (h_exec E st ct o h) = exec E o (h_world h) \/
  failed st h (h_exec E st ct o h)
    (fun w => exists m, n < m /\ m <= length l /\ exec E (Shrink c m) (h_world h) = Val RUnit w) \/
  ended ct h (h_exec E st ct o h).
Proof. exact @shrinking_settles. Qed.
Print Assumptions C84_shrink_partial.
(** Cases in which something does throw. *)
Example C84_case : early E0 roomy (Insert 0 4 40) /\ early E0 full (Erase 0 3) /\ early E0 full (Insert 0 1 11) /\
  failed (throws_at 1 9) (start roomy) (h_exec E0 (throws_at 1 9) never (Insert 0 4 40) (start roomy)) (unchanged roomy) /\
  failed (throws_at 0 9) (start full) (h_exec E0 (throws_at 0 9) never (Erase 0 3) (start full)) (unchanged full) /\
  failed (throws_at 1 9) (start full) (h_exec E0 (throws_at 1 9) never (SetCapacity 0 1) (start full))
    (fun w => contents E0 0 w [(3, 30); (2, 20)] /\ capacity_is E0 0 w 3).
Proof.
  split; [|split; [|split; [|split; [|split]]]].
  - eapply early_insert; [vm_compute; reflexivity|vm_compute; reflexivity|right; vm_compute; auto].
  - eapply early_erase; [vm_compute; reflexivity|].
    intros l' p X. destruct l' as [|a [|b [|d [|? ?]]]]; inversion X; reflexivity.
  - eapply early_insert; [vm_compute; reflexivity|vm_compute; reflexivity|left; vm_compute; discriminate].
  - exists 1, 9. eexists. split; [reflexivity|]. split; [repeat constructor|].
    split; [|split; [vm_compute; reflexivity|]]; [reflexivity|]. vm_compute. auto.
  - exists 0, 9. eexists. split; [reflexivity|]. split; [repeat constructor|].
    split; [|split; [vm_compute; reflexivity|]]; [reflexivity|]. vm_compute. auto.
  - exists 1, 9. eexists. split; [reflexivity|]. split; [repeat constructor|].
    split; [|split; [vm_compute; reflexivity|]]; [reflexivity|].
    split; [vm_compute; reflexivity|vm_compute; reflexivity].
Qed.

(** C85.  An exception of KeyEqual reaches the caller: false.  The comparison with
    the last accessed key is noexcept. *)
Theorem C85_reaches_refuted : exists (E : env nat nat) st ct w, good E /\ reachable E w /\ calm st /\
  ct 0 = Some 9 /\ h_exec E st ct (Contains 0 1) (start w) = Term (UserExn 9) /\
  h_exec E st ct (Lookup 0 1) (start w) = Term (UserExn 9) /\
  h_exec E st ct (Erase 0 1) (start w) = Term (UserExn 9).
Proof.
  exists E0, never, (throws_at 0 9), full.
  split; [apply ex_good|]. split; [exact full_reachable|]. split; [exact never_calm|].
  split; [reflexivity|]. split; [vm_compute; reflexivity|]. split; [vm_compute; reflexivity|vm_compute; reflexivity].
Qed.
Print Assumptions C85_reaches_refuted.
(** The largest true part: whatever a search throws does reach the caller, and only a
    comparison with the last accessed key that throws ends the program. *)
Theorem C85_search_partial : forall (K V : Type) (E : env K V), good E ->
  forall st ct o h, searching o = true ->
  forget (h_exec E st ct o h) = exec E o (h_world h) \/
  failed st h (h_exec E st ct o h) (fun _ => True) \/ ended ct h (h_exec E st ct o h).
Proof. exact @any_settles. Qed.
Print Assumptions C85_search_partial.
Example C85_case : searching (Contains 0 1 : op nat nat) = true /\
  failed (throws_at 0 9) (start full) (h_exec E0 (throws_at 0 9) never (Contains 0 1) (start full)) (fun _ => True) /\
  ended (throws_at 0 9) (start full) (h_exec E0 never (throws_at 0 9) (Contains 0 1) (start full)).
Proof.
  split; [reflexivity|]. split.
  - exists 0, 9. eexists. split; [reflexivity|]. split; [repeat constructor|].
    split; [|split; [vm_compute; reflexivity|]]; [reflexivity|exact I].
  - exists 0, 9. split; [reflexivity|]. split; [repeat constructor|vm_compute; reflexivity].
Qed.
