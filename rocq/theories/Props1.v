(** Property theorems: contents of a cache under single calls. *)
From Coq Require Import List Arith ZArith Bool Permutation.
Import ListNotations.
From Verif Require Import Monad Types Model Api EnvEx Spec ExBase LruProofs CallProofs.

(** C01.  A Cache in any reachable world, with contents [l] (least to most
    recent) and capacity [n], answers every history of calls as the textbook
    cache of Spec.v does, and ends in the corresponding state. *)
Theorem C01_textbook_lru : forall (K V : Type) (E : env K V), good E ->
  forall w c n l calls,
  reachable E w -> timed w c = false -> contents E c w l -> capacity_is E c w n ->
  match lrun E calls (Lru n (rev l)) with
  | (answers, Some s) =>
      exists outs w', run E (map (on c) calls) w = Finished outs w' /\ agrees calls outs answers /\
        contents E c w' (rev (items s)) /\ capacity_is E c w' (lcap s)
  | (answers, None) =>
      exists outs, run E (map (on c) calls) w = Terminated outs EmptyCache /\ agrees calls outs answers
  end.
Proof. exact @lru_refinement. Qed.
Print Assumptions C01_textbook_lru.
Example C01_case : good E0 /\ reachable E0 full /\ timed full 0 = false /\
  contents E0 0 full [(1, 10); (3, 30); (2, 20)] /\ capacity_is E0 0 full 3 /\
  lrun E0 [LInsert 4 40; LContains 1; LLookup 3; LFront; LOrdered] (Lru 3 [(2, 20); (3, 30); (1, 10)]) =
    ([Returned (RIns true (Some (4, 40))); Returned (RBool false); Returned (RVal 30);
      Returned (RKey 3); Returned (REnts [(2, 20); (4, 40); (3, 30)])],
     Some (Lru 3 [(3, 30); (4, 40); (2, 20)])).
Proof.
  split; [apply ex_good|]. split; [apply full_reachable|]. repeat split; vm_compute; reflexivity.
Qed.

(** C02 *)
Theorem C02_size_le_capacity : forall (K V : Type) (E : env K V), good E ->
  forall w c n m, reachable E w -> size_is E c w n -> capacity_is E c w m -> n <= m.
Proof. exact @size_le_capacity. Qed.
Print Assumptions C02_size_le_capacity.
Example C02_case : reachable E0 full /\ size_is E0 0 full 3 /\ capacity_is E0 0 full 3.
Proof. split; [apply full_reachable|split; vm_compute; reflexivity]. Qed.

(** C03 *)
Theorem C03_keys_unique : forall (K V : Type) (E : env K V), good E ->
  forall w c l, reachable E w ->
  exec E (Ordered c) w = Val (REnts l) w \/ exec E (Backward c) w = Val (REnts l) w \/
  exec E (Unordered c) w = Val (REnts l) w ->
  distinct E l /\ size_is E c w (length l).
Proof. exact @keys_unique. Qed.
Print Assumptions C03_keys_unique.
Example C03_case : reachable E0 full /\ exec E0 (Unordered 0) full = Val (REnts [(3, 30); (2, 20); (1, 10)]) full.
Proof. split; [apply full_reachable|vm_compute; reflexivity]. Qed.

(** C06 *)
Theorem C06_insert_into_full : forall (K V : Type) (E : env K V), good E ->
  forall w c k v o p l, puts c k v o -> reachable E w ->
  contents E c w (p :: l) -> capacity_is E c w (length (p :: l)) -> look E k (p :: l) = None ->
  exists w', exec E o w = Val (RIns true (Some (k, v))) w' /\
    contents E c w' (l ++ [(k, v)]) /\ capacity_is E c w' (length (p :: l)).
Proof. exact @put_full. Qed.
Print Assumptions C06_insert_into_full.
Example C06_case : reachable E0 full /\ contents E0 0 full ((1, 10) :: [(3, 30); (2, 20)]) /\
  capacity_is E0 0 full 3 /\ look E0 4 ((1, 10) :: [(3, 30); (2, 20)]) = None.
Proof. split; [apply full_reachable|]. repeat split; vm_compute; reflexivity. Qed.

(** C07 *)
Theorem C07_insert_with_room : forall (K V : Type) (E : env K V), good E ->
  forall w c k v o l n, puts c k v o -> reachable E w ->
  contents E c w l -> capacity_is E c w n -> length l < n -> look E k l = None ->
  exists w', exec E o w = Val (RIns true (Some (k, v))) w' /\
    contents E c w' (l ++ [(k, v)]) /\ capacity_is E c w' n.
Proof. exact @put_room. Qed.
Print Assumptions C07_insert_with_room.
Example C07_case : reachable E0 roomy /\ contents E0 0 roomy [(1, 10); (3, 30); (2, 20)] /\
  capacity_is E0 0 roomy 5 /\ look E0 4 [(1, 10); (3, 30); (2, 20)] = None.
Proof. split; [apply roomy_reachable|]. repeat split; vm_compute; reflexivity. Qed.

(** C08, C58.  Any key equal to a stored one: the stored key stays, the value is
    replaced, the element becomes the most recent. *)
Theorem C08_insert_present : forall (K V : Type) (E : env K V), good E ->
  forall w c k v o l n k0 v0, puts c k v o -> reachable E w ->
  contents E c w l -> capacity_is E c w n -> look E k l = Some (k0, v0) ->
  exists w', exec E o w = Val (RIns false (Some (k0, v))) w' /\
    contents E c w' (without E k l ++ [(k0, v)]) /\ capacity_is E c w' n.
Proof. exact @put_present. Qed.
Print Assumptions C08_insert_present.
Example C08_case : reachable E0 full /\ contents E0 0 full [(1, 10); (3, 30); (2, 20)] /\
  look E0 3 [(1, 10); (3, 30); (2, 20)] = Some (3, 30) /\
  without E0 3 [(1, 10); (3, 30); (2, 20)] ++ [(3, 31)] = [(1, 10); (2, 20); (3, 31)].
Proof. split; [apply full_reachable|]. repeat split; vm_compute; reflexivity. Qed.

(** C09.  [reads] are find, contains and lookup; writing through operator[] or
    lookup() is the second theorem. *)
Theorem C09_hit : forall (K V : Type) (E : env K V), good E ->
  forall w c k l n p o ans, reads c k o ans -> reachable E w -> timed w c = false ->
  contents E c w l -> capacity_is E c w n -> look E k l = Some p ->
  exists w', call E o w (ans (Some p)) w' /\
    contents E c w' (without E k l ++ [p]) /\ capacity_is E c w' n.
Proof. exact @access_hit. Qed.
Print Assumptions C09_hit.
Theorem C09_write_hit : forall (K V : Type) (E : env K V), good E ->
  forall w c k v l n k0 v0, reachable E w -> timed w c = false ->
  contents E c w l -> capacity_is E c w n -> look E k l = Some (k0, v0) ->
  exists w', exec E (Write c k v) w = Val RUnit w' /\
    contents E c w' (without E k l ++ [(k0, v)]) /\ capacity_is E c w' n.
Proof. exact @write_hit. Qed.
Print Assumptions C09_write_hit.
Example C09_case : reachable E0 full /\ timed full 0 = false /\
  contents E0 0 full [(1, 10); (3, 30); (2, 20)] /\ capacity_is E0 0 full 3 /\
  look E0 1 [(1, 10); (3, 30); (2, 20)] = Some (1, 10) /\
  without E0 1 [(1, 10); (3, 30); (2, 20)] ++ [(1, 10)] = [(3, 30); (2, 20); (1, 10)].
Proof. split; [apply full_reachable|]. repeat split; vm_compute; reflexivity. Qed.

(** C10 *)
Theorem C10_miss : forall (K V : Type) (E : env K V), good E ->
  forall w c k l n o ans, reads c k o ans -> reachable E w -> timed w c = false ->
  contents E c w l -> capacity_is E c w n -> look E k l = None ->
  exists w', call E o w (ans None) w' /\ contents E c w' l /\ capacity_is E c w' n.
Proof. exact @access_miss. Qed.
Print Assumptions C10_miss.
Theorem C10_write_miss : forall (K V : Type) (E : env K V), good E ->
  forall w c k v l n, reachable E w -> timed w c = false ->
  contents E c w l -> capacity_is E c w n -> look E k l = None ->
  exists w', exec E (Write c k v) w = Exc KeyNotFound w' /\
    contents E c w' l /\ capacity_is E c w' n.
Proof. exact @write_miss. Qed.
Print Assumptions C10_write_miss.
Example C10_case : reachable E0 full /\ timed full 0 = false /\
  contents E0 0 full [(1, 10); (3, 30); (2, 20)] /\ capacity_is E0 0 full 3 /\
  look E0 4 [(1, 10); (3, 30); (2, 20)] = None.
Proof. split; [apply full_reachable|]. repeat split; vm_compute; reflexivity. Qed.

(** C12 *)
Theorem C12_erase_key : forall (K V : Type) (E : env K V), good E ->
  forall w c k l n, reachable E w -> contents E c w l -> capacity_is E c w n ->
  exists w', exec E (Erase c k) w = Val (RBool (has E k l)) w' /\
    contents E c w' (without E k l) /\ capacity_is E c w' n.
Proof. exact @erase_result. Qed.
Print Assumptions C12_erase_key.
Example C12_case : reachable E0 full /\ contents E0 0 full [(1, 10); (3, 30); (2, 20)] /\
  capacity_is E0 0 full 3 /\ has E0 3 [(1, 10); (3, 30); (2, 20)] = true /\
  without E0 3 [(1, 10); (3, 30); (2, 20)] = [(1, 10); (2, 20)].
Proof. split; [apply full_reachable|]. repeat split; vm_compute; reflexivity. Qed.

(** C13: iterators from ordered_begin()+i, begin()+i and find(). *)
Theorem C13_erase_ordered_iterator : forall (K V : Type) (E : env K V), good E ->
  forall w c l n i, reachable E w -> timed w c = false ->
  contents E c w l -> capacity_is E c w n ->
  match nth_error l i with
  | Some (k, _) => exists w', exec E (EraseOrdered c i) w = Val RUnit w' /\
      contents E c w' (without E k l) /\ capacity_is E c w' n
  | None => exists w', exec E (EraseOrdered c i) w = Exc InvalidIterator w' /\
      contents E c w' l /\ capacity_is E c w' n
  end.
Proof. exact @erase_ordered. Qed.
Print Assumptions C13_erase_ordered_iterator.
Theorem C13_erase_unordered_iterator : forall (K V : Type) (E : env K V), good E ->
  forall w c l n u i, reachable E w ->
  contents E c w l -> capacity_is E c w n -> exec E (Unordered c) w = Val (REnts u) w ->
  match nth_error u i with
  | Some (k, _) => exists w', exec E (EraseUnordered c i) w = Val RUnit w' /\
      contents E c w' (without E k l) /\ capacity_is E c w' n
  | None => exists w', exec E (EraseUnordered c i) w = Exc InvalidIterator w' /\
      contents E c w' l /\ capacity_is E c w' n
  end.
Proof. exact @erase_unordered. Qed.
Print Assumptions C13_erase_unordered_iterator.
Theorem C13_erase_found : forall (K V : Type) (E : env K V), good E ->
  forall w c l n k, reachable E w -> timed w c = false ->
  contents E c w l -> capacity_is E c w n ->
  if has E k l then exists w', exec E (EraseFound c k) w = Val RUnit w' /\
      contents E c w' (without E k l) /\ capacity_is E c w' n
  else exists w', exec E (EraseFound c k) w = Exc InvalidIterator w' /\
      contents E c w' l /\ capacity_is E c w' n.
Proof. exact @erase_found. Qed.
Print Assumptions C13_erase_found.
Example C13_case : reachable E0 full /\ timed full 0 = false /\
  contents E0 0 full [(1, 10); (3, 30); (2, 20)] /\ capacity_is E0 0 full 3 /\
  exec E0 (Unordered 0) full = Val (REnts [(3, 30); (2, 20); (1, 10)]) full /\
  nth_error [(3, 30); (2, 20); (1, 10)] 0 = Some (3, 30) /\ has E0 3 [(1, 10); (3, 30); (2, 20)] = true.
Proof. split; [apply full_reachable|]. repeat split; vm_compute; reflexivity. Qed.

(** C15 *)
Theorem C15_shrink : forall (K V : Type) (E : env K V), good E ->
  forall w c l n m, reachable E w -> contents E c w l -> capacity_is E c w n ->
  exists w', exec E (Shrink c m) w = Val RUnit w' /\
    contents E c w' (newest m l) /\ capacity_is E c w' n.
Proof. exact @shrink_result. Qed.
Print Assumptions C15_shrink.
Example C15_case : reachable E0 full /\ contents E0 0 full [(1, 10); (3, 30); (2, 20)] /\
  newest 2 [(1, 10); (3, 30); (2, 20)] = [(3, 30); (2, 20)].
Proof. split; [apply full_reachable|]. repeat split; vm_compute; reflexivity. Qed.

(** C16 *)
Theorem C16_set_capacity : forall (K V : Type) (E : env K V), good E ->
  forall w c l m, reachable E w -> contents E c w l ->
  exists w', exec E (SetCapacity c m) w = Val RUnit w' /\
    contents E c w' (newest m l) /\ capacity_is E c w' m.
Proof. exact @set_capacity_result. Qed.
Print Assumptions C16_set_capacity.
Example C16_case : reachable ET timed_full /\ contents ET 0 timed_full [(1, 10); (3, 30); (2, 20)].
Proof. split; [apply timed_full_reachable|]. repeat split; vm_compute; reflexivity. Qed.

(** C17: size_t has 64 bits; is_full() iff nothing is left (m - n is the exact
    difference since n <= m by C02). *)
Theorem C17_space_left : forall (K V : Type) (E : env K V), good E ->
  forall w c n m, reachable E w -> alive w c = true -> size_is E c w n -> capacity_is E c w m ->
  (Z.of_nat m < 2 ^ 64)%Z ->
  exec E (SpaceLeft c) w = Val (RZ (Z.of_nat m - Z.of_nat n)) w /\ (0 <= Z.of_nat m - Z.of_nat n)%Z /\
  exec E (IsFull c) w = Val (RBool (Nat.eqb (m - n) 0)) w /\
  exec E (IsEmpty c) w = Val (RBool (Nat.eqb n 0)) w.
Proof. exact @space_result. Qed.
Print Assumptions C17_space_left.
Example C17_case : reachable E0 roomy /\ alive roomy 0 = true /\ size_is E0 0 roomy 3 /\
  capacity_is E0 0 roomy 5 /\ (Z.of_nat 5 < 2 ^ 64)%Z.
Proof. split; [apply roomy_reachable|]. repeat split; vm_compute; reflexivity. Qed.

(** C18: in every reachable world a cache of capacity 0 is empty, and inserting
    reports failure and stores nothing. *)
Theorem C18_capacity_zero : forall (K V : Type) (E : env K V), good E ->
  forall w c k v o, puts c k v o -> reachable E w -> alive w c = true -> capacity_is E c w 0 ->
  contents E c w [] /\
  exists w', exec E o w = Val (RIns false None) w' /\ contents E c w' [] /\ capacity_is E c w' 0.
Proof. exact @put_zero. Qed.
Print Assumptions C18_capacity_zero.
Definition zero : world nat nat := world_after E0 (full_ops ++ [SetCapacity 0 0]).
Example C18_case : reachable E0 zero /\ alive zero 0 = true /\ capacity_is E0 0 zero 0.
Proof. split; [reached|]. repeat split; vm_compute; reflexivity. Qed.

(** C22 *)
Theorem C22_traversals : forall (K V : Type) (E : env K V), good E ->
  forall w c l, reachable E w -> contents E c w l ->
  exec E (Backward c) w = Val (REnts (rev l)) w /\
  (exists u, exec E (Unordered c) w = Val (REnts u) w /\ Permutation u l) /\
  size_is E c w (length l) /\ distinct E l.
Proof. exact @traversals. Qed.
Print Assumptions C22_traversals.
Example C22_case : reachable E0 full /\ contents E0 0 full [(1, 10); (3, 30); (2, 20)].
Proof. split; [apply full_reachable|apply full_contents]. Qed.

(** C24 *)
Theorem C24_emplace_is_insert : forall (K V : Type) (E : env K V), good E ->
  forall w c k v, reachable E w -> alive w c = true ->
  exists r w1 w2, exec E (Insert c k v) w = Val r w1 /\ exec E (Emplace c k v) w = Val r w2 /\
    same_seen E w1 w2.
Proof. exact @insert_emplace. Qed.
Print Assumptions C24_emplace_is_insert.
Example C24_case : reachable ET timed_full /\ alive timed_full 0 = true.
Proof. split; [apply timed_full_reachable|vm_compute; reflexivity]. Qed.
