(** Property theorems: iterators to the element that is evicted. *)
From Coq Require Import List Arith ZArith Bool Lia.
Import ListNotations.
From Verif Require Import Monad Types Model Api EnvEx Spec SpecTimed SpecIter ExBase EvictIter.

(** C92.  An ordered iterator to the least recently used element that has been
    dereferenced keeps its reference to that element: after an insertion that
    evicts the element it still gives that reference, which is dangling. *)
Theorem C92_used_iterator_refuted : exists it it1 q w', good E0 /\ reachable E0 full /\
  contents E0 0 full [(1, 10); (3, 30); (2, 20)] /\ ordered_nth 0 0 full = Val it full /\
  o_deref E0 it full = Val (q, it1) full /\
  exec E0 (Insert 0 4 40) full = Val (RIns true (Some (4, 40))) w' /\
  contents E0 0 w' [(3, 30); (2, 20); (4, 40)] /\
  ordered_nth 0 2 w' = Val it w' /\
  o_deref E0 it1 w' = Val (q, it1) w' /\ read_entry q w' = Undef DanglingNode.
Proof.
  do 3 eexists. exists (world_after E0 (full_ops ++ [Insert 0 4 40])). split; [apply ex_good|].
  split; [exact full_reachable|]. split; [exact full_contents|].
  split; [vm_compute; reflexivity|]. split; [vm_compute; reflexivity|]. split; [vm_compute; reflexivity|].
  split; [vm_compute; reflexivity|]. split; [vm_compute; reflexivity|]. split; vm_compute; reflexivity.
Qed.
Print Assumptions C92_used_iterator_refuted.

(** One that has not been dereferenced is, afterwards, the iterator to the inserted element. *)
Theorem C92_unused_iterator_partial : forall (K V : Type) (E : env K V), good E ->
  forall w c k v o p l it, puts c k v o -> reachable E w ->
  contents E c w (p :: l) -> capacity_is E c w (length (p :: l)) -> look E k (p :: l) = None ->
  ordered_nth c 0 w = Val it w ->
  exists w', exec E o w = Val (RIns true (Some (k, v))) w' /\
    ordered_nth c (length l) w' = Val it w' /\ o_shows E it w' k v.
Proof. exact @evicted_shows. Qed.
Print Assumptions C92_unused_iterator_partial.
Example C92_case : exists it w', puts 0 4 40 (Emplace 0 4 40) /\ reachable E0 full /\
  contents E0 0 full ((1, 10) :: [(3, 30); (2, 20)]) /\ capacity_is E0 0 full 3 /\
  look E0 4 [(1, 10); (3, 30); (2, 20)] = None /\ ordered_nth 0 0 full = Val it full /\
  exec E0 (Emplace 0 4 40) full = Val (RIns true (Some (4, 40))) w' /\
  ordered_nth 0 2 w' = Val it w' /\ o_shows E0 it full 1 10 /\ o_shows E0 it w' 4 40.
Proof.
  eexists. exists (world_after E0 (full_ops ++ [Emplace 0 4 40])). split; [constructor|].
  split; [exact full_reachable|]. split; [exact full_contents|].
  split; [vm_compute; reflexivity|]. split; [vm_compute; reflexivity|]. split; [vm_compute; reflexivity|].
  split; [vm_compute; reflexivity|]. split; [vm_compute; reflexivity|].
  split; eexists _, _; split; vm_compute; reflexivity.
Qed.

(** One that has: every reference got through it before is dangling, dereferencing
    it again gives the same reference, and key() is the inserted key (in a cache
    without time to live). *)
Theorem C92_used_iterator_partial : forall (K V : Type) (E : env K V), good E ->
  forall w c k v o p l it it1 q, puts c k v o -> reachable E w ->
  contents E c w (p :: l) -> capacity_is E c w (length (p :: l)) -> look E k (p :: l) = None ->
  ordered_nth c 0 w = Val it w -> o_deref E it w = Val (q, it1) w ->
  exists w', exec E o w = Val (RIns true (Some (k, v))) w' /\
    o_deref E it1 w' = Val (q, it1) w' /\ read_entry q w' = Undef DanglingNode /\
    (ttl_of c w None -> o_key E it1 w' = Val k w').
Proof. exact @evicted_used. Qed.
Print Assumptions C92_used_iterator_partial.
Example C92_used_case : exists it it1 q w', puts 0 4 40 (Insert 0 4 40) /\ reachable E0 full /\
  contents E0 0 full ((1, 10) :: [(3, 30); (2, 20)]) /\ capacity_is E0 0 full 3 /\
  look E0 4 [(1, 10); (3, 30); (2, 20)] = None /\ ordered_nth 0 0 full = Val it full /\
  o_deref E0 it full = Val (q, it1) full /\ ttl_of 0 full None /\
  exec E0 (Insert 0 4 40) full = Val (RIns true (Some (4, 40))) w' /\
  read_entry q full = Val (1, 10) full /\ read_entry q w' = Undef DanglingNode /\ o_key E0 it1 w' = Val 4 w'.
Proof.
  do 3 eexists. exists (world_after E0 (full_ops ++ [Insert 0 4 40])). split; [constructor|].
  split; [exact full_reachable|]. split; [exact full_contents|].
  split; [vm_compute; reflexivity|]. split; [vm_compute; reflexivity|]. split; [vm_compute; reflexivity|].
  split; [vm_compute; reflexivity|]. split; [eexists; split; vm_compute; reflexivity|]. split; [vm_compute; reflexivity|].
  split; [vm_compute; reflexivity|]. split; vm_compute; reflexivity.
Qed.
