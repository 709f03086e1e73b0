(** Property theorems: arguments that refer into a cache, and caches used as ranges. *)
From Coq Require Import List Arith ZArith Bool Permutation.
Import ListNotations.
From Verif Require Import Monad Types Model Api EnvEx Spec ExBase Refs SpecRefs RefsProofs FillProofs FillMore FillRes.

(** C73.  A call whose arguments refer to keys and values inside of a cache does what it
    does with copies of them. *)
Theorem C73_references : forall (K V : Type) (E : env K V) husk khusk, hands_off E ->
  forall r o w, by_value w r = Some o -> rexec E husk khusk r w = exec E o w.
Proof. exact @references. Qed.
Print Assumptions C73_references.
(** insert(4, v) where v refers to the value of the element that it evicts;
    erase(k) where k refers to the key of the element that it frees;
    find(k) in a cache where k refers to a key of another one. *)
Example C73_case : hands_off E0 /\ reachable E0 full /\
  by_value full (PInsert 0 (KLoc 4) (VIn (0, 0))) = Some (Insert 0 4 10) /\
  (exists w', rexec E0 S S (PInsert 0 (KLoc 4) (VIn (0, 0))) full = Val (RIns true (Some (4, 10))) w' /\
     contents E0 0 w' [(3, 30); (2, 20); (4, 10)] /\ value_of w' (VIn (0, 0)) = None) /\
  by_value full (PErase 0 (KIn (0, 2))) = Some (Erase 0 2) /\
  (exists w', rexec E0 S S (PErase 0 (KIn (0, 2))) full = Val (RBool true) w' /\
     contents E0 0 w' [(1, 10); (3, 30)] /\ key_of w' (KIn (0, 2)) = None).
Proof.
  split. { intros ev w. destruct w. reflexivity. }
  split; [exact full_reachable|]. split; [vm_compute; reflexivity|].
  split. { eexists. split; [vm_compute; reflexivity|]. split; vm_compute; reflexivity. }
  split; [vm_compute; reflexivity|].
  eexists. split; [vm_compute; reflexivity|]. split; vm_compute; reflexivity.
Qed.

(** C74.  A cache given as a range (of its ordered or unordered iterators, or as an
    object) is a list of its elements in that order. *)
Theorem C74_insert : forall (K V : Type) (E : env K V), good E -> forall husk khusk w ord c d l,
  reachable E w -> c <> d -> elements E ord d w l ->
  rexec E husk khusk (PFill ord c d) w = exec E (InsertRange c l) w.
Proof. exact @fill_result. Qed.
Print Assumptions C74_insert.
Theorem C74_construct : forall (K V : Type) (E : env K V), good E -> forall husk khusk w ord cap ttl d l,
  reachable E w -> elements E ord d w l ->
  rexec E husk khusk (PNewFilled ord cap ttl d) w = exec E (NewFrom cap ttl l) w.
Proof. exact @new_filled_result. Qed.
Print Assumptions C74_construct.
Theorem C74_construct_sized : forall (K V : Type) (E : env K V), good E -> forall husk khusk w ord ttl d l,
  reachable E w -> elements E ord d w l ->
  rexec E husk khusk (PNewDirect ord ttl d) w = exec E (NewIters ttl l) w.
Proof. exact @new_direct_result. Qed.
Print Assumptions C74_construct_sized.
Theorem C74_assign : forall (K V : Type) (E : env K V), good E -> forall husk khusk w c d l,
  reachable E w -> c <> d -> xorb (timed w c) (timed w d) = true -> elements E false d w l ->
  rexec E husk khusk (PAssignConst c d) w = exec E (AssignRange c l) w.
Proof. exact @assign_const_result. Qed.
Print Assumptions C74_assign.
Theorem C74_insert_moved : forall (K V : Type) (E : env K V), good E -> forall husk khusk w c d l n,
  reachable E w -> c <> d -> elements E false d w l -> capacity_is E c w n ->
  exists r w1, exec E (InsertMove c l) w = Val r w1 /\
    rexec E husk khusk (PFillMove c d) w = Val r (if Nat.eqb n 0 then w1 else hollow husk d w1).
Proof. exact @fill_move_result. Qed.
Print Assumptions C74_insert_moved.
(** [hollow]: only the values of d are different, and other caches do not notice. *)
Theorem C74_moved_from : forall (K V : Type) (E : env K V), good E -> forall husk w ord d l,
  reachable E w -> elements E ord d w l ->
  elements E ord d (hollow husk d w) (map (fun p => (fst p, husk (snd p))) l).
Proof. exact @hollow_elements. Qed.
Print Assumptions C74_moved_from.
Theorem C74_moved_from_others : forall (K V : Type) (E : env K V), good E -> forall husk w d o,
  reachable E w -> alive w d = true -> copy_free o = true -> existsb (Nat.eqb d) (mentions o) = false ->
  exec E o (hollow husk d w) =
  match exec E o w with
  | Val r w' => Val r (hollow husk d w')
  | Exc e w' => Exc e (hollow husk d w')
  | Undef u => Undef u
  | Term e => Term e
  end.
Proof. exact @hollow_frame. Qed.
Print Assumptions C74_moved_from_others.
(** Cache 0 as before, the timed cache 1, room for two in cache 2. *)
Definition pair_ops : list (op nat nat) := full_ops ++ [New 9 (Some 5%Z); Insert 1 2 21; New 2 None].
Definition pair := world_after E0 pair_ops.
Lemma pair_reachable : reachable E0 pair.
Proof. eapply after_reachable; vm_compute; reflexivity. Qed.
Example C74_case : good E0 /\ reachable E0 pair /\
  elements E0 true 0 pair [(1, 10); (3, 30); (2, 20)] /\ elements E0 false 0 pair [(3, 30); (2, 20); (1, 10)] /\
  xorb (timed pair 1) (timed pair 0) = true /\ capacity_is E0 2 pair 2 /\
  (exists w', rexec E0 S S (PFill true 2 0) pair = Val (RNat 3) w' /\ contents E0 2 w' [(3, 30); (2, 20)]) /\
  (exists w', rexec E0 S S (PAssignConst 1 0) pair = Val RUnit w' /\ contents E0 1 w' [(3, 30); (2, 20); (1, 10)]) /\
  (exists w', rexec E0 (fun _ => 0) S (PFillMove 2 0) pair = Val (RNat 3) w' /\
     contents E0 2 w' [(2, 20); (1, 10)] /\ contents E0 0 w' [(1, 0); (3, 0); (2, 0)]).
Proof.
  split; [apply ex_good|]. split; [exact pair_reachable|].
  split; [vm_compute; reflexivity|]. split; [vm_compute; reflexivity|]. split; [vm_compute; reflexivity|].
  split; [vm_compute; reflexivity|].
  split; [eexists; split; vm_compute; reflexivity|]. split; [eexists; split; vm_compute; reflexivity|].
  eexists. split; [vm_compute; reflexivity|]. split; vm_compute; reflexivity.
Qed.

(** C75.  "c = d" for a cache d that is not const: c becomes a copy of d, and d stays as
    it is.  Neither: [contents] of d lose their values, c gets another order and keeps a
    larger capacity; and "c = c" empties the cache. *)
Definition triple := world_after E0 (pair_ops ++ [New 9 None]).
Lemma triple_reachable : reachable E0 triple.
Proof. eapply after_reachable; vm_compute; reflexivity. Qed.
Theorem C75_source_refuted : exists (E : env nat nat) husk khusk w c d w' l l',
  good E /\ reachable E w /\ c <> d /\ timed w c = false /\ timed w d = false /\
  rexec E husk khusk (PAssign c d) w = Val RUnit w' /\ contents E d w l /\ contents E d w' l' /\ l <> l'.
Proof.
  exists E0, (fun _ => 0), (fun k => k), triple, 3, 0. eexists. exists [(1, 10); (3, 30); (2, 20)], [(1, 0); (3, 0); (2, 0)].
  split; [apply ex_good|]. split; [exact triple_reachable|]. split; [discriminate|].
  split; [vm_compute; reflexivity|]. split; [vm_compute; reflexivity|]. split; [vm_compute; reflexivity|].
  split; [vm_compute; reflexivity|]. split; [vm_compute; reflexivity|]. discriminate.
Qed.
Print Assumptions C75_source_refuted.
Theorem C75_copy_refuted : exists (E : env nat nat) husk khusk w c d w' l m n n',
  good E /\ reachable E w /\ c <> d /\ timed w c = false /\ timed w d = false /\
  rexec E husk khusk (PAssign c d) w = Val RUnit w' /\
  contents E d w l /\ contents E c w' m /\ m <> l /\ capacity_is E d w n /\ capacity_is E c w' n' /\ n <> n'.
Proof.
  exists E0, (fun v => v), (fun k => k), triple, 3, 0. eexists. exists [(1, 10); (3, 30); (2, 20)], [(3, 30); (2, 20); (1, 10)], 3, 9.
  split; [apply ex_good|]. split; [exact triple_reachable|]. split; [discriminate|].
  split; [vm_compute; reflexivity|]. split; [vm_compute; reflexivity|]. split; [vm_compute; reflexivity|].
  split; [vm_compute; reflexivity|]. split; [vm_compute; reflexivity|]. split; [discriminate|].
  split; [vm_compute; reflexivity|]. split; [vm_compute; reflexivity|]. discriminate.
Qed.
Print Assumptions C75_copy_refuted.
Theorem C75_self_refuted : exists (E : env nat nat) husk khusk w c w' l,
  good E /\ reachable E w /\ rexec E husk khusk (PAssign c c) w = Val RUnit w' /\
  contents E c w l /\ l <> [] /\ contents E c w' [].
Proof.
  exists E0, (fun v => v), (fun k => k), full, 0. eexists. exists [(1, 10); (3, 30); (2, 20)].
  split; [apply ex_good|]. split; [exact full_reachable|]. split; [vm_compute; reflexivity|].
  split; [vm_compute; reflexivity|]. split; [discriminate|]. vm_compute; reflexivity.
Qed.
Print Assumptions C75_self_refuted.
(** What holds: c gets the keys and values that d had, in the order of the hash map, and
    room for them; d keeps its keys, their order and its capacity; other caches stay. *)
Theorem C75_assign_partial : forall (K V : Type) (E : env K V), good E -> forall husk khusk w c d l m n n',
  reachable E w -> c <> d -> elements E false d w l -> contents E d w m ->
  capacity_is E c w n -> capacity_is E d w n' ->
  exists w', rexec E husk khusk (PAssign c d) w = Val RUnit w' /\ reachable E w' /\
    contents E c w' l /\ capacity_is E c w' (Nat.max n (length l)) /\
    contents E d w' (map (fun p => (fst p, husk (snd p))) m) /\ capacity_is E d w' n' /\
    (forall ord e le, e <> c -> e <> d -> elements E ord e w le -> elements E ord e w' le).
Proof. exact @assign_cache. Qed.
Print Assumptions C75_assign_partial.
(** Everything else (statistics, callbacks, time to live) is as with an assignment from a
    list of the elements. *)
Theorem C75_as_list_partial : forall (K V : Type) (E : env K V), good E -> forall husk khusk w c d l,
  reachable E w -> c <> d -> alive w c = true -> elements E false d w l ->
  exists w1, exec E (AssignMove c l) w = Val RUnit w1 /\
    rexec E husk khusk (PAssign c d) w = Val RUnit (hollow husk d w1).
Proof. exact @assign_lvalue_result. Qed.
Print Assumptions C75_as_list_partial.
Theorem C75_self_partial : forall (K V : Type) (E : env K V), good E -> forall husk khusk w c,
  reachable E w -> rexec E husk khusk (PAssign c c) w = exec E (Clear c) w.
Proof. exact @assign_self_result. Qed.
Print Assumptions C75_self_partial.
Example C75_case : good E0 /\ reachable E0 triple /\ elements E0 false 0 triple [(3, 30); (2, 20); (1, 10)] /\
  contents E0 0 triple [(1, 10); (3, 30); (2, 20)] /\ capacity_is E0 2 triple 2 /\ capacity_is E0 0 triple 3 /\
  elements E0 true 1 triple [(2, 21)].
Proof.
  split; [apply ex_good|]. split; [exact triple_reachable|]. repeat split; vm_compute; reflexivity.
Qed.

(** C76.  "Cache e(d)" for a Cache d that is not const makes a copy.  It has another order
    and another capacity. *)
Theorem C76_copy_refuted : exists (E : env nat nat) husk khusk w d e w' l m n n',
  good E /\ reachable E w /\ rexec E husk khusk (PCopyDirect d) w = Val (RNat e) w' /\
  contents E d w l /\ contents E e w' m /\ l <> m /\ capacity_is E d w n /\ capacity_is E e w' n' /\ n <> n'.
Proof.
  exists E0, (fun v => v), (fun k => k), full, 0, 1. eexists. exists [(1, 10); (3, 30); (2, 20)], [(3, 30); (2, 20); (1, 10)], 3, 128.
  split; [apply ex_good|]. split; [exact full_reachable|]. split; [vm_compute; reflexivity|].
  split; [vm_compute; reflexivity|]. split; [vm_compute; reflexivity|]. split; [discriminate|].
  split; [vm_compute; reflexivity|]. split; [vm_compute; reflexivity|]. discriminate.
Qed.
Print Assumptions C76_copy_refuted.
(** What holds: a new cache with the keys and values of d, in the order of the hash map and
    with at least the default capacity; d and all other caches stay as they are. *)
Theorem C76_construct_partial : forall (K V : Type) (E : env K V), good E -> forall husk khusk w d l m n',
  reachable E w -> timed w d = false -> elements E false d w l -> contents E d w m -> capacity_is E d w n' ->
  exists e w', rexec E husk khusk (PCopyDirect d) w = Val (RNat e) w' /\ reachable E w' /\ alive w e = false /\
    contents E e w' l /\ capacity_is E e w' (Nat.max (length l) 128) /\
    contents E d w' m /\ capacity_is E d w' n' /\
    (forall ord f lf, elements E ord f w lf -> elements E ord f w' lf).
Proof. exact @copy_direct_cache. Qed.
Print Assumptions C76_construct_partial.
(** Everything else is as with a list of the elements: no statistics and no callbacks. *)
Theorem C76_as_list_partial : forall (K V : Type) (E : env K V), good E -> forall husk khusk w d l,
  reachable E w -> timed w d = false -> elements E false d w l ->
  rexec E husk khusk (PCopyDirect d) w = exec E (NewIters None l) w.
Proof. exact @copy_direct_result. Qed.
Print Assumptions C76_as_list_partial.
Example C76_case : good E0 /\ reachable E0 full /\ timed full 0 = false /\
  elements E0 false 0 full [(3, 30); (2, 20); (1, 10)] /\ contents E0 0 full [(1, 10); (3, 30); (2, 20)] /\
  capacity_is E0 0 full 3.
Proof. split; [apply ex_good|]. split; [exact full_reachable|]. repeat split; vm_compute; reflexivity. Qed.
