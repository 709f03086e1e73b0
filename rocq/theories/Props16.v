(** Property theorems: vectors as ranges, std::swap, and a cache inserted into itself. *)
From Coq Require Import List Arith ZArith Bool Permutation.
Import ListNotations.
From Verif Require Import Monad Types Model Api EnvEx Spec SpecPair ExBase Refs SpecRefs VecProofs SwapProofs SelfFill.

(** C77.  "c = v" leaves the vector v as it is (only "c = std::move(v)" may not).  False if v
    is not const: the call selects operator=(Range&&).  The result of [PAssignVec] is v
    after the call. *)
Theorem C77_vector_refuted : exists (E : env nat nat) husk khusk w c l l' w',
  good E /\ reachable E w /\ alive w c = true /\
  rexec E husk khusk (PAssignVec c l) w = Val (REnts l') w' /\ l' <> l.
Proof.
  exists E0, (fun _ => 0), (fun k => k), full, 0, [(5, 50)]. eexists. eexists.
  split; [apply ex_good|]. split; [exact full_reachable|]. split; [vm_compute; reflexivity|].
  split; [vm_compute; reflexivity|]. discriminate.
Qed.
Print Assumptions C77_vector_refuted.
(** What it does: what assigning the rvalue does, so each key and value of v was moved from. *)
Theorem C77_assign_partial : forall (K V : Type) (E : env K V) husk khusk w c l, alive w c = true ->
  rexec E husk khusk (PAssignVec c l) w =
  giving (fun _ => REnts (map (fun p => (khusk (fst p), husk (snd p))) l)) (exec E (AssignMove c l) w).
Proof. exact @assign_vec_result. Qed.
Print Assumptions C77_assign_partial.
(** Inserting an rvalue moves from each key and value, or from none if there is no room. *)
Theorem C77_insert_partial : forall (K V : Type) (E : env K V) husk khusk w c l n, capacity_is E c w n ->
  rexec E husk khusk (PInsertVec c l) w =
  giving (fun _ => REnts (if Nat.eqb n 0 then l else map (fun p => (khusk (fst p), husk (snd p))) l))
    (exec E (InsertMove c l) w).
Proof. exact @insert_vec_result. Qed.
Print Assumptions C77_insert_partial.
Example C77_case : alive full 0 = true /\ capacity_is E0 0 full 3 /\
  (exists w', rexec E0 (fun _ => 0) S (PInsertVec 0 [(5, 50); (1, 11)]) full = Val (REnts [(6, 0); (2, 0)]) w' /\
    contents E0 0 w' [(2, 20); (5, 50); (1, 11)]) /\
  (exists w', rexec E0 (fun _ => 0) S (PAssignVec 0 [(5, 50); (1, 11)]) full = Val (REnts [(6, 0); (2, 0)]) w' /\
    contents E0 0 w' [(5, 50); (1, 11)]).
Proof.
  split; [vm_compute; reflexivity|]. split; [vm_compute; reflexivity|].
  split; eexists; split; vm_compute; reflexivity.
Qed.

(** C78.  swap(c, d) (not c.swap(d)) for two objects of type LRU::Cache exchanges their
    elements, orders and capacities.  The call selects std::swap, which move constructs a
    temporary, and that reads an uninitialised variable. *)
Theorem C78_swap_refuted : exists (E : env nat nat) husk khusk w c d,
  good E /\ reachable E w /\ alive w c = true /\ alive w d = true /\ timed w c = false /\ timed w d = false /\
  rexec E husk khusk (PSwap c d) w = Undef Indeterminate.
Proof.
  exists (strict_env still), S, S, (world_after (strict_env still) [New 3 None; Insert 0 1 10; New 2 None]), 0, 1.
  split; [apply strict_good|]. split; [eapply after_reachable; vm_compute; reflexivity|].
  split; [vm_compute; reflexivity|]. split; [vm_compute; reflexivity|]. split; [vm_compute; reflexivity|].
  split; [vm_compute; reflexivity|]. vm_compute; reflexivity.
Qed.
Print Assumptions C78_swap_refuted.
(** What holds: where that read gives some value, std::swap exchanges the elements with
    their order, capacities and ages; statistics and callbacks stay with the objects; other
    caches are not changed.  c and d may be the same object. *)
Theorem C78_swap_partial : forall (K V : Type) (E : env K V), good E -> forall husk khusk w c d n,
  reachable E w -> alive w c = true -> alive w d = true -> timed w c = false -> timed w d = false -> junk E = Some n ->
  exists w', rexec E husk khusk (PSwap c d) w = Val RUnit w' /\ reachable E w' /\
    same_elements E c w' d w /\ same_elements E d w' c w /\ keeps_books c w w' /\ keeps_books d w w' /\
    (forall e, alive w e = true -> e <> c -> e <> d -> same_elements E e w' e w /\ keeps_books e w w') /\
    w_stats w' = w_stats w /\ w_log w' = w_log w /\ w_reads w' = w_reads w.
Proof. exact @std_swap_result. Qed.
Print Assumptions C78_swap_partial.
Theorem C78_undefined_partial : forall (K V : Type) (E : env K V) husk khusk w c d,
  alive w c = true -> alive w d = true -> timed w c = false -> timed w d = false -> junk E = None ->
  rexec E husk khusk (PSwap c d) w = Undef Indeterminate.
Proof. exact @std_swap_undefined. Qed.
Print Assumptions C78_undefined_partial.
Definition two_caches := world_after E0 (full_ops ++ [New 2 None; Insert 1 7 70]).
Lemma two_caches_reachable : reachable E0 two_caches.
Proof. eapply after_reachable; vm_compute; reflexivity. Qed.
Example C78_case : good E0 /\ reachable E0 two_caches /\ alive two_caches 0 = true /\ alive two_caches 1 = true /\
  timed two_caches 0 = false /\ timed two_caches 1 = false /\ junk E0 = Some 7 /\
  contents E0 0 two_caches [(1, 10); (3, 30); (2, 20)] /\ contents E0 1 two_caches [(7, 70)] /\
  (exists w', rexec E0 S S (PSwap 0 1) two_caches = Val RUnit w' /\
    contents E0 1 w' [(1, 10); (3, 30); (2, 20)] /\ contents E0 0 w' [(7, 70)] /\
    capacity_is E0 0 w' 2 /\ capacity_is E0 1 w' 3) /\
  (exists w', rexec E0 S S (PSwap 0 0) two_caches = Val RUnit w' /\ contents E0 0 w' [(1, 10); (3, 30); (2, 20)]).
Proof.
  split; [apply ex_good|]. split; [exact two_caches_reachable|]. split; [vm_compute; reflexivity|].
  split; [vm_compute; reflexivity|]. split; [vm_compute; reflexivity|]. split; [vm_compute; reflexivity|].
  split; [vm_compute; reflexivity|]. split; [vm_compute; reflexivity|]. split; [vm_compute; reflexivity|].
  split; eexists; split; [vm_compute; reflexivity| |vm_compute; reflexivity|vm_compute; reflexivity].
  repeat split; vm_compute; reflexivity.
Qed.

(** C79.  Inserting a range of a cache's own iterators into the cache does what inserting a
    list of its elements does.  True of unordered iterators, false of ordered ones: the
    first element becomes the last one, and so the loop ends. *)
Theorem C79_ordered_refuted : exists (E : env nat nat) husk khusk w c l w1 w2 m1 m2,
  good E /\ reachable E w /\ contents E c w l /\
  rexec E husk khusk (PFill true c c) w = Val (RNat 0) w1 /\ exec E (InsertRange c l) w = Val (RNat 0) w2 /\
  contents E c w1 m1 /\ contents E c w2 m2 /\ m1 <> m2.
Proof.
  exists E0, S, S, full, 0, [(1, 10); (3, 30); (2, 20)]. eexists. eexists.
  exists [(3, 30); (2, 20); (1, 10)], [(1, 10); (3, 30); (2, 20)].
  split; [apply ex_good|]. split; [exact full_reachable|]. split; [vm_compute; reflexivity|].
  split; [vm_compute; reflexivity|]. split; [vm_compute; reflexivity|]. split; [vm_compute; reflexivity|].
  split; [vm_compute; reflexivity|]. discriminate.
Qed.
Print Assumptions C79_ordered_refuted.
Theorem C79_unordered_partial : forall (K V : Type) (E : env K V), good E -> forall husk khusk w c l,
  reachable E w -> elements E false c w l ->
  rexec E husk khusk (PFill false c c) w = exec E (InsertRange c l) w.
Proof. exact @fill_self. Qed.
Print Assumptions C79_unordered_partial.
Theorem C79_ordered_partial : forall (K V : Type) (E : env K V), good E -> forall husk khusk w c l,
  reachable E w -> contents E c w l ->
  rexec E husk khusk (PFill true c c) w = exec E (InsertRange c (firstn 1 l)) w.
Proof. exact @fill_self_ordered. Qed.
Print Assumptions C79_ordered_partial.
Example C79_case : good E0 /\ reachable E0 full /\ contents E0 0 full [(1, 10); (3, 30); (2, 20)] /\
  elements E0 false 0 full [(3, 30); (2, 20); (1, 10)] /\
  (exists w', rexec E0 S S (PFill false 0 0) full = Val (RNat 0) w' /\ contents E0 0 w' [(3, 30); (2, 20); (1, 10)]).
Proof.
  split; [apply ex_good|]. split; [exact full_reachable|]. split; [vm_compute; reflexivity|].
  split; [vm_compute; reflexivity|]. eexists. split; vm_compute; reflexivity.
Qed.
