(** Property theorems: the settings of a cache. *)
From Coq Require Import List Arith ZArith Bool Lia.
Import ListNotations.
From Verif Require Import Monad Types Model Api EnvEx Spec SpecSettings ExBase FaultEx Settings.

(** C67.  The capacity given to a constructor, or set by capacity(n), stays until one
    of the calls listed in [may_set_capacity] names the cache; in any world, with
    copies around, and even if allocations fail. *)
Theorem C67_capacity_stays : forall (K V : Type) (E : env K V), passive E ->
  forall c ops w outs w' n, run E ops w = Finished outs w' -> spares may_set_capacity c ops = true ->
  capacity_is E c w n -> capacity_is E c w' n.
Proof. exact @capacity_history. Qed.
Print Assumptions C67_capacity_stays.
Theorem C67_capacity_set : forall (K V : Type) (E : env K V), passive E ->
  forall c n w r w1 ops outs w', alive w c = true -> exec E (SetCapacity c n) w = Val r w1 ->
  run E ops w1 = Finished outs w' -> spares may_set_capacity c ops = true -> capacity_is E c w' n.
Proof. exact @set_history. Qed.
Print Assumptions C67_capacity_set.
Theorem C67_capacity_built : forall (K V : Type) (E : env K V), passive E ->
  forall t o cap l w c w1 ops outs w', builds t o cap l -> exec E o w = Val (RNat c) w1 ->
  run E ops w1 = Finished outs w' -> spares may_set_capacity c ops = true -> capacity_is E c w' cap.
Proof. exact @built_capacity. Qed.
Print Assumptions C67_capacity_built.
(** Step 4, the insertion of the third element, runs out of memory. *)
Definition EF := failing 4.
Definition C67_ops : list (op nat nat) :=
  [Insert 0 1 10; Insert 0 2 20; Insert 0 3 30; Find 0 1; Shrink 0 1; New 7 (Some 3%Z); Copy 0; CopyAssign 0 0; Clear 0; SetCapacity 2 9;
   Swap 0 0; MonitorNew 0 []; AddHit 0 4; InsertRange 0 [(4, 40); (5, 50); (6, 60)]].
Example C67_case : passive EF /\ exists outs w',
  run EF C67_ops (world_after EF [New 2 None]) = Finished outs w' /\ nth_error outs 2 = Some (Threw BadAlloc) /\
  spares may_set_capacity 0 C67_ops = true /\ capacity_is EF 0 (world_after EF [New 2 None]) 2 /\
  capacity_is EF 0 w' 2 /\ capacity_is EF 2 w' 9.
Proof. split; [intros ev w; reflexivity|]. do 2 eexists. ands; vm_compute; reflexivity. Qed.
(** C68. *)
Theorem C68_ttl_stays : forall (K V : Type) (E : env K V), passive E ->
  forall c ops w outs w' t, run E ops w = Finished outs w' -> spares may_set_ttl c ops = true ->
  ttl_of c w t -> ttl_of c w' t.
Proof. exact @ttl_history. Qed.
Print Assumptions C68_ttl_stays.
Theorem C68_ttl_built : forall (K V : Type) (E : env K V), passive E ->
  forall t o cap l w c w1 ops outs w', builds t o cap l -> exec E o w = Val (RNat c) w1 ->
  run E ops w1 = Finished outs w' -> spares may_set_ttl c ops = true -> ttl_of c w' t.
Proof. exact @built_ttl. Qed.
Print Assumptions C68_ttl_built.
Example C68_built_case : passive E0 /\ exists w1 outs w',
  builds (Some 5%Z) (NewIters (Some 5%Z) [(1, 10)]) 128 [(1, 10)] /\
  exec E0 (NewIters (Some 5%Z) [(1, 10)]) init_world = Val (RNat 0) w1 /\
  run E0 [Insert 0 2 20; Move 0; SetCapacity 0 3] w1 = Finished outs w' /\
  spares (K := nat) (V := nat) may_set_ttl 0 [Insert 0 2 20; Move 0; SetCapacity 0 3] = true /\ ttl_of 0 w' (Some 5%Z).
Proof.
  split; [intros ev w; reflexivity|]. do 3 eexists. split; [exact (builds_iters (Some 5%Z) [(1, 10)])|].
  split; [vm_compute; reflexivity|]. split; [vm_compute; reflexivity|]. split; [reflexivity|].
  eexists. split; vm_compute; reflexivity.
Qed.

(** A cache stays timed or untimed for all its life. *)
Theorem C68_kind_stays : forall (K V : Type) (E : env K V), passive E ->
  forall c ops w outs w', run E ops w = Finished outs w' -> spares may_end c ops = true ->
  alive w c = true -> alive w' c = true /\ timed w' c = timed w c.
Proof. exact @kind_history. Qed.
Print Assumptions C68_kind_stays.
Definition C68_start := world_after E0 [New 2 (Some 5%Z); New 3 (Some 6%Z); New 4 None].
Definition C68_ops : list (op nat nat) :=
  [Insert 0 1 10; MoveAssign 1 0; AssignRange 0 [(1, 11); (2, 20); (3, 30)]; SetCapacity 0 1; ClearExpired 0; Move 0; Swap 1 0; Destroy 2].
Example C68_case : exists outs w', run E0 C68_ops C68_start = Finished outs w' /\ spares may_set_ttl 0 (firstn 6 C68_ops) = true /\
  ttl_of 0 C68_start (Some 5%Z) /\ ttl_of 0 w' (Some 5%Z) /\ ttl_of 1 w' (Some 5%Z) /\
  spares may_end 0 C68_ops = true /\ alive C68_start 0 = true.
Proof.
  do 2 eexists. split; [vm_compute; reflexivity|]. split; [reflexivity|].
  split; [eexists; split; vm_compute; reflexivity|]. split; [eexists; split; vm_compute; reflexivity|].
  split; [eexists; split; vm_compute; reflexivity|]. split; vm_compute; reflexivity.
Qed.

(** C69. *)
Theorem C69_monitoring_stays : forall (K V : Type) (E : env K V), passive E ->
  forall c ops w outs w' s, run E ops w = Finished outs w' -> spares may_set_monitor c ops = true ->
  monitor_of c w s -> monitor_of c w' s.
Proof. exact @monitor_history. Qed.
Print Assumptions C69_monitoring_stays.
Theorem C69_callbacks_stay : forall (K V : Type) (E : env K V), passive E ->
  forall c ops w outs w' b, run E ops w = Finished outs w' -> spares may_set_callbacks c ops = true ->
  callbacks_of c w b -> callbacks_of c w' b.
Proof. exact @callbacks_history. Qed.
Print Assumptions C69_callbacks_stay.
Definition C69_start := world_after E0 [New 2 None; MonitorNew 0 [1]; AddHit 0 7; AddAccess 0 8; New 3 None; AddMiss 1 9].
Definition C69_ops : list (op nat nat) :=
  [Insert 0 1 10; Find 0 1; Swap 0 1; MoveAssign 0 1; Move 0; Clear 0; AssignRange 0 [(1, 11)]; SetCapacity 0 9; StatsUnmonitorAll 0; ClearCallbacks 1].
Example C69_case : exists outs w', run E0 C69_ops C69_start = Finished outs w' /\
  spares may_set_monitor 0 C69_ops = true /\ spares may_set_callbacks 0 C69_ops = true /\
  monitor_of 0 C69_start (Some 0) /\ monitor_of 0 w' (Some 0) /\
  callbacks_of 0 C69_start (MkCbs [7] [] [8]) /\ callbacks_of 0 w' (MkCbs [7] [] [8]) /\ callbacks_of 1 w' (MkCbs [] [] []).
Proof.
  do 2 eexists. split; [vm_compute; reflexivity|]. split; [reflexivity|]. split; [reflexivity|].
  ands; eexists; split; vm_compute; reflexivity.
Qed.
