(** Property theorems: absence of undefined behaviour, separation of caches,
    independence of the hash order. *)
From Coq Require Import List Arith ZArith Bool Permutation.
Import ListNotations.
From Verif Require Import Monad Types Model Api EnvEx Spec ExBase SimRun Safe Frame.

(** C04.  Full statement: no copy-free history is undefined, and only front() and
    back() of an empty cache terminate the program.  Two calls refute it in the
    abstract machine: the move constructor swaps an uninitialised capacity, and
    entry() of the end iterator returned by a missed find dereferences it before
    throwing.  Proved: these are the only ones (the first only where reading an
    uninitialised size_t is undefined, the second only where binding a reference
    through the end iterator is), hence none in an environment in which compiled
    code behaves as usual. *)
Theorem C04_move_refuted : exists (E : env nat nat) ops, good E /\ forallb copy_free ops = true /\
  run E ops init_world = Undefined [Returned (RNat 0)] Indeterminate.
Proof. exists (strict_env still), [New 3 None; Move 0]. split; [apply strict_good|]. split; reflexivity. Qed.
Print Assumptions C04_move_refuted.
Theorem C04_entry_refuted : exists (E : env nat nat) ops, good E /\ forallb copy_free ops = true /\
  run E ops init_world = Undefined [Returned (RNat 0)] PastTheEnd.
Proof. exists (strict_env still), [New 3 None; FindEntry 0 1]. split; [apply strict_good|]. split; reflexivity. Qed.
Print Assumptions C04_entry_refuted.
Theorem C04_only_undefined_partial : forall (K V : Type) (E : env K V), good E ->
  forall ops w outs u, reachable E w -> forallb copy_free ops = true ->
  run E ops w = Undefined outs u ->
  exists pre o post w', ops = pre ++ o :: post /\ run E pre w = Finished outs w' /\
    ((exists c, o = Move c /\ u = Indeterminate /\ junk E = None) \/
     (exists c k, o = FindEntry c k /\ u = PastTheEnd /\ lenient_end E = false)).
Proof. exact @undefined_only. Qed.
Print Assumptions C04_only_undefined_partial.
Theorem C04_only_terminated_partial : forall (K V : Type) (E : env K V), good E ->
  forall ops w outs e, reachable E w -> forallb copy_free ops = true ->
  run E ops w = Terminated outs e ->
  e = EmptyCache /\ exists pre o post w' c, ops = pre ++ o :: post /\ run E pre w = Finished outs w' /\
    (o = Front c \/ o = Back c) /\ contents E c w' [].
Proof. exact @terminated_only. Qed.
Print Assumptions C04_only_terminated_partial.
Definition C04_ops : list (op nat nat) :=
  [NewFrom 3 (Some 5%Z) [(1, 10); (2, 20); (3, 30); (4, 40)]; New 2 (Some 7%Z); Swap 0 1; Move 1; MonitorNew 0 [1];
   AddHit 2 5; Lookup 2 3; Lookup 2 3; FindEntry 2 9; ClearExpired 2; EraseUnordered 2 1; EraseFound 0 8;
   Destroy 1; MoveAssign 0 2; Shrink 0 1; AssignRange 2 [(7, 70); (8, 80); (9, 90)]; Totals 0; Totals 2].
Example C04_case : good ET /\ forallb copy_free C04_ops = true /\
  finishes (run ET C04_ops init_world) = true /\
  seen (run ET [New 2 None; Insert 0 1 10; Clear 0; Front 0; Size 0] init_world) =
    ([Returned (RNat 0); Returned (RIns true (Some (1, 10))); Returned RUnit], Aborted EmptyCache).
Proof. split; [apply ex_good|]. ands; vm_compute; reflexivity. Qed.

(** C57.  A call [o] that does not name cache [d] (and whose caches do not share
    their statistics object with it) leaves the contents and capacity of [d], and
    every later history of calls on [d] has the same outcomes and calls the same
    callbacks as without [o]; if [d] is timed, as without [o] but with the same
    clock readings. *)
Theorem C57_frame : forall (K V : Type) (E : env K V), good E ->
  forall w o d r w', reachable E w -> copy_free o = true -> call E o w r w' ->
  alive w d = true -> ~ In d (mentions o) -> (forall c, In c (mentions o) -> separate w c d) ->
  (forall l, contents E d w l -> contents E d w' l) /\ (forall n, capacity_is E d w n -> capacity_is E d w' n) /\
  (exists m, forall ops, forallb (concerns d) ops = true ->
     alike w' w (run E ops w') (run (shift m E) ops w)) /\
  (timed w d = false -> forall ops, forallb (concerns d) ops = true ->
     alike w' w (run E ops w') (run E ops w)).
Proof. exact @frame. Qed.
Print Assumptions C57_frame.
Definition C57_world : world nat nat := world_after E0
  (full_ops ++ [AddHit 0 5; NewFrom 2 None [(1, 11); (2, 22)]; MonitorNew 0 [1]; MonitorNew 1 [1]; New 1 None]).
Definition C57_after : world nat nat :=
  match exec E0 (Swap 1 2) C57_world with Val _ w => w | _ => C57_world end.
Definition C57_later : list (op nat nat) := [Lookup 0 3; Insert 0 4 40; Totals 0; Ordered 0].
Example C57_case : reachable E0 C57_world /\ call E0 (Swap 1 2) C57_world (Returned RUnit) C57_after /\
  alive C57_world 0 = true /\ ~ In 0 (mentions (Swap 1 2 : op nat nat)) /\
  (forall c, In c (mentions (Swap 1 2 : op nat nat)) -> separate C57_world c 0) /\
  forallb (concerns 0) C57_later = true /\
  seen (run E0 C57_later C57_after) =
    ([Returned (RVal 30); Returned (RIns true (Some (4, 40))); Returned (RTotals 1 1 0);
      Returned (REnts [(2, 20); (3, 30); (4, 40)])], Alive).
Proof.
  split; [reached|]. split; [vm_compute; reflexivity|]. split; [vm_compute; reflexivity|].
  split; [intros [H|[H|[]]]; discriminate|].
  split; [|split; vm_compute; reflexivity].
  intros c I x y s X Y. simpl in I. destruct I as [<-|[<-|[]]]; vm_compute in X, Y; inversion X; inversion Y; subst; simpl; congruence.
Qed.

(** C61.  [rehashed p h E] is [E] with another placement of new nodes and other
    rehashes; outcomes and callbacks agree, except that an unordered traversal may
    show another order. *)
Theorem C61_hash_order : forall (K V : Type) (E : env K V) p h, good E ->
  (forall l n, Permutation (p l n) (n :: l)) ->
  forall ops, forallb hash_free ops = true ->
  alike_unordered ops init_world init_world (run E ops init_world) (run (rehashed p h E) ops init_world).
Proof. exact @hash_unobservable. Qed.
Print Assumptions C61_hash_order.
Definition C61_ops : list (op nat nat) := full_ops ++ [Unordered 0; Insert 0 4 40; Unordered 0; Ordered 0].
Example C61_case : (forall l (n : nat * mnode nat nat), Permutation (l ++ [n]) (n :: l)) /\
  forallb hash_free C61_ops = true /\
  skipn 5 (fst (seen (run E0 C61_ops init_world))) =
    [Returned (REnts [(3, 30); (2, 20); (1, 10)]); Returned (RIns true (Some (4, 40)));
     Returned (REnts [(4, 40); (3, 30); (2, 20)]); Returned (REnts [(3, 30); (2, 20); (4, 40)])] /\
  skipn 5 (fst (seen (run (rehashed (fun l n => l ++ [n]) (fun _ => true) E0) C61_ops init_world))) =
    [Returned (REnts [(1, 10); (2, 20); (3, 30)]); Returned (RIns true (Some (4, 40)));
     Returned (REnts [(2, 20); (3, 30); (4, 40)]); Returned (REnts [(3, 30); (2, 20); (4, 40)])].
Proof.
  split. { intros l n. rewrite Permutation_app_comm. reflexivity. }
  ands; vm_compute; reflexivity.
Qed.
