(** Property theorems: swap, move and comparison of caches. *)
From Coq Require Import List Arith ZArith Bool Lia.
Import ListNotations.
From Verif Require Import Monad Types Model Api EnvEx Spec SpecStats SpecTimed SpecPair ExBase PairProofs Settings.

(** C33. *)
Theorem C33_swap_exchanges : forall (K V : Type) (E : env K V), good E ->
  forall w c d, reachable E w -> same_kind w c d = true -> c <> d ->
  exists w', exec E (Swap c d) w = Val RUnit w' /\
    same_elements E c w' d w /\ same_elements E d w' c w /\
    (forall t, ttl_of c w' t <-> ttl_of d w t) /\ (forall t, ttl_of d w' t <-> ttl_of c w t) /\
    keeps_books c w w' /\ keeps_books d w w' /\
    w_stats w' = w_stats w /\ w_log w' = w_log w.
Proof. exact @swap_exchanges. Qed.
Print Assumptions C33_swap_exchanges.
Theorem C33_swap_self : forall (K V : Type) (E : env K V), good E ->
  forall c w, reachable E w -> alive w c = true ->
  exists w', exec E (Swap c c) w = Val RUnit w' /\ same_seen E w w'.
Proof. exact @swap_self. Qed.
Print Assumptions C33_swap_self.
Theorem C33_swap_twice : forall (K V : Type) (E : env K V), good E ->
  forall w c d, reachable E w -> same_kind w c d = true ->
  exists w' w'', exec E (Swap c d) w = Val RUnit w' /\ exec E (Swap c d) w' = Val RUnit w'' /\ same_seen E w w''.
Proof. exact @swap_twice. Qed.
Print Assumptions C33_swap_twice.
Definition C33_ops : list (op nat nat) :=
  [New 3 (Some 10%Z); Insert 0 1 10; Insert 0 2 20; MonitorNew 0 [1]; AddHit 0 5; New 2 (Some 20%Z); Insert 1 7 70; Find 0 1].
Definition C33_world := world_after ET C33_ops.
Example C33_case : reachable ET C33_world /\ same_kind C33_world 0 1 = true /\
  contents ET 0 C33_world [(2, 20); (1, 10)] /\ contents ET 1 C33_world [(7, 70)] /\
  ttl_of 0 C33_world (Some 10%Z) /\ born ET 0 C33_world 2 1 /\
  fst (seen (run ET [Swap 0 1; Ordered 0; Ordered 1; Capacity 0; Capacity 1; IsMonitoring 0; IsMonitoring 1; Totals 0] C33_world)) =
    [Returned RUnit; Returned (REnts [(7, 70)]); Returned (REnts [(2, 20); (1, 10)]); Returned (RNat 2); Returned (RNat 3);
     Returned (RBool true); Returned (RBool false); Returned (RTotals 1 1 0)].
Proof.
  split; [reached|]. split; [vm_compute; reflexivity|]. split; [vm_compute; reflexivity|]. split; [vm_compute; reflexivity|].
  split; [eexists; split; vm_compute; reflexivity|]. split; [|vm_compute; reflexivity].
  exists 10%Z. split; [eexists; split; vm_compute; reflexivity|]. intros z. unfold old.
  let v := eval vm_compute in C33_world in replace C33_world with v by (vm_compute; reflexivity).
  match goal with |- context [exec ?a ?b ?c] => remember (exec a b c) as r eqn:Q end.
  cbv -[Z.sub Z.ltb Z.add Z.opp] in Q. subst r. split.
  - intros (w' & H). inversion H as [H1]. apply Z.ltb_lt in H1. exact H1.
  - intros H. apply Z.ltb_lt in H. rewrite H. eexists; reflexivity.
Qed.

(** C34.  Refuted as stated: the capacity of the source after the move constructor
    is an uninitialised value, whose use is undefined where [junk] is [None]. *)
Theorem C34_capacity_refuted : exists (E : env nat nat) w, good E /\ reachable E w /\ alive w 0 = true /\
  exec E (Move 0) w = Undef Indeterminate.
Proof.
  exists (strict_env still), (world_after (strict_env still) [New 3 None; Insert 0 1 10]).
  split; [apply strict_good|]. split; [reached|]. ands; vm_compute; reflexivity.
Qed.
Print Assumptions C34_capacity_refuted.
(** ... everything else holds: the new cache has elements, order, insertion times,
    capacity and time to live of the source; the source is empty, its capacity is
    the junk value; monitoring and callbacks stay; no clock reading, no callback. *)
Theorem C34_move_constructor_partial : forall (K V : Type) (E : env K V), good E ->
  forall w c n, reachable E w -> alive w c = true -> junk E = Some n ->
  exists d w', exec E (Move c) w = Val (RNat d) w' /\ alive w d = false /\
    same_elements E d w' c w /\ (forall t, ttl_of d w' t <-> ttl_of c w t) /\
    contents E c w' [] /\ capacity_is E c w' n /\ (forall t, ttl_of c w' t <-> ttl_of c w t) /\
    keeps_books c w w' /\ exec E (IsMonitoring d) w' = Val (RBool false) w' /\
    w_stats w' = w_stats w /\ w_log w' = w_log w /\ w_reads w' = w_reads w.
Proof. exact @move_constructs. Qed.
Print Assumptions C34_move_constructor_partial.
Theorem C34_move_undefined : forall (K V : Type) (E : env K V), good E ->
  forall w c, reachable E w -> alive w c = true -> junk E = None -> exec E (Move c) w = Undef Indeterminate.
Proof. exact @move_undefined. Qed.
Print Assumptions C34_move_undefined.
(** Move assignment exchanges the caches (but not the time to live, which the
    source keeps). *)
Theorem C34_move_assignment : forall (K V : Type) (E : env K V), good E ->
  forall w c d, reachable E w -> same_kind w c d = true -> c <> d ->
  exists w', exec E (MoveAssign c d) w = Val RUnit w' /\
    same_elements E c w' d w /\ same_elements E d w' c w /\
    (forall t, ttl_of c w' t <-> ttl_of d w t) /\ (forall t, ttl_of d w' t <-> ttl_of d w t) /\
    keeps_books c w w' /\ keeps_books d w w' /\
    w_stats w' = w_stats w /\ w_log w' = w_log w /\ w_reads w' = w_reads w.
Proof. exact @move_assigns. Qed.
Print Assumptions C34_move_assignment.
Theorem C34_move_assignment_self : forall (K V : Type) (E : env K V) c w, alive w c = true ->
  exec E (MoveAssign c c) w = Val RUnit w.
Proof. exact @move_assign_self. Qed.
Print Assumptions C34_move_assignment_self.
Example C34_case : reachable ET C33_world /\ alive C33_world 0 = true /\ junk ET = Some 7 /\
  fst (seen (run ET [Move 0; Ordered 2; Capacity 2; IsMonitoring 2; Ordered 0; Capacity 0; Insert 0 8 80; Ordered 0; MoveAssign 2 1;
                     Ordered 2; Capacity 2; Ordered 1; Capacity 1] C33_world)) =
    [Returned (RNat 2); Returned (REnts [(2, 20); (1, 10)]); Returned (RNat 3); Returned (RBool false); Returned (REnts []);
     Returned (RNat 7); Returned (RIns true (Some (8, 80))); Returned (REnts [(8, 80)]); Returned RUnit;
     Returned (REnts [(7, 70)]); Returned (RNat 2); Returned (REnts [(2, 20); (1, 10)]); Returned (RNat 3)].
Proof. split; [reached|]. ands; vm_compute; reflexivity. Qed.

(** C35. *)
Theorem C35_equal : forall (K V : Type) (E : env K V), good E -> equality_good E ->
  forall w c d l m, reachable E w -> same_kind w c d = true -> timed w c = false ->
  contents E c w l -> contents E d w m ->
  exists b w', exec E (Equal c d) w = Val (RBool b) w' /\ (b = true <-> Forall2 (equal_pair E) l m).
Proof. exact @equal_untimed. Qed.
Print Assumptions C35_equal.
Theorem C35_equal_timed : forall (K V : Type) (E : env K V), good E -> equality_good E ->
  forall w c d l m, reachable E w -> same_kind w c d = true -> timed w c = true ->
  contents E c w l -> contents E d w m ->
  exists b w', exec E (Equal c d) w = Val (RBool b) w' /\ (b = true <-> Forall2 (equal_times E c d w) l m).
Proof. exact @equal_timed. Qed.
Print Assumptions C35_equal_timed.
(** [born] is the time of insertion: the clock reading of the insert or emplace. *)
Theorem C35_insertion_time : forall (K V : Type) (E : env K V), good E ->
  forall w0 o0 oc0 w1 c0 k v, puts c0 k v o0 -> reachable E w0 -> call E o0 w0 oc0 w1 ->
  absent E k c0 w0 -> present E k c0 w1 -> timed w1 c0 = true ->
  forall ops c w2 d, kept E k c0 w1 ops c w2 -> ttl_of c w2 (Some d) -> born E c w2 k (clock E (w_reads w0)).
Proof. exact @birth. Qed.
Print Assumptions C35_insertion_time.
Theorem C35_reflexive : forall (K V : Type) (E : env K V), good E ->
  forall w c, reachable E w -> alive w c = true -> exists w', exec E (Equal c c) w = Val (RBool true) w'.
Proof. exact @equal_refl. Qed.
Print Assumptions C35_reflexive.
Theorem C35_symmetric : forall (K V : Type) (E : env K V), good E -> equality_good E ->
  forall w c d w', reachable E w -> exec E (Equal c d) w = Val (RBool true) w' ->
  exists w'', exec E (Equal d c) w = Val (RBool true) w''.
Proof. exact @equal_sym. Qed.
Print Assumptions C35_symmetric.
Theorem C35_transitive : forall (K V : Type) (E : env K V), good E -> equality_good E ->
  forall w c d e w1 w2, reachable E w -> exec E (Equal c d) w = Val (RBool true) w1 ->
  exec E (Equal d e) w = Val (RBool true) w2 -> exists w3, exec E (Equal c e) w = Val (RBool true) w3.
Proof. exact @equal_trans. Qed.
Print Assumptions C35_transitive.
Lemma ex_equality clk : equality_good (ex_env clk).
Proof.
  constructor; simpl; auto.
  - apply Nat.eqb_refl.
  - apply Nat.eqb_sym.
  - intros a b c A B. apply Nat.eqb_eq in A, B. subst. apply Nat.eqb_refl.
Qed.
Definition C35_world := world_after E0
  [New 3 None; Insert 0 1 10; Insert 0 2 20; New 2 None; Insert 1 2 20; Insert 1 1 10; MonitorNew 1 []; NewList None [(1, 10); (2, 20)]].
Example C35_case : equality_good E0 /\ reachable E0 C35_world /\ same_kind C35_world 0 1 = true /\
  contents E0 0 C35_world [(1, 10); (2, 20)] /\ contents E0 1 C35_world [(2, 20); (1, 10)] /\
  fst (seen (run E0 [Equal 0 1; Find 1 2; Equal 0 1; Equal 1 2; Equal 0 2; Write 1 2 21; Equal 0 1] C35_world)) =
    [Returned (RBool false); Returned (ROpt (Some (2, 20))); Returned (RBool true); Returned (RBool true); Returned (RBool true);
     Returned RUnit; Returned (RBool false)].
Proof. split; [apply ex_equality|]. split; [reached|]. ands; vm_compute; reflexivity. Qed.
(** Timed caches with the same elements, inserted at different / the same times. *)
Example C35_timed_case :
  fst (seen (run ET [New 3 (Some 10%Z); Insert 0 1 10; New 3 (Some 10%Z); Insert 1 1 10; Equal 0 1] init_world)) =
    [Returned (RNat 0); Returned (RIns true (Some (1, 10))); Returned (RNat 1); Returned (RIns true (Some (1, 10))); Returned (RBool false)] /\
  fst (seen (run E0 [New 3 (Some 10%Z); Insert 0 1 10; New 3 (Some 12%Z); Insert 1 1 10; Equal 0 1] init_world)) =
    [Returned (RNat 0); Returned (RIns true (Some (1, 10))); Returned (RNat 1); Returned (RIns true (Some (1, 10))); Returned (RBool true)].
Proof. ands; vm_compute; reflexivity. Qed.
