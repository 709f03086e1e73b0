(** Property theorems: histories in which caches may be copied. *)
From Coq Require Import List Arith ZArith Bool Permutation.
Import ListNotations.
From Verif Require Import Monad Types Model Api EnvEx Spec ExBase SpecAny AnyView AnyPut AnyMore.

(** A world that holds a copy of a full cache and a copy of the copy, both since
    used. *)
Definition copied_ops : list (op nat nat) :=
  full_ops ++ [Copy 0; Insert 1 7 70; Copy 1; SetCapacity 2 5; Insert 2 8 80].
Definition copied3 : world nat nat := world_after E0 copied_ops.
Lemma after_attained {K V} (E : env K V) ops : finishes (run E ops init_world) = true -> attained E (world_after E ops).
Proof.
  unfold world_after. intros H. destruct (run E ops init_world) as [outs w| |] eqn:R; try discriminate.
  exact (attained_run (att_init E) R).
Qed.
Lemma copied3_attained : attained E0 copied3.
Proof. apply after_attained. vm_compute. reflexivity. Qed.
Lemma copied3_coherent c l n : contents E0 c copied3 l -> capacity_is E0 c copied3 n -> coherent E0 c copied3 l n.
Proof. apply coherent_of; [apply ex_good|exact copied3_attained]. Qed.

(** C99.  Whatever calls a program has made, copies of caches included, every living cache is coherent: traversals
    forwards and backwards, the unordered traversal, size(), capacity(), front() and back() tell of the same
    elements, with different keys and no more than the capacity. *)
Theorem C99_coherent : forall (K V : Type) (E : env K V), good E ->
  forall w c, attained E w -> alive w c = true -> exists l n, coherent E c w l n.
Proof. exact @any_coherent. Qed.
Print Assumptions C99_coherent.
Theorem C99_history : forall (K V : Type) (E : env K V), good E ->
  forall ops outs w c, run E ops init_world = Finished outs w -> alive w c = true -> exists l n, coherent E c w l n.
Proof. exact @any_history. Qed.
Print Assumptions C99_history.
Example C99_case : good E0 /\ attained E0 copied3 /\ map (alive copied3) [0; 1; 2] = [true; true; true] /\
  coherent E0 0 copied3 [(1, 10); (3, 30); (2, 20)] 3 /\ coherent E0 1 copied3 [(3, 30); (2, 20); (7, 70)] 3 /\
  coherent E0 2 copied3 [(3, 30); (2, 20); (7, 70); (8, 80)] 5 /\
  exec E0 (Find 2 7) copied3 = Undef ForeignListIterator.
Proof.
  split; [apply ex_good|]. split; [exact copied3_attained|]. split; [reflexivity|].
  do 3 (split; [apply copied3_coherent; vm_compute; reflexivity|]). vm_compute. reflexivity.
Qed.

(** C100.  In every such state, inserting or emplacing a key that is not in the cache is well defined: it adds the
    element as the most recently used one, drops the least recently used if the cache was full, and leaves the other
    caches alone. *)
Theorem C100_new_key : forall (K V : Type) (E : env K V), good E ->
  forall w c k v o l n, attained E w -> puts c k v o -> contents E c w l -> capacity_is E c w n -> 0 < n -> has E k l = false ->
  exists w', exec E o w = Val (RIns true (Some (k, v))) w' /\ coherent E c w' (newest n (l ++ [(k, v)])) n /\
    forall d ld nd, d <> c -> coherent E d w ld nd -> coherent E d w' ld nd.
Proof. exact @any_put_read. Qed.
Print Assumptions C100_new_key.
Example C100_case : attained E0 copied3 /\ puts 1 4 40 (Emplace 1 4 40) /\ contents E0 1 copied3 [(3, 30); (2, 20); (7, 70)] /\
  capacity_is E0 1 copied3 3 /\ 0 < 3 /\ has E0 4 [(3, 30); (2, 20); (7, 70)] = false /\
  newest 3 ([(3, 30); (2, 20); (7, 70)] ++ [(4, 40)]) = [(2, 20); (7, 70); (4, 40)].
Proof. split; [exact copied3_attained|]. split; [constructor|]. repeat split; vm_compute; auto. Qed.

(** C101.  In every such state, the calls on whole caches are well defined: clear() empties the cache, ... *)
Theorem C101_clear : forall (K V : Type) (E : env K V), good E ->
  forall w c l n, attained E w -> coherent E c w l n ->
  exists w', exec E (Clear c) w = Val RUnit w' /\ coherent E c w' [] n /\
    forall d ld nd, d <> c -> coherent E d w ld nd -> coherent E d w' ld nd.
Proof. exact @any_clear. Qed.
Print Assumptions C101_clear.
(** ... a copy shows what the original shows, which keeps its elements, ... *)
Theorem C101_copy : forall (K V : Type) (E : env K V), good E ->
  forall w c l n, attained E w -> coherent E c w l n ->
  exists d w', exec E (Copy c) w = Val (RNat d) w' /\ alive w d = false /\ coherent E d w' l n /\
    forall e le ne, coherent E e w le ne -> coherent E e w' le ne.
Proof. exact @any_copy. Qed.
Print Assumptions C101_copy.
Theorem C101_copy_assign : forall (K V : Type) (E : env K V), good E ->
  forall w c d l n, attained E w -> c <> d -> same_kind w c d = true -> coherent E d w l n ->
  exists w', exec E (CopyAssign c d) w = Val RUnit w' /\ coherent E c w' l n /\
    forall e le ne, e <> c -> coherent E e w le ne -> coherent E e w' le ne.
Proof. exact @any_copy_assign. Qed.
Print Assumptions C101_copy_assign.
(** ... swap() exchanges contents and capacities, ... *)
Theorem C101_swap : forall (K V : Type) (E : env K V), good E ->
  forall w c d l n m k, attained E w -> c <> d -> same_kind w c d = true -> coherent E c w l n -> coherent E d w m k ->
  exists w', exec E (Swap c d) w = Val RUnit w' /\ coherent E c w' m k /\ coherent E d w' l n /\
    forall e le ne, e <> c -> e <> d -> coherent E e w le ne -> coherent E e w' le ne.
Proof. exact @any_swap. Qed.
Print Assumptions C101_swap.
(** ... and the destruction of a cache leaves the others alone, its copies and its original included. *)
Theorem C101_destroy : forall (K V : Type) (E : env K V), good E ->
  forall w c, attained E w -> alive w c = true ->
  exists w', exec E (Destroy c) w = Val RUnit w' /\ alive w' c = false /\
    forall e le ne, e <> c -> coherent E e w le ne -> coherent E e w' le ne.
Proof. exact @any_destroy. Qed.
Print Assumptions C101_destroy.
Example C101_case : attained E0 copied3 /\ coherent E0 1 copied3 [(3, 30); (2, 20); (7, 70)] 3 /\
  coherent E0 2 copied3 [(3, 30); (2, 20); (7, 70); (8, 80)] 5 /\ same_kind copied3 1 2 = true /\ alive copied3 0 = true.
Proof.
  split; [exact copied3_attained|]. do 2 (split; [apply copied3_coherent; vm_compute; reflexivity|]). split; reflexivity.
Qed.
