(** Concrete worlds for the examples beside the property theorems. *)
From Coq Require Import List Arith ZArith Bool Permutation.
Import ListNotations.
From Verif Require Import Monad Types Model Api EnvEx Spec.

Lemma ex_good clk : good (ex_env clk).
Proof.
  constructor; simpl.
  - apply Nat.eqb_refl.
  - apply Nat.eqb_sym.
  - intros a b c A B. apply Nat.eqb_eq in A, B. subst. apply Nat.eqb_refl.
  - reflexivity.
  - reflexivity.
  - reflexivity.
Qed.

Lemma mod_good clk : good (mod_env clk).
Proof.
  constructor; cbn [key_equal place fails cb mod_env].
  - intros. apply Nat.eqb_refl.
  - intros. apply Nat.eqb_sym.
  - intros a b c A B. apply Nat.eqb_eq in A, B. rewrite A, B. apply Nat.eqb_refl.
  - reflexivity.
  - reflexivity.
  - reflexivity.
Qed.

Lemma strict_good clk : good (strict_env clk).
Proof.
  constructor; simpl.
  - apply Nat.eqb_refl.
  - apply Nat.eqb_sym.
  - intros a b c A B. apply Nat.eqb_eq in A, B. subst. apply Nat.eqb_refl.
  - reflexivity.
  - reflexivity.
  - reflexivity.
Qed.

Lemma rehash_good clk : good (rehash_env clk).
Proof.
  constructor; simpl.
  - apply Nat.eqb_refl.
  - apply Nat.eqb_sym.
  - intros a b c A B. apply Nat.eqb_eq in A, B. subst. apply Nat.eqb_refl.
  - intros l n. symmetry. apply Permutation_cons_append.
  - reflexivity.
  - reflexivity.
Qed.

(** The world after a history (of the empty world if it does not finish). *)
Definition world_after {K V} (E : env K V) (ops : list (op K V)) : world K V :=
  match run E ops init_world with Finished _ w => w | _ => init_world end.

Definition finishes {K V} (h : hist K V) : bool :=
  match h with Finished _ _ => true | _ => false end.

Lemma run_reachable {K V} (E : env K V) ops : forall (w : world K V) outs w', reachable E w ->
  forallb copy_free ops = true -> run E ops w = Finished outs w' -> reachable E w'.
Proof.
  induction ops as [|o t IH]; intros w outs w' R F H; simpl in *.
  - inversion H; subst; auto.
  - apply andb_prop in F as (F1 & F2). destruct (exec E o w) eqn:X; try discriminate;
      destruct (run E t s) eqn:Y; try discriminate; simpl in H; inversion H; subst;
      (eapply IH; [|auto|exact Y]).
    + eapply reach_return; eauto.
    + eapply reach_throw; eauto.
Qed.
Lemma after_reachable {K V} (E : env K V) ops : forallb copy_free ops = true ->
  finishes (run E ops init_world) = true -> reachable E (world_after E ops).
Proof.
  unfold world_after. intros F H. destruct (run E ops init_world) as [outs w| |] eqn:R; try discriminate.
  eapply run_reachable; eauto. apply reach_init.
Qed.

Ltac ands := repeat match goal with |- _ /\ _ => split end.
Ltac reached := apply after_reachable; vm_compute; reflexivity.

(** The environment whose clock stands still, and a full cache (number 0) of
    capacity 3 in which 2 was used last, then 3, then 1 (the least recent). *)
Definition E0 : env nat nat := ex_env still.
Definition full_ops : list (op nat nat) :=
  [New 3 None; Insert 0 1 10; Insert 0 2 20; Insert 0 3 30; Find 0 2].
Definition full : world nat nat := world_after E0 full_ops.
Lemma full_reachable : reachable E0 full.
Proof. reached. Qed.
Lemma full_contents : contents E0 0 full [(1, 10); (3, 30); (2, 20)].
Proof. vm_compute. reflexivity. Qed.
Lemma full_capacity : capacity_is E0 0 full 3.
Proof. vm_compute. reflexivity. Qed.

(** The same with room for more. *)
Definition roomy : world nat nat := world_after E0 (full_ops ++ [SetCapacity 0 5]).
Lemma roomy_reachable : reachable E0 roomy.
Proof. reached. Qed.

(** A timed cache of capacity 3 and time to live 10, each clock reading one tick
    later than the previous one. *)
Definition ET : env nat nat := ex_env ticking.
Definition timed_ops : list (op nat nat) :=
  [New 3 (Some 10%Z); Insert 0 1 10; Insert 0 2 20; Insert 0 3 30; Find 0 2].
Definition timed_full : world nat nat := world_after ET timed_ops.
Lemma timed_full_reachable : reachable ET timed_full.
Proof. reached. Qed.
