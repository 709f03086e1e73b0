(** Worlds for the examples on failures. *)
From Coq Require Import List Arith ZArith Bool Permutation.
Import ListNotations.
From Verif Require Import Monad Types Model Api EnvEx Spec SpecFault ExBase.

Definition no_failure {K V} (r : outcome K V) : bool := match r with Threw BadAlloc => false | _ => true end.
Lemma survives_run {K V} (E : env K V) ops : forall w outs w', survives E w -> forallb copy_free ops = true ->
  run E ops w = Finished outs w' -> forallb no_failure outs = true -> survives E w'.
Proof.
  induction ops as [|o ops IH]; intros w outs w' S F R N; simpl in R.
  - inversion R; subst; auto.
  - simpl in F. apply andb_prop in F as (Fo & F). destruct (exec E o w) as [r w1|e w1| |] eqn:X; try discriminate.
    + destruct (run E ops w1) as [outs' w2| |] eqn:R'; try discriminate. inversion R; subst. simpl in N. 
      eapply (IH w1); eauto. eapply survives_call with (r := Returned r); eauto. discriminate.
    + destruct (run E ops w1) as [outs' w2| |] eqn:R'; try discriminate. inversion R; subst. simpl in N.
      apply andb_prop in N as (N1 & N). eapply (IH w1); eauto. eapply survives_call with (r := Threw e); eauto.
      intros Q; inversion Q; subst; discriminate.
Qed.

(** Allocation (or copy) number [n] fails. *)
Definition failing (n : nat) : env nat nat := with_fails (Nat.eqb n) E0.
Lemma failing_fair n : fair (failing n).
Proof. destruct (ex_good still). constructor; auto. Qed.
Lemma failing_throws n : only_throws (failing n).
Proof. intros ev w. left. reflexivity. Qed.
Lemma E0_fair : fair E0.
Proof. destruct (ex_good still). constructor; auto. Qed.

Definition unharmed (h : hist nat nat) : bool := match h with Finished l _ => forallb no_failure l | _ => false end.
Lemma survives_after E ops : forallb copy_free ops = true -> unharmed (run E ops init_world) = true ->
  survives E (world_after E ops).
Proof.
  unfold world_after, unharmed. intros F H. destruct (run E ops init_world) as [outs w| |] eqn:R; try discriminate.
  eapply survives_run; eauto. apply survives_init.
Qed.
Ltac survived := apply survives_after; vm_compute; reflexivity.
