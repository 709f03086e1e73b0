(** Callbacks that keep the invariant of Sturdy.v: those that only throw, and
    those that follow a script of gentle calls. *)
From Coq Require Import List Arith ZArith Bool Permutation Lia.
Import ListNotations.
From Verif Require Import Monad Types Model Api Spec SpecFault Ref Lists SimBase SimRel SimOps SimIns SimErase SimIter SimNew SimObs SimExec Sturdy SturdyOps SturdyAcc SturdyIns SturdyObs SturdyExec.
Set Implicit Arguments.
Unset Strict Implicit.
Local Open Scope cpp_scope.

Section Cb.
Context {K V : Type}.
Implicit Types (E : env K V) (w : world K V).

Lemma only_throws_ok E : only_throws E -> forall ev w, inv E w -> ok E w (cb E ev w).
Proof.
  intros O ev w I. destruct (O ev w) as [->|(n & ->)]; [apply ok_heap|apply ok_throw]; auto; repeat split.
Qed.

(** The invariant does not depend on failures and callbacks. *)
Lemma sound_ext E1 E2 x s l : calm E1 = calm E2 -> sound E1 x s l -> sound E2 x s l.
Proof. intros H [A B C]. constructor; auto. rewrite <- H; auto. Qed.
Lemma inv_ext E1 E2 b w : calm E1 = calm E2 -> inv_but E1 b w -> inv_but E2 b w.
Proof.
  intros H [A B C]. constructor; auto. intros c x Hx. destruct (A c x Hx) as (s & Hs & S). exists s. split; auto.
  intros N. destruct (S N) as (l & So). exists l. eapply sound_ext; eauto.
Qed.
Lemma ok_ext E1 E2 w A (r : res (world K V) A) : calm E1 = calm E2 -> ok E1 w r -> ok E2 w r.
Proof.
  intros H O. eapply wp_conseq; [exact O| |]; simpl; intros ? ? (I & S); (split; [eapply inv_ext; eauto|auto]).
Qed.

Lemma calm_with_cb g E : calm (with_cb g E) = calm E.
Proof. reflexivity. Qed.
Lemma calm_scripted n script E : calm (scripted n script E) = calm E.
Proof. destruct n; reflexivity. Qed.
Lemma fair_with_cb g E : fair E -> fair (with_cb g E).
Proof. intros []; constructor; auto. Qed.
Lemma fair_scripted n script E : fair E -> fair (scripted n script E).
Proof. intros H. destruct n; apply fair_with_cb; auto. Qed.

Lemma follow_prog_ok E (Fr : fair E) (Hcb : forall ev w, inv E w -> ok E w (cb E ev w)) p :
  calls_only gentle p -> forall w, inv E w -> ok E w (follow_prog E p w).
Proof.
  induction 1 as [e|o next Ge C IH]; intros w I; simpl.
  - destruct e; [apply ok_throw|apply ok_heap]; auto; repeat split.
  - pose proof (exec_ok Fr Hcb I Ge) as H. destruct (exec E o w) as [r w'|e w'|u|e]; simpl in H; try contradiction;
      destruct H as (I' & S'); eapply ok_more; eauto; apply IH; auto.
Qed.

Lemma scripted_ok E script n : fair E -> (forall ev log, calls_only gentle (script ev log)) ->
  forall ev w, inv (scripted n script E) w -> ok (scripted n script E) w (cb (scripted n script E) ev w).
Proof.
  intros Fr C. induction n as [|n IH]; intros ev w I.
  - change (cb (scripted 0 script E) ev w) with (Val tt (with_log (fun l => l ++ [ev]) w)).
    apply ok_heap; auto. repeat split.
  - pose proof (inv_ext (calm_scripted (S n) script E) I) as I1.
    change (cb (scripted (S n) script E) ev w) with
      (follow_prog (scripted n script E) (script ev (w_log (with_log (fun l => l ++ [ev]) w))) (with_log (fun l => l ++ [ev]) w)).
    eapply (@ok_ext (scripted n script E)); [rewrite !calm_scripted; auto|].
    eapply ok_more with (w1 := with_log (fun l => l ++ [ev]) w); [apply stab_heap; auto|].
    apply follow_prog_ok; [apply fair_scripted; auto|exact IH|apply C|].
    eapply inv_ext; [symmetry; apply calm_scripted|]. eapply inv_same; [|exact I1]. repeat split.
Qed.
End Cb.
