(** The statements of Props11, from the invariant. *)
From Coq Require Import List Arith ZArith Bool Permutation Lia.
Import ListNotations.
From Verif Require Import Monad Types Model Api Spec SpecStats SpecFault Sturdy SturdyAcc SturdyExec SturdyCb FaultProofs FaultCb.
Set Implicit Arguments.

Lemma usable K V (E : env K V) w o : fair E -> only_throws E -> survives E w -> copy_free o = true -> defined E o w.
Proof. intros Fr T S C. eapply survives_defined; eauto. apply only_throws_ok; auto. Qed.

Lemma failed_insertion K V (E : env K V) w o c k v e w' : fair E -> only_throws E -> survives E w ->
  o = Insert c k v \/ o = Emplace c k v -> call E o w (Threw e) w' -> fails_with E c k w e w'.
Proof.
  intros Fr T S Ho C. eapply failed_call; eauto. eapply survives_inv; eauto. apply only_throws_ok; auto.
Qed.

Lemma throwing_throws K V (E : env K V) t : only_throws (throwing t E).
Proof. intros ev w. simpl. destruct (t ev (w_log w ++ [ev])); eauto. Qed.
Lemma throwing_fair K V (E : env K V) t : fair E -> fair (throwing t E).
Proof. intros [A B C D]. constructor; auto. Qed.

Lemma throwing_inv K V (E : env K V) t w : fair E -> survives (throwing t E) w -> inv E w.
Proof.
  intros Fr S. eapply (@inv_ext _ _ (throwing t E) E); [reflexivity|]. eapply survives_inv; eauto.
  - apply throwing_fair; auto.
  - apply only_throws_ok, throwing_throws.
Qed.

Lemma throwing_usable K V (E : env K V) t w o : fair E -> survives (throwing t E) w -> copy_free o = true ->
  defined (throwing t E) o w.
Proof. intros Fr S C. apply usable; auto. apply throwing_fair; auto. apply throwing_throws. Qed.

Lemma throwing_access K V (E : env K V) t w o c k r w'' : fair E -> survives (throwing t E) w -> asks o = Some (c, k) ->
  call (throwing (fun _ _ => None) E) o w r w'' ->
  exists evs, w_log w'' = w_log w ++ evs /\
    (lets_pass t (w_log w) evs -> call (throwing t E) o w r w'') /\
    forall e1 ev e2 n, evs = e1 ++ ev :: e2 -> lets_pass t (w_log w) e1 -> t ev (w_log w ++ e1 ++ [ev]) = Some n ->
      exists w', call (throwing t E) o w (Threw (UserExn n)) w' /\ w_log w' = w_log w ++ e1 ++ [ev] /\
        (forall d l, contents E d w l -> contents E d w' l) /\
        (forall d i, size_is E d w i -> size_is E d w' i) /\
        (forall d i, capacity_is E d w i -> capacity_is E d w' i) /\
        (forall x, totals_are E c w x -> totals_are E c w' (counts (snd (about ev)) x)) /\
        (forall qs, Forall (fun q => uses_stats q <> None) qs -> seen (run E qs w') = seen (run E qs w'')).
Proof. intros Fr S. apply throw_access; auto. eapply throwing_inv; eauto. Qed.

Lemma gentle_usable K V (E : env K V) script n w o : fair E -> (forall ev log, calls_only gentle (script ev log)) ->
  survives (scripted n script E) w -> copy_free o = true -> defined (scripted n script E) o w.
Proof.
  intros Fr G S C. eapply survives_defined; eauto.
  - apply fair_scripted; auto.
  - apply scripted_ok; auto.
Qed.
