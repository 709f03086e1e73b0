(** Which copy-free calls are undefined or terminate the program. *)
From Coq Require Import List Arith ZArith Bool Permutation Lia.
Import ListNotations.
From Verif Require Import Monad Types Model Api Spec Ref Lists SimBase SimRel SimOps SimIns SimErase SimIter SimNew SimObs SimExec RefEval SimRun LruProofs CallProofs LruMore Flat Global.
Set Implicit Arguments.
Unset Strict Implicit.

Section Safe.
Context {K V : Type}.
Variable E : env K V.
Hypothesis G : good E.

Notation entry := (entry K V).
Notation acache := (acache K V).
Notation aworld := (aworld K V).
Notation world := (world K V).
Implicit Types (w : world) (a : acache) (aw : aworld) (o : op K V).

Lemma exec_step o w aw : rel E w aw -> copy_free o = true ->
  exists ch, simr E (ok o) (exec E o w) (astep E ch o aw).
Proof.
  intros R CF. destruct (exec_sim G (o := o) R CF) as (ch & S). exists ch.
  rewrite <- astep_ev; auto. eapply awf_rel; eauto.
Qed.

Definition fine {A} (r : @ans K V A) : Prop :=
  match fst (fst (fst r)) with Val _ _ | Exc _ _ => True | _ => False end.
Lemma find_fine k a n : fine (l_find E k a n).
Proof. unfold l_find, fine. destruct (lookup_ent E k (a_ents a)) as [e|]; simpl; auto. destruct (stale E (a_ttl a) e n); simpl; auto. Qed.
Lemma contains_fine k a n : fine (l_contains E k a n).
Proof.
  unfold l_contains, fine. destruct (a_hot_ent E a k) as [e|]; [|destruct (lookup_ent E k (a_ents a)) as [e|]]; simpl; auto;
    destruct (stale E (a_ttl a) e n); simpl; auto.
Qed.
Lemma lookup_fine k a n : fine (l_lookup E k a n).
Proof.
  unfold l_lookup, fine. destruct (a_hot_ent E a k) as [e|]; [|destruct (lookup_ent E k (a_ents a)) as [e|]]; simpl; auto;
    destruct (stale E (a_ttl a) e n); simpl; auto. destruct (stale E (a_ttl a) e (tkn a + n)); simpl; auto.
Qed.
Lemma then_fine {A B} (f : A -> B) (r : @ans K V A) : fine r -> fine (then_ f r).
Proof. destruct r as (((r & a') & x) & m). destruct r; auto. Qed.

Lemma local_safe ch o a n :
  match fst (fst (fst (local E ch o a n))) with
  | Val _ _ | Exc _ _ => True
  | Undef u => u = PastTheEnd /\ lenient_end E = false /\ exists c k, o = FindEntry c k
  | Term e => e = EmptyCache /\ a_ents a = [] /\ exists c, o = Front c \/ o = Back c
  end.
Proof.
  assert (F : forall r : @ans K V (out K V), fine r -> match fst (fst (fst r)) with
  | Val _ _ | Exc _ _ => True
  | Undef u => u = PastTheEnd /\ lenient_end E = false /\ exists c k, o = FindEntry c k
  | Term e => e = EmptyCache /\ a_ents a = [] /\ exists c, o = Front c \/ o = Back c
  end).
  { intros r. unfold fine. destruct (fst (fst (fst r))); easy. }
  assert (L : match last_ent (a_ents a) with None => a_ents a = [] | Some _ => True end).
  { unfold last_ent. destruct (a_ents a) as [|e l] using rev_ind; simpl; auto. rewrite rev_app_distr. exact I. }
  destruct o; simpl; auto;
    try (apply F, then_fine; auto using find_fine, contains_fine, lookup_fine; fail);
    try (match goal with |- context [l_inserts ?a ?b ?c ?d ?e] => destruct (l_inserts a b c d e) as ((? & ?) & ?) end; simpl; auto; fail);
    try (match goal with |- context [l_clear ?a ?b ?c ?d ?e] => destruct (l_clear a b c d e) as ((? & ?) & ?) end; simpl; auto; fail).
  - destruct (lookup_ent E k (a_ents a)) as [e|].
    + destruct (stale E (a_ttl a) e n); simpl.
      * destruct (lenient_end E); simpl; eauto 6.
      * destruct (stale E (a_ttl a) e (tkn a + n)); simpl; auto.
    + simpl. destruct (lenient_end E); simpl; eauto 6.
  - pose proof (lookup_fine k a n) as H. destruct (l_lookup E k a n) as (((r & a') & x) & m). destruct r; simpl in *; easy.
  - destruct (lookup_ent E k (a_ents a)); simpl; auto.
  - destruct (l_find E k a n) as (((r & a') & x) & m). destruct r as [[e|] ?| | |]; simpl in *; easy.
  - destruct (nth_error (a_ents a) n0) as [e|]; simpl; auto. destruct (stale E (a_ttl a) e n); simpl; auto.
  - destruct (Nat.leb (length (a_ents a)) n0); simpl; auto. destruct (nth_error (a_ents a) ch) as [e|]; simpl; auto.
  - destruct (last_ent (a_ents a)); simpl; eauto 6.
  - destruct (a_ents a); simpl; eauto 6.
  - destruct (lookup_ent E k (a_ents a)); simpl; auto.
  - destruct (last_ent (a_ents a)); simpl; auto.
  - destruct (nth_error (a_ents a) n0) as [e|]; simpl; auto. destruct (stale E (a_ttl a) e n); simpl; auto.
  - destruct (nth_error (a_ents a) n0) as [e|]; simpl; auto.
Qed.

Lemma step_safe ch o aw : awf E aw ->
  match astep E ch o aw with
  | Val _ _ | Exc _ _ => True
  | Undef u => (exists c, o = Move c /\ u = Indeterminate /\ junk E = None) \/
               (exists c k, o = FindEntry c k /\ u = PastTheEnd /\ lenient_end E = false)
  | Term e => e = EmptyCache /\ exists c a, (o = Front c \/ o = Back c) /\
                slot (aw_caches aw) c = Some a /\ a_ents a = []
  end.
Proof.
  intros W. unfold astep. destruct (a_well_formed aw o); simpl; auto.
  destruct (target o) as [c|] eqn:T.
  { unfold two. destruct (slot (aw_caches aw) c) as [a|] eqn:Ha; auto.
    pose proof (local_safe ch o a (aw_reads aw)) as L. unfold give.
    destruct (local E ch o a (aw_reads aw)) as (((r & a') & x) & m). simpl in L.
    destruct r; auto.
    - destruct L as (-> & L & c' & k & ->). right. eauto 6.
    - destruct L as (-> & L & c' & [->| ->]); inversion T; subst; split; auto; exists c, a; auto. }
  destruct (stats_target o) as [c|] eqn:ST.
  { unfold two. destruct (slot (aw_caches aw) c) as [a|] eqn:Ha; auto.
    destruct (a_stats a) as [s|] eqn:As; auto. destruct (W c a Ha) as (S & _). specialize (S s As).
    destruct (slot (aw_stats aw) s) as [x|]; [|congruence].
    destruct o; inversion ST; subst; simpl; auto.
    - destruct (stats_for E x k); simpl; auto.
    - destruct (stats_unmonitor E k x); simpl; auto.
    - destruct (stats_reset_key E k x); simpl; auto. }
  destruct (building o) as [((cap & ttl) & l)|].
  { destruct (l_inserts E l 0 (fresh_a cap ttl) (aw_reads aw)) as ((cnt & a') & n'). auto. }
  destruct o; auto; unfold two; repeat match goal with |- context [slot (aw_caches aw) ?c] => destruct (slot (aw_caches aw) c) end; auto;
    try (match goal with |- context [Nat.eqb ?c ?d] => destruct (Nat.eqb c d) end; auto).
  destruct (junk E) as [n|] eqn:J; auto. left; eauto.
Qed.

Lemma undefined_only ops : forall w outs0 u, reachable E w -> forallb copy_free ops = true ->
  run E ops w = Undefined outs0 u ->
  exists pre o post w', ops = pre ++ o :: post /\ run E pre w = Finished outs0 w' /\
    ((exists c, o = Move c /\ u = Indeterminate /\ junk E = None) \/
     (exists c k, o = FindEntry c k /\ u = PastTheEnd /\ lenient_end E = false)).
Proof.
  induction ops as [|o t IH]; intros w outs0 u H F; cbn [run]; [discriminate|].
  simpl in F. apply andb_prop in F as (F1 & F2).
  destruct (reach_rel G H) as (aw & R). destruct (exec_step R F1) as (ch & S).
  pose proof (step_safe ch o (awf_rel R)) as A.
  destruct (exec E o w) as [r w'|e w'|u'|e] eqn:X.
  - intros Q. destruct (run E t w') as [|outs1 u1|] eqn:Y; simpl in Q; inversion Q; subst.
    destruct (IH w' outs1 u) as (pre & o' & post & w1 & -> & P & Z); auto.
    { eapply reachable_step; eauto. }
    exists (o :: pre), o', post, w1. cbn [run]. rewrite X, P. split; auto.
  - intros Q. destruct (run E t w') as [|outs1 u1|] eqn:Y; simpl in Q; inversion Q; subst.
    destruct (IH w' outs1 u) as (pre & o' & post & w1 & -> & P & Z); auto.
    { eapply reachable_exc; eauto. }
    exists (o :: pre), o', post, w1. cbn [run]. rewrite X, P. split; auto.
  - intros Q; inversion Q; subst. exists [], o, t, w. split; auto. split; auto.
    destruct (astep E ch o aw); simpl in S; try easy. subst. exact A.
  - discriminate.
Qed.

Lemma terminated_only ops : forall w outs0 (e : exn), reachable E w -> forallb copy_free ops = true ->
  run E ops w = Terminated outs0 e ->
  e = EmptyCache /\ exists pre o post w' c, ops = pre ++ o :: post /\ run E pre w = Finished outs0 w' /\
    (o = Front c \/ o = Back c) /\ contents E c w' [].
Proof.
  induction ops as [|o t IH]; intros w outs0 e0 H F; cbn [run]; [discriminate|].
  simpl in F. apply andb_prop in F as (F1 & F2).
  destruct (reach_rel G H) as (aw & R). destruct (exec_step R F1) as (ch & S).
  pose proof (step_safe ch o (awf_rel R)) as A.
  destruct (exec E o w) as [r w'|e w'|u'|e] eqn:X.
  - intros Q. destruct (run E t w') as [| |outs1 u1] eqn:Y; simpl in Q; inversion Q; subst.
    destruct (IH w' outs1 e0) as (-> & pre & o' & post & w1 & c & -> & P & Z); auto.
    { eapply reachable_step; eauto. }
    split; auto. exists (o :: pre), o', post, w1, c. cbn [run]. rewrite X, P. split; auto.
  - intros Q. destruct (run E t w') as [| |outs1 u1] eqn:Y; simpl in Q; inversion Q; subst.
    destruct (IH w' outs1 e0) as (-> & pre & o' & post & w1 & c & -> & P & Z); auto.
    { eapply reachable_exc; eauto. }
    split; auto. exists (o :: pre), o', post, w1, c. cbn [run]. rewrite X, P. split; auto.
  - discriminate.
  - intros Q; inversion Q; subst.
    destruct (astep E ch o aw); simpl in S; try easy. subst. destruct A as (-> & c & a & A & Ha & Z).
    split; auto. exists [], o, t, w, c. split; auto. split; auto. split; auto.
    pose proof (contents_of G R Ha) as C. rewrite Z in C. exact C.
Qed.

End Safe.
