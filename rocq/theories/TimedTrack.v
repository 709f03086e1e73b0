(** Insertion times: where the elements of a cache come from. *)
From Coq Require Import List Arith ZArith Bool Permutation Lia.
Import ListNotations.
From Verif Require Import Monad Types Model Api Spec SpecStats SpecTimed Ref Lists SimBase SimRel SimOps SimIns SimErase SimIter SimNew SimObs SimExec RefEval SimRun LruProofs CallProofs LruMore Flat Global Safe Frame StatProofs StatMore.
Set Implicit Arguments.
Unset Strict Implicit.
Local Open Scope cpp_scope.

Section Track.
Context {K V : Type}.
Variable E : env K V.
Hypothesis G : good E.

Notation acache := (acache K V).
Notation aworld := (aworld K V).
Notation world := (world K V).
Notation entry := (entry K V).
Implicit Types (a : acache) (aw : aworld) (w : world) (o : op K V) (e : entry).

Lemma lookup_some_in k l e : lookup_ent E k l = Some e -> In e l /\ key_equal E k (e_key e) = true.
Proof. intros H. apply find_some in H. auto. Qed.
Lemma in_lookup l : forall e k, dkeys E l -> In e l -> key_equal E k (e_key e) = true -> lookup_ent E k l = Some e.
Proof.
  induction l as [|x l IH]; simpl; intros e k D I Q; [easy|]. destruct D as (F & D).
  unfold lookup_ent in *. simpl.
  destruct I as [->|I]; [rewrite Q; auto|].
  rewrite Forall_forall in F. specialize (F _ I).
  destruct (key_equal E k (e_key x)) eqn:X; [|apply IH; auto].
  rewrite (good_sym G) in X. rewrite (good_trans G _ _ _ X Q) in F. discriminate.
Qed.

(** Elements of [l'] come from [l]: same key, same insertion time. *)
Definition from (l l' : list entry) : Prop :=
  forall e', In e' l' -> exists e, In e l /\ e_key e = e_key e' /\ e_time e = e_time e'.
Lemma from_refl l : from l l.
Proof. intros e I. eauto. Qed.
Lemma from_trans l1 l2 l3 : from l1 l2 -> from l2 l3 -> from l1 l3.
Proof. intros A B e I. destruct (B _ I) as (e2 & I2 & K2 & T2). destruct (A _ I2) as (e1 & I1 & K1 & T1). exists e1. split; auto. split; congruence. Qed.
Lemma from_incl l l' : incl l' l -> from l l'.
Proof. intros H e I. eauto. Qed.
Lemma incl_remove k l : incl (remove_ent E k l) l.
Proof. intros e I. apply filter_In in I. tauto. Qed.
Lemma incl_skipn {A} n (l : list A) : incl (skipn n l) l.
Proof. intros x I. rewrite <- (firstn_skipn n l). apply in_or_app; auto. Qed.
Lemma incl_lastn {A} n (l : list A) : incl (lastn n l) l.
Proof. apply incl_skipn. Qed.
Lemma from_add l l' e e' : from l l' -> In e l -> e_key e = e_key e' -> e_time e = e_time e' -> from l (l' ++ [e']).
Proof. intros F I Q T x J. apply in_app_or in J as [J|[<-|[]]]; auto. eauto. Qed.
Lemma from_bump k a e e' : In e (a_ents a) -> e_key e = e_key e' -> e_time e = e_time e' ->
  from (a_ents a) (a_ents (bump E k e' a)).
Proof. intros I Q T. simpl. eapply from_add; eauto. apply from_incl, incl_remove. Qed.
Lemma from_removed k a : from (a_ents a) (a_ents (removed E k a)).
Proof. apply from_incl, incl_remove. Qed.
Lemma from_keep n a : from (a_ents a) (a_ents (keep n a)).
Proof. apply from_incl, incl_lastn. Qed.

Lemma hot_in a k e : a_hot_ent E a k = Some e -> In e (a_ents a) /\ key_equal E k (e_key e) = true.
Proof.
  unfold a_hot_ent. destruct (a_hot a); [|discriminate]. unfold last_ent.
  destruct (rev (a_ents a)) as [|x t] eqn:R; [discriminate|].
  destruct (key_equal E k (e_key x)) eqn:Q; [|discriminate]. intros H; inversion H; subst.
  split; auto. apply in_rev. rewrite R. simpl; auto.
Qed.

Lemma find_from k a n : from (a_ents a) (a_ents (snd (fst (fst (l_find E k a n))))).
Proof.
  unfold l_find. destruct (lookup_ent E k (a_ents a)) as [e|] eqn:L; [|apply from_refl].
  destruct (stale E (a_ttl a) e n); [apply from_refl|]. apply (from_bump (e := e)); auto. apply (lookup_some_in L).
Qed.
Lemma contains_from k a n : from (a_ents a) (a_ents (snd (fst (fst (l_contains E k a n))))).
Proof.
  unfold l_contains. destruct (a_hot_ent E a k) as [e|].
  - destruct (stale E (a_ttl a) e n); apply from_refl.
  - destruct (lookup_ent E k (a_ents a)) as [e|] eqn:L; [|apply from_refl].
    destruct (stale E (a_ttl a) e n); [apply from_refl|]. apply (from_bump (e := e)); auto. apply (lookup_some_in L).
Qed.
Lemma lookup_from k a n : from (a_ents a) (a_ents (snd (fst (fst (l_lookup E k a n))))).
Proof.
  unfold l_lookup. destruct (a_hot_ent E a k) as [e|].
  - destruct (stale E (a_ttl a) e n); apply from_refl.
  - destruct (lookup_ent E k (a_ents a)) as [e|] eqn:L; [|apply from_refl].
    destruct (stale E (a_ttl a) e n); [apply from_refl|].
    destruct (stale E (a_ttl a) e (tkn a + n)); (apply (from_bump (e := e)); auto; apply (lookup_some_in L)).
Qed.
Lemma lookup_found k a n e s : fst (fst (fst (l_lookup E k a n))) = Val e s ->
  In e (a_ents a) /\ key_equal E k (e_key e) = true.
Proof.
  unfold l_lookup. destruct (a_hot_ent E a k) as [e'|] eqn:Hh.
  - destruct (stale E (a_ttl a) e' n); simpl; intros H; inversion H; subst. apply (hot_in Hh).
  - destruct (lookup_ent E k (a_ents a)) as [e'|] eqn:L; [|discriminate].
    destruct (stale E (a_ttl a) e' n); [discriminate|].
    destruct (stale E (a_ttl a) e' (tkn a + n)); simpl; intros H; inversion H; subst. apply (lookup_some_in L).
Qed.
Lemma clear_from l : forall a n cnt, from (a_ents a) (a_ents (snd (fst (l_clear E l a n cnt)))).
Proof.
  induction l as [|e l IH]; intros a n cnt; simpl; [apply from_refl|].
  destruct (stale E (a_ttl a) e n); [|apply from_refl].
  eapply from_trans; [apply from_removed|]. apply IH.
Qed.

(** One insertion: the elements are old ones, or it is the new one. *)
Lemma insert_from k v t a e' : In e' (a_ents (snd (insert_c E k v t a))) ->
  (exists e, In e (a_ents a) /\ e_key e = e_key e' /\ e_time e = e_time e') \/
  (e' = Ent k v t /\ lookup_ent E k (a_ents a) = None /\ a_cap a <> 0).
Proof.
  unfold insert_c. destruct (Nat.eqb_spec (a_cap a) 0); simpl; [eauto|].
  destruct (lookup_ent E k (a_ents a)) as [e|] eqn:L; simpl.
  - intros I. left. revert e' I. apply (from_bump (k := k) (e := e) (e' := Ent (e_key e) v (e_time e))); auto. apply (lookup_some_in L).
  - intros I. apply incl_lastn in I. apply in_app_or in I as [I|[<-|[]]]; eauto.
Qed.
Lemma insert_ttl k v t a : a_ttl (snd (insert_c E k v t a)) = a_ttl a.
Proof. unfold insert_c. destruct (Nat.eqb (a_cap a) 0), (lookup_ent E k (a_ents a)); auto. Qed.
Lemma inserts_from l : forall cnt a n e', In e' (a_ents (snd (fst (l_inserts E l cnt a n)))) ->
  n <= snd (l_inserts E l cnt a n) /\
  ((exists e, In e (a_ents a) /\ e_key e = e_key e' /\ e_time e = e_time e') \/
   (In (e_key e') (map fst l) /\ (a_ttl a <> None -> exists i, n <= i < snd (l_inserts E l cnt a n) /\ e_time e' = clock E i))).
Proof.
  induction l as [|p l IH]; intros cnt a n e'; cbn [l_inserts]; [simpl; intros I; split; [lia|left; eauto]|].
  set (r := insert_c E (fst p) (snd p) (stamp_at E a n) a). intros I. apply IH in I as (N & [(e & I & Q & T)|(I & T)]).
  - split; [lia|]. unfold r in I. apply insert_from in I as [(e0 & I & Q0 & T0)|(-> & L & C)].
    + left. exists e0. split; auto. split; congruence.
    + right. simpl in Q, T. rewrite <- Q, <- T. split; [simpl; auto|]. intros TT. exists n. split.
      * revert N. unfold l_insert_ticks. destruct (Nat.eqb_spec (a_cap a) 0); [easy|]. rewrite L.
        unfold tkn. destruct (a_ttl a); [|easy]. intros N. split; [lia|].
        fold r. lia.
      * unfold stamp_at. destruct (a_ttl a); [auto|easy].
  - split; [lia|]. right. split; [simpl; auto|]. intros TT.
    assert (TT' : a_ttl (snd r) <> None) by (unfold r; rewrite insert_ttl; auto). destruct (T TT') as (i & B & Q). exists i. split; auto. lia.
Qed.

(** The elements after a call on one cache. *)
Lemma local_from ch o c a n e' : target o = Some c -> In e' (a_ents (snd (fst (fst (local E ch o a n))))) ->
  (exists e, In e (a_ents a) /\ e_key e = e_key e' /\ e_time e = e_time e') \/
  (exists k v, puts c k v o /\ e' = Ent k v (stamp_at E a n) /\ lookup_ent E k (a_ents a) = None /\
               snd (local E ch o a n) = tkn a) \/
  (In (e_key e') (map fst (range_into c o)) /\
   (a_ttl a <> None -> exists i, n <= i < snd (local E ch o a n) + n /\ e_time e' = clock E i)).
Proof.
  intros T.
  assert (FR : from (a_ents a) (a_ents (snd (fst (fst (local E ch o a n))))) ->
    In e' (a_ents (snd (fst (fst (local E ch o a n))))) ->
    exists e, In e (a_ents a) /\ e_key e = e_key e' /\ e_time e = e_time e') by (intros F I; auto).
  assert (ASSIGN : forall l, let a0 := with_cap (Nat.max (a_cap a) (length l)) (keep 0 a) in
    In e' (a_ents (snd (fst (l_inserts E l 0 a0 n)))) ->
    (exists e, In e (a_ents a) /\ e_key e = e_key e' /\ e_time e = e_time e') \/
    (In (e_key e') (map fst l) /\
     (a_ttl a <> None -> exists i, n <= i < (snd (l_inserts E l 0 a0 n) - n) + n /\ e_time e' = clock E i))).
  { intros l a0 I. destruct (inserts_from I) as (N & [(e & J & _)|(J & X)]).
    - simpl in J. unfold lastn in J. rewrite Nat.sub_0_r, skipn_all in J. easy.
    - right. split; auto. intros TT. destruct (X TT) as (i & B & Q). exists i. split; auto. lia. }
  assert (RANGE : forall l, In e' (a_ents (snd (fst (l_inserts E l 0 a n)))) ->
    (exists e, In e (a_ents a) /\ e_key e = e_key e' /\ e_time e = e_time e') \/
    (In (e_key e') (map fst l) /\
     (a_ttl a <> None -> exists i, n <= i < (snd (l_inserts E l 0 a n) - n) + n /\ e_time e' = clock E i))).
  { intros l I. destruct (inserts_from I) as (N & [J|(J & X)]); auto.
    right. split; auto. intros TT. destruct (X TT) as (i & B & Q). exists i. split; auto. lia. }
  assert (ONE : forall k v, puts c k v o -> In e' (a_ents (snd (insert_c E k v (stamp_at E a n) a))) ->
    (exists e, In e (a_ents a) /\ e_key e = e_key e' /\ e_time e = e_time e') \/
    (exists k v, puts c k v o /\ e' = Ent k v (stamp_at E a n) /\ lookup_ent E k (a_ents a) = None /\
               l_insert_ticks E k a = tkn a)).
  { intros k v P I. apply insert_from in I as [I|(Q & L & C)]; auto. right. exists k, v. split; auto. split; auto. split; auto.
    unfold l_insert_ticks. rewrite L. destruct (Nat.eqb_spec (a_cap a) 0); easy. }
  destruct o; inversion T; subst; cbn [local range_into];
    try (intros I; left; apply FR; [|exact I]; simpl; apply from_refl).
  - rewrite Nat.eqb_refl. specialize (ASSIGN l). cbv zeta in ASSIGN. revert ASSIGN.
    destruct (l_inserts E l 0 _ n) as ((cnt & a') & n'). simpl. intros A I. destruct (A I); auto.
  - rewrite Nat.eqb_refl. specialize (ASSIGN l). cbv zeta in ASSIGN. revert ASSIGN.
    destruct (l_inserts E l 0 _ n) as ((cnt & a') & n'). simpl. intros A I. destruct (A I); auto.
  - simpl. intros I. destruct (ONE k v (puts_insert _ _ _) I) as [H|(k' & v' & P & X)]; [auto|].
    right. left. exists k', v'. inversion P; subst. auto.
  - simpl. intros I. destruct (ONE k v (puts_emplace _ _ _) I) as [H|(k' & v' & P & X)]; [auto|].
    right. left. exists k', v'. inversion P; subst. auto.
  - rewrite Nat.eqb_refl. specialize (RANGE l). revert RANGE.
    destruct (l_inserts E l 0 a n) as ((cnt & a') & n'). simpl. intros A I. destruct (A I); auto.
  - rewrite Nat.eqb_refl. specialize (RANGE l). revert RANGE.
    destruct (l_inserts E l 0 a n) as ((cnt & a') & n'). simpl. intros A I. destruct (A I); auto.
  - intros I. left. apply FR; [|exact I]. cbn [local]. pose proof (@find_from k a n) as F.
    destruct (l_find E k a n) as (((r & a') & x) & m). exact F.
  - intros I. left. apply FR; [|exact I]. cbn [local].
    destruct (lookup_ent E k (a_ents a)) as [e|] eqn:L; [|apply from_refl].
    destruct (stale E (a_ttl a) e n); [apply from_refl|].
    destruct (stale E (a_ttl a) e (tkn a + n)); (apply (from_bump (e := e)); auto; apply (lookup_some_in L)).
  - intros I. left. apply FR; [|exact I]. cbn [local]. pose proof (@contains_from k a n) as F.
    destruct (l_contains E k a n) as (((r & a') & x) & m). exact F.
  - intros I. left. apply FR; [|exact I]. cbn [local]. pose proof (@lookup_from k a n) as F.
    destruct (l_lookup E k a n) as (((r & a') & x) & m). exact F.
  - intros I. left. apply FR; [|exact I]. cbn [local]. pose proof (@lookup_from k a n) as F.
    pose proof (@lookup_found k a n) as LF.
    destruct (l_lookup E k a n) as (((r & a') & x) & m). simpl in F, LF. destruct r as [e s| | |]; simpl; auto.
    destruct (LF _ _ eq_refl) as (I' & _). eapply from_add; [|eauto|auto|auto].
    eapply from_trans; [exact F|]. apply from_incl, incl_remove.
  - intros I. left. apply FR; [|exact I]. cbn [local]. destruct (lookup_ent E k (a_ents a)); [apply from_removed|apply from_refl].
  - intros I. left. apply FR; [|exact I]. cbn [local]. pose proof (@find_from k a n) as F.
    destruct (l_find E k a n) as (((r & a') & x) & m). simpl in F.
    destruct r as [[e|] s| | |]; simpl; auto. eapply from_trans; [exact F|]. apply from_removed.
  - intros I. left. apply FR; [|exact I]. cbn [local]. destruct (nth_error (a_ents a) n0) as [e|]; [|apply from_refl].
    destruct (stale E (a_ttl a) e n); [apply from_refl|apply from_removed].
  - intros I. left. apply FR; [|exact I]. cbn [local]. destruct (Nat.leb (length (a_ents a)) n0); [apply from_refl|].
    destruct (nth_error (a_ents a) ch); [apply from_removed|apply from_refl].
  - intros I. left. apply FR; [|exact I]. apply from_keep.
  - intros I. left. apply FR; [|exact I]. apply from_keep.
  - intros I. left. apply FR; [|exact I]. apply from_keep.
  - intros I. left. apply FR; [|exact I]. cbn [local]. pose proof (@clear_from (a_ents a) a n 0) as F.
    destruct (l_clear E (a_ents a) a n 0) as ((cnt & a') & n'). exact F.
  - intros I. left. apply FR; [|exact I]. cbn [local]. destruct (last_ent (a_ents a)); apply from_refl.
  - intros I. left. apply FR; [|exact I]. cbn [local]. destruct (a_ents a) eqn:Q; rewrite <- Q; apply from_refl.
  - intros I. left. apply FR; [|exact I]. cbn [local]. destruct (lookup_ent E k (a_ents a)); apply from_refl.
  - intros I. left. apply FR; [|exact I]. cbn [local]. destruct (last_ent (a_ents a)); apply from_refl.
  - intros I. left. apply FR; [|exact I]. cbn [local]. destruct (nth_error (a_ents a) n0); apply from_refl.
  - intros I. left. apply FR; [|exact I]. cbn [local]. destruct (nth_error (a_ents a) n0); apply from_refl.
Qed.

(** ** One call *)
Definition after (r : res aworld (out K V)) (oc : outcome K V) aw' : Prop :=
  match r, oc with
  | Val x w, Returned y => x = y /\ w = aw'
  | Exc e w, Threw e' => e = e' /\ w = aw'
  | _, _ => False
  end.
Lemma call_any o w aw oc w' : rel E w aw -> copy_free o = true -> call E o w oc w' ->
  exists ch oc' aw', rel E w' aw' /\ after (astep E ch o aw) oc' aw' /\
    (oc' = oc \/ exists c, o = Unordered c).
Proof.
  intros R CF C. destruct (exec_step G R CF) as (ch & S). unfold call in C. exists ch.
  destruct oc as [r|e]; rewrite C in S; destruct (astep E ch o aw) as [r' aw'|e' aw'| |]; simpl in S; try easy; destruct S as (S1 & S2).
  - exists (Returned r'), aw'. split; auto. simpl. split; auto. unfold ok, out_rel in S2. destruct o; subst; auto. eauto.
  - exists (Threw e'), aw'. split; auto. simpl. split; auto. subst; auto.
Qed.

Lemma give_caches {A} c a (r : @ans K V A) aw b : slot (aw_caches aw) c = Some b ->
  let aw' := awith c (snd (fst (fst r))) (noted E a (snd (fst r)) (ticks (snd r) aw)) in
  forall d, slot (aw_caches aw') d = if Nat.eqb c d then Some (snd (fst (fst r))) else slot (aw_caches aw) d.
Proof.
  intros H aw' d. unfold aw'. simpl. rewrite noted_caches. simpl. destruct (Nat.eqb_spec c d) as [->|N].
  - erewrite slot_upd_same by eauto. auto.
  - rewrite slot_upd_other; auto.
Qed.
Lemma noted_reads a x aw : aw_reads (noted E a x aw) = aw_reads aw.
Proof. destruct x; auto. Qed.
Lemma after_give {c a} {r : @ans K V (out K V)} {aw oc aw'} : after (give E c a r aw) oc aw' ->
  aw' = awith c (snd (fst (fst r))) (noted E a (snd (fst r)) (ticks (snd r) aw)) /\
  outcome_in (fst (fst (fst r))) = Some oc.
Proof.
  destruct r as (((o & a') & x) & m). unfold give. destruct o, oc; simpl; try easy; intros (-> & ->); auto.
Qed.

Lemma follow_target o oc c d : target o = Some d -> follow o oc c = c.
Proof. destruct o; try discriminate; auto. Qed.
Lemma follow_stats o oc c d : stats_target o = Some d -> follow o oc c = c.
Proof. destruct o; try discriminate; auto. Qed.
Lemma follow_build o oc c x : building o = Some x -> follow o oc c = c.
Proof. destruct o; try discriminate; auto. Qed.

Lemma has_range k l e : has E k l = false -> key_equal E k (e_key e) = true -> ~ In (e_key e) (map fst l).
Proof.
  intros H Q I. apply in_map_iff in I as (p & P & I). unfold has in H.
  assert (X : existsb (fun p => key_equal E k (fst p)) l = true).
  { apply existsb_exists. exists p. split; auto. rewrite P. auto. }
  congruence.
Qed.

Lemma step_time ch o aw oc aw' c a a1 k e e1 : copy_free o = true ->
  (forall d b, slot (aw_caches aw) d = Some b -> dkeys E (a_ents b)) ->
  after (astep E ch o aw) oc aw' -> slot (aw_caches aw) c = Some a ->
  lookup_ent E k (a_ents a) = Some e -> has E k (range_into c o) = false ->
  slot (aw_caches aw') (follow o oc c) = Some a1 -> lookup_ent E k (a_ents a1) = Some e1 ->
  e_time e1 = e_time e.
Proof.
  intros CF D ST Ha L RI Ha1 L1.
  assert (SAME : aw_caches aw' = aw_caches aw -> follow o oc c = c -> e_time e1 = e_time e).
  { intros Q F. rewrite F, Q, Ha in Ha1. inversion Ha1; subst. rewrite L in L1. inversion L1; auto. }
  assert (ENTS : a_ents a1 = a_ents a -> e_time e1 = e_time e).
  { intros Q. rewrite Q, L in L1. inversion L1; auto. }
  unfold astep in ST. destruct (a_well_formed aw o) eqn:WF; simpl in ST.
  2:{ destruct oc; simpl in ST; [|easy]. destruct ST as (<- & <-). apply SAME; auto. destruct o; auto. }
  destruct (target o) as [d|] eqn:T.
  { rewrite (follow_target oc c T) in *. unfold two in ST. destruct (slot (aw_caches aw) d) as [b|] eqn:Hb.
    2:{ destruct oc; simpl in ST; [|easy]. destruct ST as (_ & <-). apply SAME; auto. }
    destruct (after_give ST) as (-> & _). rewrite (give_caches b _ Hb) in Ha1.
    destruct (Nat.eqb_spec d c) as [->|N].
    - rewrite Ha in Hb. inversion Hb; subst b. inversion Ha1; subst a1. clear Ha1.
      destruct (lookup_some_in L1) as (I1 & Q1).
      destruct (local_from T I1) as [(e0 & I0 & K0 & T0)|[(k' & v' & P & -> & LN & _)|(I & _)]].
      + rewrite <- K0 in Q1. rewrite (in_lookup (D _ _ Ha) I0 Q1) in L. inversion L; subst. auto.
      + simpl in Q1. exfalso. destruct (lookup_some_in L) as (I0 & Q0).
        assert (X : key_equal E k' (e_key e) = true) by (eapply (good_trans G); [|exact Q0]; rewrite (good_sym G); auto).
        rewrite (in_lookup (D _ _ Ha) I0 X) in LN. discriminate.
      + exfalso. eapply has_range; eauto.
    - rewrite Ha in Ha1. inversion Ha1; subst. rewrite L in L1. inversion L1; auto. }
  destruct (stats_target o) as [d|] eqn:S.
  { rewrite (follow_stats oc c S) in *. unfold two in ST.
    destruct (slot (aw_caches aw) d) as [b|]; [|destruct oc; simpl in ST; [|easy]; destruct ST as (_ & <-); apply SAME; auto].
    destruct (a_stats b) as [s|]; [|destruct oc; simpl in ST; [easy|]; destruct ST as (_ & <-); apply SAME; auto].
    destruct (slot (aw_stats aw) s) as [x|]; [|easy]. destruct (on_stats E o x) as (r & x').
    destruct r, oc; simpl in ST; try easy; destruct ST as (_ & <-); apply SAME; auto. }
  destruct (building o) as [((cap, ttl), l)|] eqn:B.
  { rewrite (follow_build oc c B) in *. destruct (l_inserts E l 0 (fresh_a cap ttl) (aw_reads aw)) as ((cnt & a') & n').
    destruct oc; simpl in ST; [|easy]. destruct ST as (_ & <-). simpl in Ha1.
    rewrite slot_app_lt in Ha1 by (eapply slot_lt; eauto). rewrite Ha in Ha1. inversion Ha1; subst. auto. }
  destruct o; try discriminate; simpl in WF.
  - (* Move *) unfold two in ST. destruct (slot (aw_caches aw) c0) as [b|] eqn:Hb; [|unfold a_alive in WF; rewrite Hb in WF; discriminate].
    destruct (junk E) as [n|]; [|easy]. destruct oc as [r|]; simpl in ST; [|easy]. destruct ST as (<- & <-).
    cbn [follow] in Ha1. assert (Hlt : c0 < length (aw_caches aw)) by (eapply slot_lt; eauto).
    simpl in Ha1. destruct (Nat.eqb_spec c c0) as [->|N].
    + rewrite Ha in Hb; inversion Hb; subst b. rewrite <- (upd_length (aw_caches aw) c0 (Some (take_from (fresh_a n None) a))) in Ha1 at 1.
      rewrite slot_app_new in Ha1. inversion Ha1; subst. auto.
    + rewrite slot_app_lt in Ha1 by (rewrite upd_length; eapply slot_lt; eauto).
      rewrite slot_upd_other in Ha1 by auto. rewrite Ha in Ha1. inversion Ha1; subst. auto.
  - (* Destroy *) destruct oc as [r|]; simpl in ST; [|easy]. destruct ST as (<- & <-). simpl in Ha1.
    destruct (Nat.eq_dec c0 c) as [->|N]; [erewrite slot_upd_same in Ha1 by eauto; discriminate|].
    rewrite slot_upd_other in Ha1 by auto. rewrite Ha in Ha1. inversion Ha1; subst. auto.
  - (* CopyAssign *) destruct oc as [r|]; simpl in ST; [|easy]. destruct ST as (<- & <-). apply SAME; auto.
  - (* MoveAssign *) unfold two in ST. destruct (kind_get WF) as (b & b' & Hb & Hb'). rewrite Hb, Hb' in ST.
    destruct (Nat.eqb_spec c0 d) as [->|N].
    + destruct oc as [r|]; simpl in ST; [|easy]. destruct ST as (<- & <-). simpl in Ha1. apply SAME; auto. simpl.
      destruct (Nat.eqb_spec c d); auto.
    + destruct oc as [r|]; simpl in ST; [|easy]. destruct ST as (<- & <-). simpl in Ha1.
      assert (HDD : slot (upd (aw_caches aw) c0 (Some (with_ttl' (a_ttl b') (take_from b' b)))) d = Some b') by (rewrite slot_upd_other; auto).
      destruct (Nat.eqb_spec c c0) as [->|N1].
      * erewrite slot_upd_same in Ha1 by eauto. inversion Ha1; subst. rewrite Ha in Hb; inversion Hb; subst. auto.
      * destruct (Nat.eqb_spec c d) as [->|N2].
        -- rewrite slot_upd_other in Ha1 by auto. erewrite slot_upd_same in Ha1 by eauto. inversion Ha1; subst.
           rewrite Ha in Hb'; inversion Hb'; subst. auto.
        -- rewrite !slot_upd_other in Ha1 by auto. rewrite Ha in Ha1; inversion Ha1; subst; auto.
  - (* Swap *) unfold two in ST. destruct (kind_get WF) as (b & b' & Hb & Hb'). rewrite Hb, Hb' in ST.
    destruct (Nat.eqb_spec c0 d) as [->|N].
    + destruct oc as [r|]; simpl in ST; [|easy]. destruct ST as (<- & <-). simpl in Ha1. apply SAME; auto. simpl.
      destruct (Nat.eqb_spec c d); auto.
    + destruct oc as [r|]; simpl in ST; [|easy]. destruct ST as (<- & <-). simpl in Ha1.
      assert (HDD : slot (upd (aw_caches aw) c0 (Some (with_ttl' (a_ttl b') (take_from b' b)))) d = Some b') by (rewrite slot_upd_other; auto).
      destruct (Nat.eqb_spec c c0) as [->|N1].
      * erewrite slot_upd_same in Ha1 by eauto. inversion Ha1; subst. rewrite Ha in Hb; inversion Hb; subst. auto.
      * destruct (Nat.eqb_spec c d) as [->|N2].
        -- rewrite slot_upd_other in Ha1 by auto. erewrite slot_upd_same in Ha1 by eauto. inversion Ha1; subst.
           rewrite Ha in Hb'; inversion Hb'; subst. auto.
        -- rewrite !slot_upd_other in Ha1 by auto. rewrite Ha in Ha1; inversion Ha1; subst; auto.
  - (* Equal *) unfold two in ST. destruct (kind_get WF) as (b & b' & Hb & Hb'). rewrite Hb, Hb' in ST.
    destruct oc as [r|]; simpl in ST; [|easy]. destruct ST as (<- & <-). apply SAME; auto.
  - (* MonitorNew *) unfold two in ST. destruct (slot (aw_caches aw) c0) as [b|] eqn:Hb; [|unfold a_alive in WF; rewrite Hb in WF; discriminate].
    destruct oc as [r|]; simpl in ST; [|easy]. destruct ST as (<- & <-). simpl in Ha1.
    destruct (Nat.eq_dec c0 c) as [->|N].
    + erewrite slot_upd_same in Ha1 by eauto. inversion Ha1; subst. rewrite Ha in Hb; inversion Hb; subst. auto.
    + rewrite slot_upd_other in Ha1 by auto. rewrite Ha in Ha1. inversion Ha1; subst. auto.
Qed.

(** An element that was not there before the call was inserted by it. *)
Lemma step_birth ch o aw oc aw' c a1 k e1 : copy_free o = true ->
  (forall d b, slot (aw_caches aw) d = Some b -> dkeys E (a_ents b)) ->
  after (astep E ch o aw) oc aw' -> adds o oc c ->
  (forall a, slot (aw_caches aw) c = Some a -> lookup_ent E k (a_ents a) = None) ->
  slot (aw_caches aw') c = Some a1 -> lookup_ent E k (a_ents a1) = Some e1 -> a_ttl a1 <> None ->
  exists i, aw_reads aw <= i < aw_reads aw' /\ e_time e1 = clock E i /\
    (forall j u, puts c j u o -> i = aw_reads aw).
Proof.
  intros CF D ST AD AB Ha1 L1 TT.
  assert (NONE : forall a, slot (aw_caches aw) c = Some a -> forall e, In e (a_ents a) -> key_equal E k (e_key e) = true -> False).
  { intros a Ha e I Q. pose proof (AB _ Ha) as AB'. rewrite (in_lookup (D _ _ Ha) I Q) in AB'. discriminate. }
  destruct (lookup_some_in L1) as (I1 & Q1).
  unfold astep in ST. destruct (a_well_formed aw o) eqn:WF; simpl in ST.
  2:{ exfalso. destruct oc as [r|]; simpl in ST; [|easy]. destruct ST as (<- & <-). eapply NONE; eauto. }
  destruct (target o) as [d|] eqn:T.
  { assert (d = c).
    { destruct AD as [? ? ? ? ? P|? ? ? ? P|? ? ? ? P|? ? ? ? ? P]; inversion P; subst; inversion T; auto. }
    subst d. unfold two in ST. destruct (slot (aw_caches aw) c) as [a|] eqn:Ha.
    2:{ exfalso. destruct oc as [r|]; simpl in ST; [|easy]. destruct ST as (<- & <-). congruence. }
    destruct (after_give ST) as (-> & _). rewrite (give_caches a _ Ha), Nat.eqb_refl in Ha1.
    inversion Ha1; subst a1. clear Ha1.
    assert (TA : a_ttl a <> None).
    { pose proof (proj1 (local_attr E ch o a (aw_reads aw))) as Q. rewrite <- Q. exact TT. }
    simpl. rewrite noted_reads. simpl.
    destruct (local_from T I1) as [(e0 & I0 & K0 & T0)|[(k' & v' & P & -> & LN & M)|(I & X)]].
    - exfalso. rewrite <- K0 in Q1. eapply NONE; eauto.
    - exists (aw_reads aw). rewrite M. unfold tkn. simpl. unfold stamp_at. destruct (a_ttl a); [|easy]. split; [lia|]. auto.
    - destruct (X TA) as (i & B & Q). exists i. split; [lia|]. split; auto. intros j u P.
      exfalso. destruct P; exact I. }
  destruct (stats_target o) as [d|] eqn:S.
  { exfalso. destruct AD as [? ? ? ? ? P|? ? ? ? P|? ? ? ? P|? ? ? ? ? P]; inversion P; subst; discriminate. }
  destruct (building o) as [((cap, ttl), l)|] eqn:B.
  2:{ exfalso. destruct AD as [? ? ? ? ? P|? ? ? ? P|? ? ? ? P|? ? ? ? ? P]; inversion P; subst; discriminate. }
  destruct (l_inserts E l 0 (fresh_a cap ttl) (aw_reads aw)) as ((cnt & a') & n') eqn:LI.
  destruct oc as [r|]; simpl in ST; [|easy]. destruct ST as (<- & <-).
  assert (c = length (aw_caches aw)).
  { inversion AD as [? ? ? ? ? P|? ? ? ? P|? ? ? ? P|? ? ? ? ? P]; auto; inversion P; subst; discriminate. }
  subst c. simpl in Ha1. rewrite slot_app_new in Ha1. inversion Ha1; subst a1.
  assert (I2 : In e1 (a_ents (snd (fst (l_inserts E l 0 (fresh_a cap ttl) (aw_reads aw)))))) by (rewrite LI; auto).
  destruct (inserts_from I2) as (N & [(e0 & [] & _)|(I & X)]).
  pose proof (proj1 (inserts_attr E l 0 (fresh_a cap ttl) (aw_reads aw))) as TA. simpl in TA. rewrite LI in *. simpl in *.
  rewrite TA in TT. destruct (X TT) as (i & BB & Q). exists i. split; [lia|]. split; auto.
  intros j u P. exfalso. inversion P; subst; discriminate.
Qed.

(** ** Histories *)
Lemma kept_time k c w ops c' w' : kept E k c w ops c' w' -> forall aw a e, rel E w aw ->
  slot (aw_caches aw) c = Some a -> lookup_ent E k (a_ents a) = Some e ->
  exists aw' a' e', rel E w' aw' /\ slot (aw_caches aw') c' = Some a' /\
    lookup_ent E k (a_ents a') = Some e' /\ e_time e' = e_time e.
Proof.
  induction 1 as [c w|c w o oc w1 l t c' w' CF C RI CT HK KP IH]; intros aw a e R Ha L.
  - exists aw, a, e. auto.
  - destruct (call_any R CF C) as (ch & oc' & aw1 & R1 & ST & OC).
    assert (F : follow o oc' c = follow o oc c).
    { destruct OC as [->|(d & ->)]; reflexivity. }
    destruct (contents_inv G R1 CT) as (a1 & Ha1 & ->).
    rewrite has_map in HK. destruct (lookup_ent E k (a_ents a1)) as [e1|] eqn:L1; [|discriminate].
    rewrite <- F in Ha1.
    assert (T : e_time e1 = e_time e).
    { refine (step_time CF _ ST Ha L RI Ha1 L1). intros d b Hb. exact (rel_dkeys R Hb). }
    rewrite F in Ha1. destruct (IH aw1 a1 e1 R1 Ha1 L1) as (aw' & a' & e' & R' & Ha' & L' & T').
    exists aw', a', e'. repeat (split; auto). congruence.
Qed.

Lemma kept_reach k c w ops c' w' : kept E k c w ops c' w' -> reachable E w -> reachable E w'.
Proof.
  induction 1 as [c w|c w o oc w1 l t c' w' CF C RI CT HK KP IH]; auto. intros H. apply IH.
  unfold call in C. destruct oc; [eapply reachable_step|eapply reachable_exc]; eauto.
Qed.

End Track.
