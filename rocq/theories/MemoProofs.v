(** Memoised functions: results, and the accesses they make. *)
From Coq Require Import List Arith ZArith Bool Lia.
Import ListNotations.
From Verif Require Import Monad Types Model Api Spec SpecStats SpecTimed Memo SpecMemo Ref Lists SimBase SimRel LruMore MemoCalls.
Set Implicit Arguments.
Unset Strict Implicit.
Local Open Scope cpp_scope.

Scheme means_ind2 := Minimality for means Sort Prop
  with yields_ind2 := Minimality for yields Sort Prop.
Combined Scheme means_yields_ind from means_ind2, yields_ind2.

Section Function.
Context {K V : Type}.
Variable F : K -> V + recipe K V.

Lemma means_deterministic :
  (forall k r, means F k r -> forall r', means F k r' -> r' = r) /\
  (forall b r, yields F b r -> forall r', yields F b r' -> r' = r).
Proof.
  apply means_yields_ind.
  - intros k v Q r' H. inversion H; congruence.
  - intros k b r Q _ IH r' H. inversion H; subst; [congruence|]. apply IH. congruence.
  - intros v r' H. inversion H. auto.
  - intros n r' H. inversion H. auto.
  - intros k g v r _ IH1 _ IH2 r' H. inversion H; subst.
    + assert (Q : inl v0 = (inl v : V + nat)) by auto. inversion Q; subst. auto.
    + assert (Q : inr n = (inl v : V + nat)) by auto. discriminate.
  - intros k g n _ IH1 r' H. inversion H; subst.
    + assert (Q : inl v = (inr n : V + nat)) by auto. discriminate.
    + auto.
Qed.
Lemma means_same k k' r : F k = F k' -> means F k r -> means F k' r.
Proof. intros Q H. inversion H; subst; [apply means_base|eapply means_computed; [|eauto]]; congruence. Qed.
End Function.

Section Memo.
Context {K V : Type}.
Variable E : env K V.
Hypothesis G : good E.
Variable F : K -> V + recipe K V.
Hypothesis RF : respectful F E.
Variables (c n : nat) (ttl : option Z) (stamps : Prop).
Hypothesis STM : stamps -> ttl <> None.
Variable put : K -> V -> op K V.
Hypothesis PUT : forall k v, puts c k v (put k v).

Notation st := (@st K V E c n ttl stamps).
Notation memo := (memo E F put).

Definition expired (x : res (world K V) V) (w' : world K V) : Prop :=
  x = Exc KeyExpired w' /\ exists d, ttl = Some d /\ (stamps -> exists i j, ~ young E d (clock E i) (clock E j)).

Lemma correct_put k v l : means F k (inl v) -> correct F l -> correct F (cput E n k v l).
Proof.
  intros H C k' v' I. unfold cput in I. destruct (Nat.eqb n 0); [auto|].
  destruct (look E k l) as [(k0 & v0)|] eqn:L.
  - apply in_app_iff in I as [I|[I|[]]].
    + apply C. unfold without in I. apply filter_In in I. tauto.
    + inversion I; subst. apply look_eq in L. eapply means_same; [|exact H]. apply RF. auto.
  - unfold newest in I. apply in_skipn in I. apply in_app_iff in I as [I|[I|[]]]; [auto|inversion I; subst; auto].
Qed.
Lemma correct_bump k p l : In p l -> correct F l -> correct F (without E k l ++ [p]).
Proof.
  intros I C k' v' I'. apply in_app_iff in I' as [I'|[->|[]]]; auto.
  apply C. unfold without in I'. apply filter_In in I'. tauto.
Qed.

Lemma memo_sound :
  (forall k r, means F k r -> exists d0, forall d, d0 <= d -> forall w l, st w l -> correct F l ->
     exists w' l', st w' l' /\ correct F l' /\ (ends r (memo d c k w) w' \/ expired (memo d c k w) w')) /\
  (forall b r, yields F b r -> exists d0, forall d, d0 <= d -> forall w l, st w l -> correct F l ->
     exists w' l', st w' l' /\ correct F l' /\
       (ends r (follow_recipe (memo d c) b w) w' \/ expired (follow_recipe (memo d c) b w) w')).
Proof.
  assert (MB : forall k b r, F k = inr b -> means F k r ->
    (exists d0, forall d, d0 <= d -> forall w l, st w l -> correct F l ->
      exists w' l', st w' l' /\ correct F l' /\
       (ends r (follow_recipe (memo d c) b w) w' \/ expired (follow_recipe (memo d c) b w) w')) ->
    exists d0, forall d, d0 <= d -> forall w l, st w l -> correct F l ->
      exists w' l', st w' l' /\ correct F l' /\ (ends r (memo d c k w) w' \/ expired (memo d c k w) w')).
  { intros k b r Q H (d0 & IH). exists (S d0). intros d LE w l S C. destruct d as [|d]; [lia|].
    simpl. rewrite Q. destruct (contains_then_lookup G STM k S) as (hit & w1 & X & Y). destruct hit.
    - destruct Y as (p & L & S1 & w2 & S2 & Z). exists w2, (without E k l ++ [p]). split; auto.
      assert (I : In p l) by (apply find_some in L; tauto).
      split; [apply correct_bump; auto|]. destruct p as (k0 & v). simpl in Z.
      assert (M : means F k (inl v)).
      { eapply means_same; [|apply (C _ _ I)]. symmetry. apply RF. apply look_eq in L. auto. }
      rewrite (proj1 (means_deterministic F) _ _ M _ H). simpl.
      rewrite (bind_val _ _ _ X). destruct Z as [Z|(Z & D)].
      + left. rewrite (bind_val _ _ _ Z). reflexivity.
      + right. split; auto. unfold bind. rewrite Z. auto.
    - destruct Y as (S1 & _). rewrite (bind_val _ _ _ X).
      destruct (IH d ltac:(lia) w1 l S1 C) as (w2 & l2 & S2 & C2 & Z).
      destruct Z as [Z|(Z & D)]; [destruct r as [v|m]|]; simpl in Z.
      + destruct (put_any G STM (PUT k v) S2) as (r & w3 & P & S3 & _).
        exists w3, (cput E n k v l2). split; auto. split; [apply correct_put; auto|]. left. simpl.
        rewrite (bind_val _ _ _ Z), (bind_val _ _ _ P). reflexivity.
      + exists w2, l2. split; auto. split; auto. left. simpl. unfold bind. rewrite Z. auto.
      + exists w2, l2. split; auto. split; auto. right. split; auto. unfold bind. rewrite Z. auto. }
  apply means_yields_ind.
  - intros k v Q. exists 1. intros d LE w l S C. destruct d as [|d]; [lia|]. simpl. rewrite Q. exists w, l.
    split; [auto|split; [auto|left; reflexivity]].
  - intros k b r Q Y IH. eapply MB; eauto using means_computed.
  - intros v. exists 0. intros d _ w l S C. exists w, l. split; [auto|split; [auto|left; reflexivity]].
  - intros m. exists 0. intros d _ w l S C. exists w, l. split; [auto|split; [auto|left; reflexivity]].
  - intros k g v r _ (d1 & IH1) _ (d2 & IH2). exists (Nat.max d1 d2). intros d LE w l S C.
    destruct (IH1 d ltac:(lia) w l S C) as (w1 & l1 & S1 & C1 & Z).
    destruct Z as [Z|(Z & D)]; simpl in Z.
    + destruct (IH2 d ltac:(lia) w1 l1 S1 C1) as (w2 & l2 & S2 & C2 & Z2).
      exists w2, l2. split; auto. split; auto. simpl. rewrite (bind_val _ _ _ Z). auto.
    + exists w1, l1. split; auto. split; auto. right. split; auto. simpl. unfold bind. rewrite Z. auto.
  - intros k g m _ (d1 & IH1). exists d1. intros d LE w l S C.
    destruct (IH1 d ltac:(lia) w l S C) as (w1 & l1 & S1 & C1 & Z).
    exists w1, l1. split; auto. split; auto.
    destruct Z as [Z|(Z & D)]; simpl in Z; [left|right; split; auto]; simpl; unfold bind; rewrite Z; auto.
Qed.

End Memo.

Section Results.
Context {K V : Type}.
Variable E : env K V.
Hypothesis G : good E.
Variable F : K -> V + recipe K V.
Hypothesis RF : respectful F E.
Variable put : K -> V -> op K V.
Variable c : nat.
Hypothesis PUT : forall k v, puts c k v (put k v).

Lemma alive_facts w l : reachable E w -> contents E c w l -> exists n ttl, capacity_is E c w n /\ ttl_of c w ttl.
Proof.
  intros H C. destruct (CallProofs.open_cache G H C) as (aw & a & R & Ha & ->).
  exists (a_cap a), (a_ttl a). split; [eapply SimRun.capacity_of; eauto|].
  destruct (rel_get _ R Ha) as (x & s & cl & At & Rp). exists x. split; [eapply SimOps.at_slot; eauto|apply Rp].
Qed.
Lemma untimed_ttl (w : world K V) ttl : timed w c = false -> ttl_of c w ttl -> ttl = None.
Proof.
  intros T (x & Hx & <-). unfold timed in T. rewrite Hx in T. destruct (c_ttl x); congruence.
Qed.

(** A Cache. *)
Lemma memo_cache w l k r : reachable E w -> timed w c = false -> contents E c w l -> correct F l -> means F k r ->
  exists d0, forall d, d0 <= d -> exists w' l', ends r (memo E F put d c k w) w' /\
    reachable E w' /\ contents E c w' l' /\ correct F l'.
Proof.
  intros H T C CR M. destruct (alive_facts H C) as (n & ttl & N & TL).
  pose proof (untimed_ttl T TL). subst ttl.
  assert (STM : False -> (None : option Z) <> None) by tauto.
  destruct (proj1 (memo_sound G RF n STM PUT) k r M) as (d0 & IH). exists d0. intros d LE.
  destruct (IH d LE w l) as (w' & l' & S & C' & Z); auto.
  { apply st_intro; auto. tauto. }
  exists w', l'. destruct Z as [Z|(_ & d' & Q & _)]; [|discriminate]. split; auto.
  split; [eapply st_reachable; eauto|]. split; auto. eapply st_contents; eauto.
Qed.

(** Any cache: right, or KeyExpired. *)
Lemma memo_any w l k r : reachable E w -> contents E c w l -> correct F l -> means F k r ->
  exists d0, forall d, d0 <= d -> exists w' l',
    (ends r (memo E F put d c k w) w' \/ memo E F put d c k w = Exc KeyExpired w') /\
    reachable E w' /\ contents E c w' l' /\ correct F l'.
Proof.
  intros H C CR M. destruct (alive_facts H C) as (n & ttl & N & TL).
  assert (STM : False -> ttl <> None) by tauto.
  destruct (proj1 (memo_sound G RF n STM PUT) k r M) as (d0 & IH). exists d0. intros d LE.
  destruct (IH d LE w l) as (w' & l' & S & C' & Z); auto.
  { apply st_intro; auto. tauto. }
  exists w', l'. split; [destruct Z as [Z|(Z & _)]; auto|].
  split; [eapply st_reachable; eauto|]. split; auto. eapply st_contents; eauto.
Qed.

(** An empty cache in which nothing expires. *)
Lemma memo_lasting w t k r : reachable E w -> contents E c w [] -> ttl_of c w (Some t) ->
  (forall i j, young E t (clock E i) (clock E j)) -> means F k r ->
  exists d0, forall d, d0 <= d -> exists w' l', ends r (memo E F put d c k w) w' /\
    reachable E w' /\ contents E c w' l' /\ correct F l'.
Proof.
  intros H C TL Y M. destruct (alive_facts H C) as (n & _ & N & _).
  assert (STM : True -> Some t <> None) by discriminate.
  destruct (proj1 (memo_sound G RF n STM PUT) k r M) as (d0 & IH). exists d0. intros d LE.
  destruct (IH d LE w []) as (w' & l' & S & C' & Z); auto.
  { apply st_intro; auto. }
  { intros ? ? []. }
  exists w', l'. destruct Z as [Z|(_ & d' & Q & YY)].
  - split; auto. split; [eapply st_reachable; eauto|]. split; auto. eapply st_contents; eauto.
  - exfalso. destruct (YY I) as (i & j & NY). inversion Q; subst. apply NY, Y.
Qed.
End Results.
