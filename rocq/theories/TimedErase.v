(** Timed caches in which nothing expires behave like untimed ones. *)
From Coq Require Import List Arith ZArith Bool Permutation Lia.
Import ListNotations.
From Verif Require Import Monad Types Model Api Spec SpecStats SpecTimed Ref Lists SimBase SimRel SimOps SimIns SimErase SimIter SimNew SimObs SimExec RefEval SimRun LruProofs CallProofs LruMore Flat Global Safe Frame StatProofs StatMore TimedTrack TimedProofs.
Set Implicit Arguments.
Unset Strict Implicit.
Local Open Scope cpp_scope.

Section Fade.
Context {K V : Type}.
Variable E : env K V.
Hypothesis G : good E.

Notation acache := (acache K V).
Notation aworld := (aworld K V).
Notation world := (world K V).
Notation entry := (entry K V).
Implicit Types (a : acache) (aw : aworld) (w : world) (o : op K V) (e : entry).

(** Forget insertion times and time to live. *)
Definition fe e : entry := Ent (e_key e) (e_val e) 0.
Definition fade a : acache := MkA (map fe (a_ents a)) (a_hot a) (a_cap a) (a_stats a) (a_cbs a) None.

Lemma fe_lookup k l : lookup_ent E k (map fe l) = option_map fe (lookup_ent E k l).
Proof. unfold lookup_ent. induction l as [|e l IH]; simpl; auto. destruct (key_equal E k (e_key e)); auto. Qed.
Lemma fe_remove k l : remove_ent E k (map fe l) = map fe (remove_ent E k l).
Proof. unfold remove_ent. induction l as [|e l IH]; simpl; auto. destruct (key_equal E k (e_key e)); simpl; congruence. Qed.
Lemma fe_last l : last_ent (map fe l) = option_map fe (last_ent l).
Proof. unfold last_ent. rewrite <- map_rev. destruct (rev l); auto. Qed.
Lemma fe_skipn n l : skipn n (map fe l) = map fe (skipn n l).
Proof. revert n; induction l; intros [|n]; simpl; auto. Qed.
Lemma fe_lastn n l : lastn n (map fe l) = map fe (lastn n l).
Proof. unfold lastn. rewrite map_length. apply fe_skipn. Qed.
Lemma fe_nth n l : nth_error (map fe l) n = option_map fe (nth_error l n).
Proof. revert n; induction l; intros [|n]; simpl; auto. Qed.
Lemma fe_pairs l : map pair_of (map fe l) = map (@pair_of K V) l.
Proof. rewrite map_map. apply map_ext. auto. Qed.
Lemma fe_hot a k : a_hot_ent E (fade a) k = option_map fe (a_hot_ent E a k).
Proof.
  unfold a_hot_ent. simpl. destruct (a_hot a); auto. rewrite fe_last. destruct (last_ent (a_ents a)) as [e|]; simpl; auto.
  destruct (key_equal E k (e_key e)); auto.
Qed.
Lemma fade_bump k e a : bump E k (fe e) (fade a) = fade (bump E k e a).
Proof. unfold bump, fade, set_ents. simpl. f_equal. rewrite fe_remove, map_app. auto. Qed.
Lemma fade_removed k a : removed E k (fade a) = fade (removed E k a).
Proof.
  unfold removed, fade, set_ents, hot_after. simpl. fold (fade a). rewrite fe_remove, fe_hot. f_equal.
  destruct (a_hot_ent E a k); auto.
Qed.
Lemma fade_keep n a : keep n (fade a) = fade (keep n a).
Proof. unfold keep, fade, set_ents. simpl. rewrite fe_lastn. auto. Qed.
Lemma fade_cap n a : with_cap n (fade a) = fade (with_cap n a).
Proof. reflexivity. Qed.

Lemma fade_insert k v t a :
  insert_c E k v 0 (fade a) =
  ((fst (fst (insert_c E k v t a)), option_map fe (snd (fst (insert_c E k v t a)))), fade (snd (insert_c E k v t a))).
Proof.
  unfold insert_c. simpl. destruct (Nat.eqb (a_cap a) 0); simpl; auto. rewrite fe_lookup.
  destruct (lookup_ent E k (a_ents a)) as [e|]; simpl.
  - rewrite <- fade_bump. reflexivity.
  - unfold fade, set_ents. simpl. rewrite <- fe_lastn, map_app. reflexivity.
Qed.
Lemma stamp_fade a n : stamp_at E (fade a) n = 0%Z.
Proof. auto. Qed.
Lemma ticks_fade k a : l_insert_ticks E k (fade a) = 0.
Proof. unfold l_insert_ticks. simpl. destruct (Nat.eqb (a_cap a) 0); auto. destruct (lookup_ent E k (map fe (a_ents a))); auto. Qed.
Lemma fade_inserts l : forall cnt a n n2,
  l_inserts E l cnt (fade a) n2 = (fst (fst (l_inserts E l cnt a n)), fade (snd (fst (l_inserts E l cnt a n))), n2).
Proof.
  induction l as [|p l IH]; intros cnt a n n2; cbn [l_inserts]; auto.
  rewrite stamp_fade, ticks_fade, (fade_insert _ _ (stamp_at E a n)). simpl fst. simpl snd. apply IH.
Qed.

Definition lasting a : Prop :=
  (exists d, a_ttl a = Some d /\ forall i j, young E d (clock E i) (clock E j)) /\
  Forall (fun e => exists i, e_time e = clock E i) (a_ents a).
Lemma lasting_stale a e n : lasting a -> In e (a_ents a) -> stale E (a_ttl a) e n = false.
Proof.
  intros ((d & T & Y) & F) I. rewrite Forall_forall in F. destruct (F _ I) as (i & Q). rewrite T. simpl. rewrite Q.
  apply Z.ltb_ge. apply Y.
Qed.

Lemma opt_pair (x : option entry) : option_map pair_of (option_map fe x) = option_map (@pair_of K V) x.
Proof. destruct x; auto. Qed.

Lemma local_fade ch o c a n n2 : target o = Some c -> common o = true -> lasting a ->
  local E ch o (fade a) n2 =
    (fst (fst (fst (local E ch o a n))), fade (snd (fst (fst (local E ch o a n)))), snd (fst (local E ch o a n)), 0).
Proof.
  intros T CM LA.
  assert (SL : forall k e m, lookup_ent E k (a_ents a) = Some e -> stale E (a_ttl a) e m = false).
  { intros k e m L. apply lasting_stale; auto. apply (lookup_some_in L). }
  assert (SH : forall k e m, a_hot_ent E a k = Some e -> stale E (a_ttl a) e m = false).
  { intros k e m L. apply lasting_stale; auto. apply (hot_in L). }
  assert (SN : forall i e m, nth_error (a_ents a) i = Some e -> stale E (a_ttl a) e m = false).
  { intros i e m L. apply lasting_stale; auto. eapply nth_error_In; eauto. }
  assert (FI : forall k, l_find E k (fade a) n2 =
    (match fst (fst (fst (l_find E k a n))) with Val r s => Val (option_map fe r) s | Exc e s => Exc e s | Undef u => Undef u | Term e => Term e end,
     fade (snd (fst (fst (l_find E k a n)))), snd (fst (l_find E k a n)), 0)).
  { intros k. unfold l_find. simpl. rewrite fe_lookup. destruct (lookup_ent E k (a_ents a)) as [e|] eqn:L; simpl; auto.
    rewrite (SL _ _ _ L). simpl. rewrite fade_bump. auto. }
  assert (LO : forall k, l_lookup E k (fade a) n2 =
    (match fst (fst (fst (l_lookup E k a n))) with Val r s => Val (fe r) s | Exc e s => Exc e s | Undef u => Undef u | Term e => Term e end,
     fade (snd (fst (fst (l_lookup E k a n)))), snd (fst (l_lookup E k a n)), 0)).
  { intros k. unfold l_lookup. rewrite fe_hot. destruct (a_hot_ent E a k) as [e|] eqn:Hh; simpl.
    - rewrite (SH _ _ _ Hh). simpl. auto.
    - rewrite fe_lookup. destruct (lookup_ent E k (a_ents a)) as [e|] eqn:L; simpl; auto.
      rewrite !(SL _ _ _ L). simpl. rewrite fade_bump. auto. }
  assert (RG : forall l b, l_inserts E l 0 (fade b) n2 = (fst (fst (l_inserts E l 0 b n)), fade (snd (fst (l_inserts E l 0 b n))), n2))
    by (intros; apply fade_inserts).
  destruct o; inversion T; subst; try discriminate CM; cbn [local].
  - cbn [fade a_cap]. fold (fade a). rewrite fade_keep, fade_cap, RG.
    destruct (l_inserts E l 0 (with_cap (Nat.max (a_cap a) (length l)) (keep 0 a)) n) as ((cnt & a') & n'). simpl. rewrite Nat.sub_diag. auto.
  - cbn [fade a_cap]. fold (fade a). rewrite fade_keep, fade_cap, RG.
    destruct (l_inserts E l 0 (with_cap (Nat.max (a_cap a) (length l)) (keep 0 a)) n) as ((cnt & a') & n'). simpl. rewrite Nat.sub_diag. auto.
  - rewrite stamp_fade, ticks_fade, (fade_insert _ _ (stamp_at E a n)). simpl. rewrite opt_pair. auto.
  - rewrite stamp_fade, ticks_fade, (fade_insert _ _ (stamp_at E a n)). simpl. rewrite opt_pair. auto.
  - rewrite RG. destruct (l_inserts E l 0 a n) as ((cnt & a') & n'). simpl. rewrite Nat.sub_diag. auto.
  - rewrite RG. destruct (l_inserts E l 0 a n) as ((cnt & a') & n'). simpl. rewrite Nat.sub_diag. auto.
  - rewrite FI. destruct (l_find E k a n) as (((r & a') & x) & m). simpl. destruct r; simpl; rewrite ?opt_pair; auto.
  - simpl. rewrite fe_lookup. destruct (lookup_ent E k (a_ents a)) as [e|] eqn:L; simpl; auto.
    rewrite !(SL _ _ _ L). simpl. rewrite fade_bump. auto.
  - unfold l_contains. rewrite fe_hot. destruct (a_hot_ent E a k) as [e|] eqn:Hh; simpl.
    + rewrite (SH _ _ _ Hh). simpl. auto.
    + rewrite fe_lookup. destruct (lookup_ent E k (a_ents a)) as [e|] eqn:L; simpl; auto.
      rewrite !(SL _ _ _ L). simpl. rewrite fade_bump. auto.
  - rewrite LO. destruct (l_lookup E k a n) as (((r & a') & x) & m). simpl. destruct r; simpl; auto.
  - rewrite LO. destruct (l_lookup E k a n) as (((r & a') & x) & m). simpl. destruct r; simpl; auto.
    f_equal. f_equal. f_equal. unfold fade, set_ents. simpl. rewrite fe_remove, map_app. auto.
  - simpl. rewrite fe_lookup. destruct (lookup_ent E k (a_ents a)); simpl; auto. rewrite fade_removed. auto.
  - rewrite FI. destruct (l_find E k a n) as (((r & a') & x) & m). simpl. destruct r as [[e|] s| | |]; simpl; auto.
    rewrite fade_removed. auto.
  - simpl. rewrite fe_nth. destruct (nth_error (a_ents a) n0) as [e|] eqn:L; simpl; auto. rewrite (SN _ _ _ L). simpl. rewrite fade_removed. auto.
  - simpl. rewrite map_length, fe_nth. destruct (Nat.leb (length (a_ents a)) n0); simpl; auto.
    destruct (nth_error (a_ents a) ch) as [e|] eqn:L; simpl; auto. rewrite fade_removed. auto.
  - simpl. rewrite fade_keep. auto.
  - simpl. rewrite fade_keep. auto.
  - simpl. rewrite fade_keep. auto.
  - simpl. rewrite map_length. auto.
  - reflexivity.
  - simpl. rewrite map_length. auto.
  - simpl. rewrite map_length. auto.
  - simpl. rewrite map_length. auto.
  - simpl. rewrite fe_pairs. auto.
  - simpl. rewrite fe_pairs. auto.
  - simpl. rewrite fe_pairs. auto.
  - simpl. rewrite fe_nth. destruct (nth_error (a_ents a) n0) as [e|] eqn:L; simpl; auto. rewrite (SN _ _ _ L). auto.
  - simpl. rewrite fe_nth. destruct (nth_error (a_ents a) n0) as [e|] eqn:L; simpl; auto. rewrite (SN _ _ _ L). auto.
  - reflexivity.
  - reflexivity.
  - reflexivity.
  - reflexivity.
  - reflexivity.
  - reflexivity.
  - reflexivity.
  - reflexivity.
  - reflexivity.
  - reflexivity.
Qed.

Lemma local_lasting ch o c a n : target o = Some c -> lasting a -> lasting (snd (fst (fst (local E ch o a n)))).
Proof.
  intros T ((d & TT & Y) & F). split.
  - exists d. split; auto. rewrite (proj1 (local_attr E ch o a n)). auto.
  - rewrite Forall_forall in *. intros e I.
    destruct (local_from T I) as [(e0 & I0 & _ & T0)|[(k & v & _ & -> & _)|(_ & X)]].
    + destruct (F _ I0) as (i & Q). exists i. congruence.
    + simpl. unfold stamp_at. rewrite TT. eauto.
    + destruct X as (i & _ & Q); [congruence|]. eauto.
Qed.

(** Two worlds: [aw2] is [aw1] without times. *)
Record faded aw1 aw2 : Prop := {
  fd_caches : aw_caches aw2 = map (option_map fade) (aw_caches aw1);
  fd_stats : aw_stats aw2 = aw_stats aw1;
  fd_log : aw_log aw2 = aw_log aw1;
  fd_last : forall c a, slot (aw_caches aw1) c = Some a -> lasting a }.
Lemma slot_map {A B} (f : A -> B) l c : slot (map (option_map f) l) c = option_map f (slot l c).
Proof. revert c; induction l as [|x l IH]; intros [|c]; unfold slot in *; simpl; auto. Qed.
Lemma fd_slot aw1 aw2 c : faded aw1 aw2 -> slot (aw_caches aw2) c = option_map fade (slot (aw_caches aw1) c).
Proof. intros F. rewrite (fd_caches F). apply slot_map. Qed.
Lemma map_upd {A B} (f : A -> B) l c x : map f (upd l c x) = upd (map f l) c (f x).
Proof. revert c; induction l as [|y l IH]; intros [|c]; simpl; auto. rewrite IH. auto. Qed.
Lemma slot_upd_any {A} (l : list (option A)) c x d y : slot (upd l c x) d = Some y -> (c = d /\ x = Some y) \/ (c <> d /\ slot l d = Some y).
Proof.
  intros H. destruct (Nat.eq_dec c d) as [->|N]; [left|right].
  - split; auto. assert (L : d < length l).
    { pose proof (slot_lt _ _ H) as X. rewrite upd_length in X. auto. }
    clear -H L. revert d H L. induction l as [|z l IH]; intros [|d]; unfold slot; simpl; intros H L; try lia; auto. apply (IH d); [exact H|lia].
  - split; auto. rewrite slot_upd_other in H; auto.
Qed.

Lemma wf_faded aw1 aw2 o : faded aw1 aw2 -> common o = true -> (forall t, given_ttl o = Some t -> t <> None) ->
  a_well_formed aw2 (untime o) = a_well_formed aw1 o.
Proof.
  intros F CM GT.
  assert (AL : forall c, a_alive aw2 c = a_alive aw1 c).
  { intros c. unfold a_alive. rewrite (fd_slot _ F). destruct (slot (aw_caches aw1) c); auto. }
  assert (KI : forall c d, a_alive aw1 c && a_alive aw1 d && Bool.eqb (a_timed aw1 c) (a_timed aw1 d) =
                           a_alive aw2 c && a_alive aw2 d && Bool.eqb (a_timed aw2 c) (a_timed aw2 d)).
  { intros c d. rewrite !AL. unfold a_alive, a_timed. rewrite !(fd_slot _ F).
    destruct (slot (aw_caches aw1) c) as [a|] eqn:Ha, (slot (aw_caches aw1) d) as [b|] eqn:Hb; simpl; auto.
    destruct (fd_last F Ha) as ((x & -> & _) & _), (fd_last F Hb) as ((y & -> & _) & _). auto. }
  destruct o; simpl; try discriminate CM; rewrite ?AL; auto.
  - rewrite KI, !AL. auto.
  - rewrite KI, !AL. auto.
  - rewrite KI, !AL. auto.
  - rewrite (fd_stats F). auto.
Qed.

Definition fres (r1 r2 : res aworld (out K V)) : Prop :=
  match r1, r2 with
  | Val x aw1, Val y aw2 => x = y /\ faded aw1 aw2
  | Exc e aw1, Exc e' aw2 => e = e' /\ faded aw1 aw2
  | Undef u, Undef u' => u = u'
  | Term e, Term e' => e = e'
  | _, _ => False
  end.

Lemma note_fade a x m m2 aw1 aw2 : faded aw1 aw2 ->
  faded (noted E a x (ticks m aw1)) (noted E (fade a) x (ticks m2 aw2)).
Proof.
  intros F. destruct F as [F1 F2 F3 F4].
  destruct x; simpl; constructor; simpl; auto; rewrite ?F2, ?F3; auto.
Qed.
Lemma awith_fade c a aw1 aw2 : faded aw1 aw2 -> lasting a -> faded (awith c a aw1) (awith c (fade a) aw2).
Proof.
  intros F L. constructor; simpl; try apply F.
  - rewrite (fd_caches F), map_upd. auto.
  - intros d b H. apply slot_upd_any in H as [(_ & Q)|(_ & Q)]; [inversion Q; subst; auto|]. eapply fd_last; eauto.
Qed.
Lemma give_fade c a r1 r2 aw1 aw2 : faded aw1 aw2 -> lasting (snd (fst (fst r1))) ->
  r2 = (fst (fst (fst r1)), fade (snd (fst (fst r1))), snd (fst r1), 0) ->
  fres (give E c a r1 aw1) (give E c (fade a) r2 aw2).
Proof.
  intros F L ->. destruct r1 as (((o & a') & x) & m). simpl in L.
  assert (X : faded (awith c a' (noted E a x (ticks m aw1))) (awith c (fade a') (noted E (fade a) x (ticks 0 aw2)))).
  { apply awith_fade; auto. apply note_fade; auto. }
  unfold give. simpl. destruct o; simpl; auto.
Qed.
Lemma fade_take a b : fade (take_from a b) = take_from (fade a) (fade b).
Proof. reflexivity. Qed.
Lemma fade_ttl t a : fade (with_ttl' t a) = fade a.
Proof. reflexivity. Qed.
Lemma same_target o : target (untime o) = target o.
Proof. destruct o; auto. Qed.
Lemma same_stats_target o : stats_target (untime o) = stats_target o.
Proof. destruct o; auto. Qed.
Lemma same_building o : building (untime o) = option_map (fun x => (fst (fst x), None, snd x)) (building o).
Proof. destruct o; auto. Qed.
Lemma untime_id o : building o = None -> untime o = o.
Proof. destruct o; auto; discriminate. Qed.

Lemma inserts_lasting l : forall cnt a n, lasting a -> lasting (snd (fst (l_inserts E l cnt a n))).
Proof.
  induction l as [|p l IH]; intros cnt a n L; cbn [l_inserts]; auto. apply IH.
  destruct L as ((d & T & Y) & F). split; [exists d; rewrite insert_ttl; auto|].
  rewrite Forall_forall in *. intros e I. apply insert_from in I as [(e0 & I0 & _ & Q)|(-> & _)].
  - destruct (F _ I0) as (i & Q'). exists i. congruence.
  - simpl. unfold stamp_at. rewrite T. eauto.
Qed.

Lemma step_fade ch o aw1 aw2 : faded aw1 aw2 -> copy_free o = true -> common o = true ->
  (forall t, given_ttl o = Some t -> exists d, t = Some d /\ forall i j, young E d (clock E i) (clock E j)) ->
  fres (astep E ch o aw1) (astep E ch (untime o) aw2).
Proof.
  intros F CF CM GT. unfold astep.
  rewrite (wf_faded F CM) by (intros t Q; destruct (GT _ Q) as (d & -> & _); discriminate).
  destruct (a_well_formed aw1 o) eqn:WF; simpl; [|auto].
  rewrite same_target, same_stats_target, same_building.
  destruct (target o) as [c|] eqn:T.
  { unfold two. rewrite (fd_slot _ F). destruct (slot (aw_caches aw1) c) as [a|] eqn:Ha; simpl; auto.
    assert (U : untime o = o) by (destruct o; auto; discriminate). rewrite U.
    apply give_fade; auto.
    - eapply local_lasting; eauto. eapply fd_last; eauto.
    - eapply local_fade; eauto. eapply fd_last; eauto. }
  destruct (stats_target o) as [c|] eqn:S.
  { unfold two. rewrite (fd_slot _ F). destruct (slot (aw_caches aw1) c) as [a|] eqn:Ha; simpl; auto.
    assert (U : untime o = o) by (destruct o; auto; discriminate). rewrite U.
    destruct (a_stats a) as [s|]; simpl; auto. rewrite (fd_stats F).
    destruct (slot (aw_stats aw1) s) as [x|]; simpl; auto. destruct (on_stats E o x) as (r & x').
    assert (X : faded (wstats s x' aw1) (wstats s x' aw2)).
    { destruct F as [F1 F2 F3 F4]. constructor; simpl; auto. rewrite F2. auto. }
    destruct r; simpl; auto. }
  destruct (building o) as [((cap, ttl), l)|] eqn:B; simpl.
  { assert (GQ : given_ttl o = Some ttl) by (destruct o; inversion B; auto).
    destruct (GT _ GQ) as (d & -> & Y).
    assert (LF : lasting (fresh_a cap (Some d) : acache)) by (split; [exists d; auto|constructor]).
    pose proof (inserts_lasting l 0 (aw_reads aw1) LF) as LI.
    change (fresh_a cap None) with (fade (fresh_a cap (Some d))).
    rewrite (fade_inserts l 0 (fresh_a cap (Some d)) (aw_reads aw1) (aw_reads aw2)).
    destruct (l_inserts E l 0 (fresh_a cap (Some d)) (aw_reads aw1)) as ((cnt & a') & n'). simpl in *.
    split; [rewrite (fd_caches F), map_length; auto|].
    constructor; simpl; try apply F.
    - rewrite (fd_caches F), map_app. auto.
    - intros c b H. destruct (Nat.lt_ge_cases c (length (aw_caches aw1))) as [L|L].
      + rewrite slot_app_lt in H by auto. eapply fd_last; eauto.
      + assert (c = length (aw_caches aw1)).
        { pose proof (slot_lt _ _ H) as X. rewrite app_length in X. simpl in X. lia. }
        subst c. rewrite slot_app_new in H. inversion H; subst; auto. }
  rewrite (untime_id B). destruct o; try discriminate; simpl in WF.
  - (* Move *) unfold two. rewrite (fd_slot _ F). destruct (slot (aw_caches aw1) c) as [a|] eqn:Ha; simpl; auto.
    destruct (junk E) as [n|]; simpl; auto. split; [rewrite (fd_caches F), map_length; auto|].
    destruct (fd_last F Ha) as (TT & LF). destruct F as [F1 F2 F3 F4]. constructor; simpl; auto.
    + rewrite F1, map_app, map_upd. auto.
    + intros d b H. destruct (Nat.lt_ge_cases d (length (aw_caches aw1))) as [L|L].
      * rewrite slot_app_lt in H by (rewrite upd_length; auto). apply slot_upd_any in H as [(_ & Q)|(_ & Q)].
        -- inversion Q; subst. split; [exact TT|]. constructor.
        -- eapply F4; eauto.
      * assert (d = length (aw_caches aw1)).
        { pose proof (slot_lt _ _ H) as X. rewrite app_length, upd_length in X. simpl in X. lia. }
        subst d. rewrite <- (upd_length (aw_caches aw1) c (Some (take_from (fresh_a n None) a))) in H at 1.
        rewrite slot_app_new in H. inversion H; subst. split; auto.
  - (* Destroy *) split; auto. destruct F as [F1 F2 F3 F4]. constructor; simpl; auto.
    + rewrite F1, map_upd. auto.
    + intros d b H. apply slot_upd_any in H as [(_ & Q)|(_ & Q)]; [discriminate|]. eapply F4; eauto.
  - (* CopyAssign *) simpl. auto.
  - (* MoveAssign *) unfold two. rewrite !(fd_slot _ F). destruct (kind_get WF) as (a & b & Ha & Hb). rewrite Ha, Hb. simpl.
    destruct (Nat.eqb c d); simpl; auto. split; auto.
    destruct (fd_last F Ha) as (TA & LA), (fd_last F Hb) as (TB & LB).
    unfold pair_put. change (take_from (fade a) (fade b)) with (fade (take_from a b)).
    change (with_ttl' None (take_from (fade b) (fade a))) with (fade (with_ttl' (a_ttl b) (take_from b a))).
    apply awith_fade; [apply awith_fade; auto; split; auto|split; auto].
  - (* Swap *) unfold two. rewrite !(fd_slot _ F). destruct (kind_get WF) as (a & b & Ha & Hb). rewrite Ha, Hb. simpl.
    destruct (Nat.eqb c d); simpl; auto. split; auto.
    destruct (fd_last F Ha) as (TA & LA), (fd_last F Hb) as (TB & LB).
    unfold pair_put. change (with_ttl' None (take_from (fade a) (fade b))) with (fade (with_ttl' (a_ttl a) (take_from a b))).
    change (with_ttl' None (take_from (fade b) (fade a))) with (fade (with_ttl' (a_ttl b) (take_from b a))).
    apply awith_fade; [apply awith_fade; auto; split; auto|split; auto].
  - (* MonitorNew *) unfold two. rewrite (fd_slot _ F). destruct (slot (aw_caches aw1) c) as [a|] eqn:Ha; simpl; auto.
    rewrite (fd_stats F). split; auto. pose proof (fd_last F Ha) as LA. destruct F as [F1 F2 F3 F4]. constructor; simpl; auto.
    + rewrite F1, map_upd. auto.
    + intros d b H. apply slot_upd_any in H as [(_ & Q)|(_ & Q)]; [inversion Q; subst; exact LA|]. eapply F4; eauto.
Qed.

Lemma untime_plain o : plain (untime o) = plain o.
Proof. destruct o; auto. Qed.

Lemma heard_push w r h l : heard w (push r h) l <-> heard w h l.
Proof. destruct h; simpl; tauto. Qed.
Lemma run_fade ops : forall w1 w2 aw1 aw2, rel E w1 aw1 -> rel E w2 aw2 -> faded aw1 aw2 ->
  forallb plain ops = true -> forallb common ops = true -> everlasting E ops ->
  seen (run E ops w1) = seen (run E (map untime ops) w2) /\
  forall l, heard init_world (run E ops w1) l <-> heard init_world (run E (map untime ops) w2) l.
Proof.
  induction ops as [|o t IH]; intros w1 w2 aw1 aw2 R1 R2 F P CM EV; simpl.
  - split; auto. intros l. rewrite (rel_log R1), (rel_log R2), (fd_log F). tauto.
  - simpl in P, CM. apply andb_prop in P as (P & Pt). apply andb_prop in CM as (CM & CMt).
    assert (EVt : everlasting E t) by (intros o' t' I; apply EV; simpl; auto).
    assert (CF : copy_free o = true) by (apply andb_prop in P as (P & _); auto).
    assert (P' : plain (untime o) = true) by (rewrite untime_plain; auto).
    pose proof (plain_step G R1 P) as S1. pose proof (plain_step G R2 P') as S2.
    pose proof (step_fade 0 F CF CM (fun t Q => EV o t (or_introl eq_refl) Q)) as S.
    destruct (astep E 0 o aw1) as [r1 aw1'|e1 aw1'|u1|e1], (astep E 0 (untime o) aw2) as [r2 aw2'|e2 aw2'|u2|e2]; simpl in S; try easy;
      destruct (exec E o w1) as [q1 w1'|f1 w1'|v1|f1]; simpl in S1; try easy;
      destruct (exec E (untime o) w2) as [q2 w2'|f2 w2'|v2|f2]; simpl in S2; try easy.
    + destruct S as (-> & F'), S1 as (R1' & ->), S2 as (R2' & ->).
      destruct (IH _ _ _ _ R1' R2' F' Pt CMt EVt) as (A & B). split.
      * destruct (run E t w1'), (run E (map untime t) w2'); simpl in *; congruence.
      * intros l. rewrite !heard_push. auto.
    + destruct S as (-> & F'), S1 as (-> & R1'), S2 as (-> & R2').
      destruct (IH _ _ _ _ R1' R2' F' Pt CMt EVt) as (A & B). split.
      * destruct (run E t w1'), (run E (map untime t) w2'); simpl in *; congruence.
      * intros l. rewrite !heard_push. auto.
    + simpl. subst. split; auto. tauto.
    + simpl. subst. split; auto. tauto.
Qed.

Theorem everlasting_alike ops : forallb plain ops = true -> forallb common ops = true -> everlasting E ops ->
  alike init_world init_world (run E ops init_world) (run E (map untime ops) init_world).
Proof.
  intros P CM EV.
  assert (F : faded (MkAW [] [] [] 0) (MkAW [] [] [] 0)).
  { constructor; auto. intros c a H. unfold slot in H. simpl in H. destruct c; discriminate. }
  assert (R : rel E init_world (MkAW [] [] [] 0)) by apply rel_init.
  destruct (run_fade R R F P CM EV) as (A & B). split; auto.
  destruct (run E ops init_world) as [outs w'|outs u|outs e] eqn:RN.
  - exists (w_log w'). split; [simpl; auto|]. apply B. simpl. auto.
  - exists []. split; simpl; auto. apply B. simpl. auto.
  - exists []. split; simpl; auto. apply B. simpl. auto.
Qed.

End Fade.
