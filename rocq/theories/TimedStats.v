(** Which callbacks an access calls and what it counts, on caches of both kinds. *)
From Coq Require Import List Arith ZArith Bool Permutation Lia.
Import ListNotations.
From Verif Require Import Monad Types Model Api Spec SpecStats SpecTimed Ref Lists SimBase SimRel SimOps SimIns SimErase SimIter SimNew SimObs SimExec RefEval SimRun LruProofs CallProofs LruMore Flat Global Safe Frame StatProofs StatMore TimedTrack TimedProofs.
Set Implicit Arguments.
Unset Strict Implicit.
Local Open Scope cpp_scope.

Section TimedStats.
Context {K V : Type}.
Variable E : env K V.
Hypothesis G : good E.

Notation acache := (acache K V).
Notation aworld := (aworld K V).
Notation world := (world K V).
Notation entry := (entry K V).
Notation mp := (map (@pair_of K V)).
Implicit Types (a : acache) (aw : aworld) (w : world) (o : op K V) (e : entry).

(** ** Callbacks *)
Ltac staled := repeat match goal with |- context [if stale E ?t ?e ?n then _ else _] => destruct (stale E t e n) eqn:? end.
Lemma stale_late a e n : stale E (a_ttl a) e (tkn a + n) = true -> stale E (a_ttl a) e (S n) = true.
Proof. unfold stale, tkn. destruct (a_ttl a); auto. Qed.

Ltac fin := match goal with
  | |- _ /\ _ => split; fin
  | |- exists _, _ => eexists; fin
  | |- _ \/ _ => (left; fin) + (right; fin)
  | |- _ => reflexivity + eassumption + (apply stale_late; eassumption) + solve [eauto 2]
  end.
Lemma local_note_any ch o c a n oc : cinv E a -> target o = Some c ->
  outcome_in (fst (fst (fst (local E ch o a n)))) = Some oc ->
  let x := snd (fst (local E ch o a n)) in
  match asks o with
  | None => x = Quiet
  | Some (c', k) =>
      c' = c /\
      match access_of o oc with
      | Some (_, _, true) => exists e, lookup_ent E k (a_ents a) = Some e /\ x = HitOf k (e_val e)
      | Some (_, _, false) => x = MissOf k \/
          (x = Quiet /\ o = Contains c k /\ exists e, a_hot_ent E a k = Some e /\ stale E (a_ttl a) e n = true)
      | None => oc = Threw KeyExpired /\
          ((x = Quiet /\ exists e, a_hot_ent E a k = Some e /\ stale E (a_ttl a) e n = true) \/
           exists e, lookup_ent E k (a_ents a) = Some e /\ x = HitOf k (e_val e) /\
                     stale E (a_ttl a) e n = false /\ stale E (a_ttl a) e (S n) = true)
      end
  end.
Proof.
  intros Ci T. cbv zeta.
  assert (HOT : forall k e, a_hot_ent E a k = Some e -> lookup_ent E k (a_ents a) = Some e)
    by (intros; eapply hot_lookup; eauto).
  destruct (asks o) as [(c' & k)|] eqn:AS.
  - assert (Ec : c' = c) by (destruct o; inversion AS; inversion T; subst; congruence). subst c'. intros H. split; auto. revert H.
    destruct o; inversion AS; subst; clear AS T; cbn [local]; unfold l_find, l_contains, l_lookup.
    + destruct (lookup_ent E k (a_ents a)) as [e|] eqn:Lk; [staled|];
        simpl; intros H; inversion H; subst; simpl; fin.
    + destruct (lookup_ent E k (a_ents a)) as [e|] eqn:Lk; [staled|];
        try (destruct (lenient_end E)); simpl; intros H; inversion H; subst; simpl; fin.
    + destruct (a_hot_ent E a k) as [e|] eqn:Hh; [|destruct (lookup_ent E k (a_ents a)) as [e|] eqn:Lk]; staled;
        simpl; intros H; inversion H; subst; simpl; fin.
    + destruct (a_hot_ent E a k) as [e|] eqn:Hh; [|destruct (lookup_ent E k (a_ents a)) as [e|] eqn:Lk]; staled;
        simpl; intros H; inversion H; subst; simpl; fin.
    + destruct (a_hot_ent E a k) as [e|] eqn:Hh; [|destruct (lookup_ent E k (a_ents a)) as [e|] eqn:Lk]; staled;
        simpl; intros H; inversion H; subst; simpl; fin.
    + destruct (lookup_ent E k (a_ents a)) as [e|] eqn:Lk; [staled|];
        simpl; intros H; inversion H; subst; simpl; fin.
  - intros H. assert (U : by_find o = true) by (destruct o; try discriminate; auto).
    destruct (local_note G Ci T (or_intror U) H) as (_ & RP).
    assert (N : access_of o oc = None).
    { destruct (access_of o oc) as [((? & ?) & ?)|] eqn:A; auto. apply access_asks in A. congruence. }
    rewrite N in RP. exact RP.
Qed.

Lemma hot_old w aw c a : rel E w aw -> slot (aw_caches aw) c = Some a ->
  forall k e i, a_hot_ent E a k = Some e -> stale E (a_ttl a) e i = true ->
  is_newest E k (mp (a_ents a)) /\ old E c w k (clock E i).
Proof.
  intros R Ha k e i Hh St. split.
  - destruct (hot_split Hh) as (_ & Q & l & ->). exists (mp l), (pair_of e). rewrite map_app. auto.
  - apply (old_stale G i R Ha (hot_lookup G (rel_cinv R Ha) Hh)). exact St.
Qed.

Lemma callbacks_called ops outs w o oc w' : forallb copy_free ops = true ->
  run E ops init_world = Finished outs w -> copy_free o = true -> call E o w oc w' ->
  let L := ledger_of ops outs in
  exists evs, w_log w' = w_log w ++ evs /\
    match asks o with
    | None => evs = []
    | Some (c, k) => forall l, contents E c w l ->
        match access_of o oc with
        | Some (_, _, true) => exists p, look E k l = Some p /\ evs = hit_calls (subs L c) k (snd p)
        | Some (_, _, false) => evs = miss_calls (subs L c) k \/
            (evs = [] /\ o = Contains c k /\ is_newest E k l /\ old E c w k (clock E (w_reads w)))
        | None => oc = Threw KeyExpired /\
            ((evs = [] /\ is_newest E k l /\ old E c w k (clock E (w_reads w))) \/
             exists p, look E k l = Some p /\ evs = hit_calls (subs L c) k (snd p) /\
                       ~ old E c w k (clock E (w_reads w)) /\ old E c w k (clock E (S (w_reads w))))
        end
    end.
Proof.
  intros CF RN F C. cbv zeta. destruct (ledger_holds G CF RN) as (aw & R & I & _).
  assert (NOT : asks o = None -> w_log w' = w_log w).
  { intros AS. destruct (exec_step G R F) as (ch & S).
    assert (X : exists aw', rel E w' aw' /\ match astep E ch o aw with Val _ w | Exc _ w => w = aw' | _ => False end
                /\ outcome_in (astep E ch o aw) <> None).
    { unfold call in C. destruct oc; rewrite C in S; destruct (astep E ch o aw); simpl in S; try easy; destruct S; subst;
        eexists; split; eauto; split; auto; discriminate. }
    destruct X as (aw' & R' & X & O). rewrite (rel_log R), (rel_log R').
    revert X O. unfold astep. destruct (a_well_formed aw o); cbn [negb]; [|intros <-; auto].
    destruct (target o) as [c|] eqn:T.
    { unfold two. destruct (slot (aw_caches aw) c) as [a|] eqn:Ha; [|intros <-; auto].
      pose proof (fun oc => local_note_any (ch := ch) (o := o) (c := c) (n := aw_reads aw) (oc := oc) (rel_cinv R Ha) T) as LN.
      destruct (local E ch o a (aw_reads aw)) as (((r & a') & x) & m). simpl in LN. rewrite AS in LN.
      destruct r; simpl; intros X O; try easy; subst aw'; rewrite (LN _ eq_refl); auto. }
    destruct (stats_target o) as [c|] eqn:ST.
    { unfold two. destruct (slot (aw_caches aw) c) as [a|] eqn:Ha; [|intros <-; auto].
      destruct (a_stats a) as [s|]; [|intros <-; auto].
      destruct (slot (aw_stats aw) s) as [x|]; [|easy].
      destruct (on_stats E o x) as (r & x'). destruct r; simpl; intros X; try easy; subst aw'; auto. }
    destruct (building o) as [((cap & ttl) & l)|].
    { destruct (l_inserts E l 0 (fresh_a cap ttl) (aw_reads aw)) as ((cnt & a') & n'). intros <-. auto. }
    destruct o; try discriminate; unfold two; try (intros <-; auto; fail);
      repeat match goal with |- context [slot ?t ?i] => destruct (slot t i) end;
      repeat match goal with |- context [Nat.eqb ?t ?i] => destruct (Nat.eqb t i) end;
      try destruct (junk E); intros X O; try easy; subst aw'; auto. }
  destruct (asks o) as [(c & k)|] eqn:AS.
  2:{ exists []. rewrite app_nil_r. auto. }
  destruct (asks_spec AS) as (TG & P & WF).
  destruct (alive w c) eqn:AL.
  2:{ exists []. split.
      - unfold call in C. assert (X : exec E o w = Val RIll w).
        { unfold exec. destruct o; inversion AS; subst; simpl; rewrite AL; auto. }
        destruct oc; rewrite X in C; inversion C; subst. rewrite app_nil_r; auto.
      - intros l CT. exfalso. destruct (contents_inv G R CT) as (a & Ha & _).
        apply slot_alive in Ha. rewrite <- (rel_alive _ R) in Ha. congruence. }
  destruct (alive_inv R AL) as (a & Ha).
  assert (WF' : a_well_formed aw o = true) by (rewrite WF; eapply slot_alive; eauto).
  destruct (call_local G R P TG Ha WF' C) as (a' & x & m & O & _ & Q & R').
  pose proof (local_note_any (rel_cinv R Ha) TG O) as LN. rewrite AS, Q in LN. destruct LN as (_ & LN). clear Q.
  destruct (proj1 I _ _ Ha) as (_ & Cb).
  exists (match x with Quiet => [] | HitOf k v => hit_calls (a_cbs a) k v | MissOf k => miss_calls (a_cbs a) k end).
  split.
  { rewrite (rel_log R), (rel_log R'). destruct x; simpl; rewrite ?app_nil_r; auto. }
  intros l CT. destruct (contents_inv G R CT) as (a0 & Ha0 & ->). rewrite Ha in Ha0; inversion Ha0; subst a0.
  assert (HOT := hot_old R Ha).
  rewrite Cb, look_map, (rel_reads R).
  destruct (access_of o oc) as [((? & ?) & [|])|].
  - destruct LN as (e & -> & ->). simpl. eexists. split; reflexivity.
  - destruct LN as [->|(-> & ? & e & Hh & St)]; auto. destruct (HOT _ _ _ Hh St). auto.
  - destruct LN as (-> & [(-> & e & Hh & St)|(e & Lk & -> & S1 & S2)]); split; auto.
    + destruct (HOT _ _ _ Hh St). auto.
    + right. rewrite Lk. exists (pair_of e). rewrite (old_not_stale G _ R Ha Lk), (old_stale G _ R Ha Lk). auto.
Qed.

(** On any cache, timed or not, an access that succeeds is counted as a hit, one
    that fails as a miss, except when the key is that of an expired most recently
    used element, or when it expires during the call. *)
Lemma step_totals_any w c k o oc w' l r : reachable E w -> asks o = Some (c, k) -> contents E c w l ->
  call E o w oc w' -> totals_are E c w r ->
  match access_of o oc with
  | Some (_, _, true) => totals_are E c w' (counts true r)
  | Some (_, _, false) => totals_are E c w' (counts false r) \/
      (o = Contains c k /\ is_newest E k l /\ old E c w k (clock E (w_reads w)) /\ totals_are E c w' r)
  | None => oc = Threw KeyExpired /\
      ((is_newest E k l /\ old E c w k (clock E (w_reads w)) /\ totals_are E c w' r) \/
       (has E k l = true /\ ~ old E c w k (clock E (w_reads w)) /\ old E c w k (clock E (S (w_reads w))) /\
        totals_are E c w' (counts true r)))
  end.
Proof.
  intros H A CT C X. destruct (open_cache G H CT) as (aw & a & R & Ha & ->).
  destruct (asks_spec A) as (TG & P & WF).
  assert (WF' : a_well_formed aw o = true) by (rewrite WF; eapply slot_alive; eauto).
  destruct (call_local G R P TG Ha WF' C) as (a' & x & m & O & Q1 & Q2 & R').
  pose proof (local_note_any (rel_cinv R Ha) TG O) as LN. rewrite A, Q2 in LN. destruct LN as (_ & LN). clear Q2.
  assert (AS : asks o <> None) by (rewrite A; discriminate).
  assert (NS : ~ separate w c c).
  { intros SEP. destruct (rel_get _ R Ha) as (cx & cs & cl & At & Rp).
    unfold totals_are in X. rewrite (reading_ev (o := Totals c) R Ha eq_refl eq_refl) in X.
    destruct (a_stats a) as [s|] eqn:Ss; [|discriminate].
    apply (SEP cx cx s); try apply At; rewrite (rp_stats Rp); auto. }
  pose proof (proj1 (note_totals R Ha AS Q1 R' X) NS) as T.
  assert (HOT := hot_old R Ha).
  destruct (access_of o oc) as [((? & ?) & [|])|].
  - destruct LN as (e & _ & ->). exact T.
  - destruct LN as [->|(-> & ? & e & Hh & St)]; auto. rewrite (rel_reads R). destruct (HOT _ _ _ Hh St). auto 6.
  - destruct LN as (-> & [(-> & e & Hh & St)|(e & Lk & -> & S1 & S2)]); split; auto; rewrite (rel_reads R).
    + destruct (HOT _ _ _ Hh St). auto.
    + right. rewrite (old_not_stale G _ R Ha Lk), (old_stale G _ R Ha Lk). split; auto.
      destruct (lookup_some_in Lk) as (I & Q). apply existsb_exists. exists (pair_of e). split; auto. apply in_map. auto.
Qed.

(** ** Which exception a lookup of an expired element throws *)
Lemma touched_hot ch o oc c d k a n : cinv E a -> target o = Some d ->
  outcome_in (fst (fst (fst (local E ch o a n)))) = Some oc -> touched o oc = Some (c, k) ->
  let a' := snd (fst (fst (local E ch o a n))) in
  c = d /\ a_hot a' = true /\ exists l e, a_ents a' = l ++ [e] /\ key_equal E k (e_key e) = true.
Proof.
  intros Ci TG O T. cbv zeta.
  assert (Rf : forall j, key_equal E j j = true) by apply (good_refl G).
  assert (HS : forall j e, a_hot_ent E a j = Some e ->
               a_hot a = true /\ exists l e', a_ents a = l ++ [e'] /\ key_equal E j (e_key e') = true).
  { intros j e Hh. destruct (hot_split Hh) as (? & ? & l & ?). eauto. }
  assert (IC : forall j v t, fst (fst (insert_c E j v t a)) = true \/ snd (fst (insert_c E j v t a)) <> None ->
               a_hot (snd (insert_c E j v t a)) = true /\
               exists l e, a_ents (snd (insert_c E j v t a)) = l ++ [e] /\ key_equal E j (e_key e) = true).
  { intros j v t. unfold insert_c. destruct (Nat.eqb (a_cap a) 0) eqn:Z; simpl; [intros [?|?]; easy|]. apply Nat.eqb_neq in Z.
    intros _. destruct (lookup_ent E j (a_ents a)) as [e|] eqn:L; simpl; split; auto.
    - do 2 eexists. split; [reflexivity|]. simpl. eapply lookup_key; eauto.
    - rewrite lastn_snoc by auto. do 2 eexists. split; [reflexivity|]. simpl. auto. }
  destruct o; try (exfalso; destruct oc as [[]|]; discriminate T); simpl in TG; injection TG as <-;
    revert O T; cbn [local]; unfold l_find, l_contains, l_lookup.
  1, 2: match goal with |- context [insert_c ?F ?j ?v ?t ?b] =>
          specialize (IC j v t); destruct (insert_c F j v t b) as ((? & x) & ?) end;
    simpl in IC |- *; intros O; inversion O; subst; simpl; destruct x; try discriminate; intros T; inversion T; subst;
    split; auto; apply IC; right; discriminate.
  all: try match goal with |- context [a_hot_ent ?F ?b ?j] => destruct (a_hot_ent F b j) as [e|] eqn:Hh end;
    try match goal with |- context [lookup_ent ?F ?j ?b] => destruct (lookup_ent F j b) as [e|] eqn:Lk end;
    staled; simpl; try match goal with |- context [lenient_end ?F] => destruct (lenient_end F) end;
    simpl; intros O; inversion O; subst; simpl; try discriminate;
    intros T; inversion T; subst; split; auto; try (eapply HS; eassumption);
    split; auto; try (eexists _, _; split; [reflexivity|]; simpl; eapply lookup_key; eassumption).
  - apply (HS _ _ Hh).
  - eexists _, _. split; [reflexivity|]. apply (hot_split Hh).
Qed.

Lemma expired_after w o oc c k w1 l1 j oc2 w2 : reachable E w -> call E o w oc w1 -> touched o oc = Some (c, k) ->
  contents E c w1 l1 -> old E c w1 j (clock E (w_reads w1)) -> call E (Lookup c j) w1 oc2 w2 ->
  oc2 = Threw (if key_equal E j k then KeyExpired else KeyNotFound).
Proof.
  intros H C T CT O C2. destruct (reach_rel G H) as (aw & R).
  assert (TG : target o = Some c /\ plain o = true).
  { destruct o; try (destruct oc as [[]|]; discriminate T); destruct oc as [r|]; try discriminate;
      destruct r; try discriminate; simpl in T; repeat match type of T with context [match ?x with _ => _ end] => destruct x end;
      try discriminate; inversion T; subst; auto. }
  destruct TG as (TG & P).
  pose proof (contents_inv G) as CI.
  assert (AL : exists a, slot (aw_caches aw) c = Some a /\ a_well_formed aw o = true).
  { destruct (slot (aw_caches aw) c) as [a|] eqn:Ha.
    - exists a. split; auto. destruct o; try discriminate; simpl in TG; inversion TG; subst; simpl; eapply slot_alive; eauto.
    - exfalso. destruct (call_step G R P C) as (aw' & O' & _ & X'). revert O' X'. unfold astep.
      destruct (a_well_formed aw o); cbn [negb].
      + rewrite TG. unfold two. rewrite Ha. simpl. intros Q _. inversion Q; subst. destruct o; discriminate.
      + simpl. intros Q _. inversion Q; subst. destruct o; discriminate. }
  destruct AL as (a & Ha & WF).
  destruct (call_local2 G R P TG Ha WF C) as (OC & R1).
  destruct (touched_hot (rel_cinv R Ha) TG OC T) as (_ & Hot & l & e & Le & Ke).
  set (a1 := snd (fst (fst (local E 0 o a (aw_reads aw))))) in *.
  match type of R1 with rel _ _ ?x => set (aw1 := x) in * end.
  assert (Ha1 : slot (aw_caches aw1) c = Some a1) by (apply noted_slot with (a := a); auto).
  rewrite (rel_reads R1) in O. pose proof O as O'. rewrite (old_iff G _ _ R1 Ha1) in O'. destruct O' as (e' & t & L & T' & _).
  rewrite (old_stale G _ R1 Ha1 L) in O.
  destruct (call_local2 G R1 (o := Lookup c j) eq_refl eq_refl Ha1 (slot_alive Ha1) C2) as (OC2 & _).
  revert OC2. cbn [local]. unfold l_lookup.
  assert (HE : a_hot_ent E a1 j = if key_equal E j k then Some e else None).
  { unfold a_hot_ent. rewrite Hot, Le, last_ent_app.
    assert (Q : key_equal E j (e_key e) = key_equal E j k).
    { destruct (key_equal E j k) eqn:Q.
      - eapply (good_trans G); eauto.
      - destruct (key_equal E j (e_key e)) eqn:Q2; auto. rewrite <- Q. symmetry. eapply (good_trans G); eauto.
        rewrite (good_sym G); auto. }
    rewrite Q. reflexivity. }
  rewrite HE. destruct (key_equal E j k) eqn:Q.
  - pose proof (hot_lookup G (rel_cinv R1 Ha1) HE) as L2. rewrite L in L2. inversion L2; subst. rewrite O. simpl. intros X; inversion X; auto.
  - rewrite L, O. simpl. intros X; inversion X; auto.
Qed.
End TimedStats.
