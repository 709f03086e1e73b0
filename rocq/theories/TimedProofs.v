(** Timed caches: what expiry does to accesses, iterators and removals. *)
From Coq Require Import List Arith ZArith Bool Permutation Lia.
Import ListNotations.
From Verif Require Import Monad Types Model Api Spec SpecStats SpecTimed Ref Lists SimBase SimRel SimOps SimIns SimErase SimIter SimNew SimObs SimExec RefEval SimRun LruProofs CallProofs LruMore Flat Global Safe Frame StatProofs StatMore TimedTrack.
Set Implicit Arguments.
Unset Strict Implicit.
Local Open Scope cpp_scope.

Section Timed.
Context {K V : Type}.
Variable E : env K V.
Hypothesis G : good E.

Notation acache := (acache K V).
Notation aworld := (aworld K V).
Notation world := (world K V).
Notation entry := (entry K V).
Notation mp := (map (@pair_of K V)).
Implicit Types (a : acache) (aw : aworld) (w : world) (o : op K V) (e : entry).

Lemma frozen_good z : good (frozen z E).
Proof. destruct G. constructor; auto. Qed.

Lemma timed_rel w aw c a : rel E w aw -> slot (aw_caches aw) c = Some a ->
  timed w c = match a_ttl a with Some _ => true | None => false end.
Proof.
  intros R Ha. destruct (rel_get _ R Ha) as (x & s & l & At & Rp). unfold timed.
  rewrite (at_slot At), (rp_ttl Rp). auto.
Qed.
Lemma a_timed_slot aw c a : slot (aw_caches aw) c = Some a ->
  a_timed aw c = match a_ttl a with Some _ => true | None => false end.
Proof. intros Ha. unfold a_timed. rewrite Ha. auto. Qed.

(** [old], on the reference machine. *)
Lemma old_iff w aw c a k z : rel E w aw -> slot (aw_caches aw) c = Some a ->
  (old E c w k z <-> exists e d, lookup_ent E k (a_ents a) = Some e /\ a_ttl a = Some d /\
                                 (d < dcast E (z - e_time e))%Z).
Proof.
  intros R Ha.
  assert (R' : rel (frozen z E) w aw) by (apply (rel_env (E := E)); auto).
  assert (P : plain (HasExpired c k : op K V) = true) by auto.
  pose proof (plain_step (frozen_good z) R' P) as S.
  unfold astep in S. simpl a_well_formed in S. rewrite (a_timed_slot Ha) in S.
  unfold old. destruct (a_ttl a) as [d|] eqn:T; simpl in S.
  - unfold two in S. rewrite Ha in S. unfold give in S. simpl in S.
    change (lookup_ent (frozen z E)) with (lookup_ent E) in S.
    destruct (lookup_ent E k (a_ents a)) as [e|] eqn:L; simpl in S.
    + rewrite T in S. simpl in S.
      destruct (exec (frozen z E) (HasExpired c k) w) as [r w'| | |]; simpl in S; try easy. destruct S as (_ & ->).
      split.
      * intros (w2 & X). inversion X as [[Q1 Q2]]. apply Z.ltb_lt in Q1. exists e, d. auto.
      * intros (e' & d' & Q1 & Q2 & Q3). inversion Q1; inversion Q2; subst. exists w'. apply Z.ltb_lt in Q3. rewrite Q3. auto.
    + destruct (exec (frozen z E) (HasExpired c k) w) as [r w'| | |]; simpl in S; try easy. destruct S as (_ & ->).
      split; [intros (w2 & X); discriminate|intros (e' & d' & Q1 & _); discriminate].
  - destruct (exec (frozen z E) (HasExpired c k) w) as [r w'| | |]; simpl in S; try easy. destruct S as (_ & ->).
    split; [intros (w2 & X); discriminate|intros (e' & d' & _ & Q1 & _); discriminate].
Qed.
Lemma old_stale w aw c a k i e : rel E w aw -> slot (aw_caches aw) c = Some a -> lookup_ent E k (a_ents a) = Some e ->
  (old E c w k (clock E i) <-> stale E (a_ttl a) e i = true).
Proof.
  intros R Ha L. rewrite (old_iff _ _ R Ha). unfold stale. split.
  - intros (e' & d & Q1 & Q2 & Q3). rewrite Q2. rewrite L in Q1; inversion Q1; subst. apply Z.ltb_lt. auto.
  - destruct (a_ttl a) as [d|]; [|discriminate]. intros H. apply Z.ltb_lt in H. eauto.
Qed.
Lemma old_not_stale w aw c a k i e : rel E w aw -> slot (aw_caches aw) c = Some a -> lookup_ent E k (a_ents a) = Some e ->
  (~ old E c w k (clock E i) <-> stale E (a_ttl a) e i = false).
Proof. intros R Ha L. rewrite (old_stale i R Ha L). destruct (stale E (a_ttl a) e i); split; congruence. Qed.

(** A call on one cache, with the number of clock readings. *)
Lemma call_local2 o c a w aw oc w' : rel E w aw -> plain o = true -> target o = Some c ->
  slot (aw_caches aw) c = Some a -> a_well_formed aw o = true -> call E o w oc w' ->
  let r := local E 0 o a (aw_reads aw) in
  outcome_in (fst (fst (fst r))) = Some oc /\
  rel E w' (awith c (snd (fst (fst r))) (noted E a (snd (fst r)) (ticks (snd r) aw))).
Proof.
  intros R P T Ha WF C. destruct (call_step G R P C) as (aw' & O & R' & X).
  revert O X. unfold astep. rewrite WF, T. unfold two. rewrite Ha. cbn [negb].
  destruct (local E 0 o a (aw_reads aw)) as (((r & a') & x) & m). simpl. intros O X.
  destruct r; simpl in *; try easy; subst; auto.
Qed.
Lemma exec_local o c a w aw r a' x m : rel E w aw -> plain o = true -> target o = Some c ->
  slot (aw_caches aw) c = Some a -> a_well_formed aw o = true ->
  local E 0 o a (aw_reads aw) = (r, a', x, m) ->
  match r with
  | Val v _ => exists w', exec E o w = Val v w' /\ rel E w' (awith c a' (noted E a x (ticks m aw)))
  | Exc e _ => exists w', exec E o w = Exc e w' /\ rel E w' (awith c a' (noted E a x (ticks m aw)))
  | Undef u => exec E o w = Undef u
  | Term e => exec E o w = Term e
  end.
Proof.
  intros R P T Ha WF L. pose proof (plain_step G R P) as S. unfold astep in S.
  rewrite WF, T in S. cbn [negb] in S. unfold two in S. rewrite Ha, L in S. unfold give in S.
  destruct r, (exec E o w); simpl in S; try easy; try (destruct S; subst; eauto); subst; auto.
Qed.
Lemma noted_read w aw c a a' x m : rel E w (awith c a' (noted E a x (ticks m aw))) -> w_reads w = m + aw_reads aw.
Proof. intros R. rewrite (rel_reads R). simpl. rewrite noted_reads. auto. Qed.
Lemma noted_slot aw c a a' x m : slot (aw_caches aw) c = Some a ->
  slot (aw_caches (awith c a' (noted E a x (ticks m aw)))) c = Some a'.
Proof. intros H. simpl. rewrite noted_caches. simpl. erewrite slot_upd_same; eauto. Qed.

(** ** An access to a key whose element is [e] *)
Lemma access_local o c k a n e oc : cinv E a -> asks o = Some (c, k) -> lookup_ent E k (a_ents a) = Some e ->
  a_ttl a <> None ->
  let r := local E 0 o a n in
  outcome_in (fst (fst (fst r))) = Some oc ->
  0 < snd r /\
  (access_of o oc = Some (c, k, true) <-> forall i, n <= i < snd r + n -> stale E (a_ttl a) e i = false).
Proof.
  intros Ci A L TT. cbv zeta.
  assert (HOT : forall e', a_hot_ent E a k = Some e' -> e' = e).
  { intros e' Hh. pose proof (hot_lookup G Ci Hh). congruence. }
  assert (TK : tkn a = 1) by (unfold tkn; destruct (a_ttl a); easy).
  destruct o; inversion A; subst; cbn [local]; unfold l_find, l_contains, l_lookup;
    try (destruct (a_hot_ent E a k) as [e'|]; [rewrite (HOT _ eq_refl); clear HOT|]);
    rewrite ?L; rewrite ?TK; change (1 + n) with (S n);
    destruct (stale E (a_ttl a) e n) eqn:S1;
    try destruct (stale E (a_ttl a) e (S n)) eqn:S2;
    try destruct (lenient_end E);
    simpl; intros O; inversion O; subst; (split; [lia|]);
    (split; intros X;
     [try discriminate X; intros i B; assert (i = n \/ i = S n) as [->| ->] by lia; first [assumption|lia]
     |try reflexivity; exfalso; (rewrite X in S1 by lia; discriminate) || (rewrite X in S2 by lia; discriminate)]).
Qed.

Lemma fresh_access w c k o oc w' aw a e d : rel E w aw -> slot (aw_caches aw) c = Some a ->
  lookup_ent E k (a_ents a) = Some e -> a_ttl a = Some d -> asks o = Some (c, k) -> call E o w oc w' ->
  w_reads w < w_reads w' /\
  (served o oc c k <-> forall i, during w w' i -> young E d (e_time e) (clock E i)).
Proof.
  intros R Ha L T A C. destruct (asks_spec A) as (TG & P & WF).
  assert (WF' : a_well_formed aw o = true) by (rewrite WF; eapply slot_alive; eauto).
  destruct (call_local2 R P TG Ha WF' C) as (O & R').
  assert (TT : a_ttl a <> None) by congruence.
  destruct (access_local (rel_cinv R Ha) A L TT O) as (M & Q).
  pose proof (noted_read R') as RD. rewrite (rel_reads R).
  split; [lia|]. unfold served. rewrite Q. unfold during, young. rewrite (rel_reads R), RD.
  unfold stale. rewrite T. split; intros X i B; specialize (X i B); [apply Z.ltb_ge in X; auto|apply Z.ltb_ge; auto].
Qed.

Lemma absent_none k c w aw : rel E w aw -> absent E k c w ->
  forall a, slot (aw_caches aw) c = Some a -> lookup_ent E k (a_ents a) = None.
Proof.
  intros R [D|(l & CT & Hk)] a Ha.
  - rewrite (rel_alive _ R) in D. unfold a_alive in D. rewrite Ha in D. discriminate.
  - destruct (contents_inv G R CT) as (a' & Ha' & ->). rewrite Ha in Ha'; inversion Ha'; subst.
    rewrite has_map in Hk. destruct (lookup_ent E k (a_ents a')); [discriminate|auto].
Qed.
Lemma present_some k c w aw : rel E w aw -> present E k c w ->
  exists a e, slot (aw_caches aw) c = Some a /\ lookup_ent E k (a_ents a) = Some e.
Proof.
  intros R (l & CT & Hk). destruct (contents_inv G R CT) as (a & Ha & ->). rewrite has_map in Hk.
  destruct (lookup_ent E k (a_ents a)) as [e|] eqn:L; [eauto|discriminate].
Qed.
Lemma adds_free o oc c : adds o oc c -> copy_free o = true.
Proof. intros [? ? ? ? ? P|? ? ? ? P|? ? ? ? P|? ? ? ? ? P]; destruct P; auto. Qed.

Theorem life w0 o0 oc0 w1 c0 k : reachable E w0 -> call E o0 w0 oc0 w1 -> adds o0 oc0 c0 ->
  absent E k c0 w0 -> present E k c0 w1 -> timed w1 c0 = true ->
  exists i0, during w0 w1 i0 /\ (forall j u, puts c0 j u o0 -> i0 = w_reads w0) /\
  forall ops c w2 d, kept E k c0 w1 ops c w2 -> ttl_of c w2 (Some d) ->
    (forall o oc w3, asks o = Some (c, k) -> call E o w2 oc w3 ->
       w_reads w2 < w_reads w3 /\
       (served o oc c k <-> forall i, during w2 w3 i -> young E d (clock E i0) (clock E i))) /\
    (forall z, old E c w2 k z <-> ~ young E d (clock E i0) z).
Proof.
  intros H C AD AB PR TM. destruct (reach_rel G H) as (aw & R). pose proof (adds_free AD) as CF.
  destruct (call_any G R CF C) as (ch & oc' & aw1 & R1 & ST & OC).
  assert (oc' = oc0).
  { destruct OC as [|(d & ->)]; auto. inversion AD as [? ? ? ? ? P|? ? ? ? P|? ? ? ? P|? ? ? ? ? P]; inversion P. }
  subst oc'. clear OC.
  destruct (present_some R1 PR) as (a1 & e1 & Ha1 & L1).
  rewrite (timed_rel R1 Ha1) in TM.
  assert (TT : a_ttl a1 <> None) by (destruct (a_ttl a1); easy).
  assert (D : forall d b, slot (aw_caches aw) d = Some b -> dkeys E (a_ents b)) by (intros d b Hb; exact (rel_dkeys R Hb)).
  destruct (step_birth G CF D ST AD (absent_none R AB) Ha1 L1 TT) as (i0 & B & T0 & PU).
  exists i0. unfold during. rewrite (rel_reads R), (rel_reads R1). split; auto. split; auto.
  intros ops c w2 d KP TO. destruct (kept_time G KP R1 Ha1 L1) as (aw2 & a2 & e2 & R2 & Ha2 & L2 & T2).
  pose proof (ttl_inv R2 Ha2 TO) as T. rewrite <- T0, <- T2. split.
  - intros o oc w3 A C3. exact (fresh_access R2 Ha2 L2 T A C3).
  - intros z. rewrite (old_iff k z R2 Ha2). unfold young. split.
    + intros (e & d' & Q1 & Q2 & Q3). rewrite L2 in Q1; inversion Q1; subst. rewrite T in Q2; inversion Q2; subst. lia.
    + intros Q. exists e2, d. split; auto. split; auto. lia.
Qed.

Lemma inserted_served w0 o0 oc0 w1 c0 k v : puts c0 k v o0 -> reachable E w0 -> call E o0 w0 oc0 w1 ->
  absent E k c0 w0 -> present E k c0 w1 -> timed w1 c0 = true ->
  forall ops c w2 d, kept E k c0 w1 ops c w2 -> ttl_of c w2 (Some d) ->
  forall o oc w3, asks o = Some (c, k) -> call E o w2 oc w3 ->
  (forall i, during w2 w3 i -> young E d (clock E (w_reads w0)) (clock E i)) -> served o oc c k.
Proof.
  intros P H C AB PR TM ops c w2 d KP TO o oc w3 A C3 Y.
  destruct (life H C (adds_put _ P) AB PR TM) as (i0 & _ & PU & X). rewrite (PU _ _ P) in X.
  destruct (X _ _ _ _ KP TO) as (X1 & _). apply (X1 _ _ _ A C3). auto.
Qed.
Lemma inserted_fresh w0 o0 oc0 w1 c k v d : puts c k v o0 -> reachable E w0 -> call E o0 w0 oc0 w1 ->
  absent E k c w0 -> present E k c w1 -> ttl_of c w1 (Some d) ->
  forall o oc w2, asks o = Some (c, k) -> call E o w1 oc w2 ->
  (served o oc c k <-> forall i, during w1 w2 i -> young E d (clock E (w_reads w0)) (clock E i)).
Proof.
  intros P H C AB PR TO o oc w2 A C2.
  assert (TM : timed w1 c = true) by (destruct TO as (x & Q & T); unfold timed; rewrite Q, T; auto).
  destruct (life H C (adds_put _ P) AB PR TM) as (i0 & _ & PU & X). rewrite (PU _ _ P) in X.
  destruct (X _ _ _ _ (kept_nil _ _ _ _) TO) as (X1 & _). apply (X1 _ _ _ A C2).
Qed.
Lemma precision u : (0 < u)%Z -> (forall z, dcast E z = Z.quot z u) ->
  forall w0 o0 oc0 w1 c0 k v, puts c0 k v o0 -> reachable E w0 -> call E o0 w0 oc0 w1 ->
  absent E k c0 w0 -> present E k c0 w1 -> timed w1 c0 = true ->
  forall ops c w2 d, kept E k c0 w1 ops c w2 -> ttl_of c w2 (Some d) -> (0 <= d)%Z ->
  forall o oc w3, asks o = Some (c, k) -> call E o w2 oc w3 ->
  (forall i, during w2 w3 i -> 0 <= clock E i - clock E (w_reads w0))%Z ->
  (served o oc c k <-> forall i, during w2 w3 i -> (clock E i - clock E (w_reads w0) < (d + 1) * u)%Z).
Proof.
  intros U DC w0 o0 oc0 w1 c0 k v P H C AB PR TM ops c w2 d KP TO D o oc w3 A C3 POS.
  destruct (life H C (adds_put _ P) AB PR TM) as (i0 & _ & PU & X). rewrite (PU _ _ P) in X.
  destruct (X _ _ _ _ KP TO) as (X1 & _). destruct (X1 _ _ _ A C3) as (_ & S). rewrite S. unfold young.
  assert (Q : forall i, during w2 w3 i -> (dcast E (clock E i - clock E (w_reads w0)) <= d <->
      clock E i - clock E (w_reads w0) < (d + 1) * u)%Z).
  { intros i B. rewrite DC. specialize (POS i B). set (x := (clock E i - clock E (w_reads w0))%Z) in *.
    rewrite Z.quot_div_nonneg by lia. split; intros Y.
    - assert (x < u * Z.succ d)%Z by (pose proof (Z.mod_pos_bound x u U); pose proof (Z.div_mod x u); nia). lia.
    - apply Z.lt_succ_r. apply Z.div_lt_upper_bound; lia. }
  split; intros Y i B; apply (Q i B); auto.
Qed.

(** ** Iterators *)
Lemma nth_mp l n : nth_error (mp l) n = option_map (@pair_of K V) (nth_error l n).
Proof. revert n. induction l; intros [|n]; simpl; auto. Qed.

Lemma valid_at w c l n : reachable E w -> contents E c w l ->
  exists b w', exec E (ValidAt c n) w = Val (RBool b) w' /\
    (b = true <-> exists p, nth_error l n = Some p /\ ~ old E c w (fst p) (clock E (w_reads w))).
Proof.
  intros H CT. destruct (open_cache G H CT) as (aw & a & R & Ha & ->).
  assert (WF : a_well_formed aw (ValidAt c n) = true) by (simpl; eapply slot_alive; eauto).
  rewrite nth_mp, (rel_reads R). destruct (nth_error (a_ents a) n) as [e|] eqn:N; simpl.
  - assert (LC : local E 0 (ValidAt c n) a (aw_reads aw) = (val (RBool (negb (stale E (a_ttl a) e (aw_reads aw)))), a, Quiet, tkn a))
      by (simpl; rewrite N; auto).
    destruct (exec_local R (eq_refl : plain (ValidAt c n) = true) eq_refl Ha WF LC) as (w' & X & _).
    exists (negb (stale E (a_ttl a) e (aw_reads aw))), w'. split; auto.
    assert (L : lookup_ent E (e_key e) (a_ents a) = Some e).
    { apply (in_lookup G (rel_dkeys R Ha)); [eapply nth_error_In; eauto|apply (good_refl G)]. }
    pose proof (old_not_stale (aw_reads aw) R Ha L) as ON. rewrite negb_true_iff, <- ON. split.
    + intros Q. exists (pair_of e). auto.
    + intros (p & Q & Q2). inversion Q; subst; auto.
  - assert (LC : local E 0 (ValidAt c n) a (aw_reads aw) = (val (RBool false), a, Quiet, 0)) by (simpl; rewrite N; auto).
    destruct (exec_local R (eq_refl : plain (ValidAt c n) = true) eq_refl Ha WF LC) as (w' & X & _).
    exists false, w'. split; auto. split; [discriminate|]. intros (p & Q & _). discriminate.
Qed.

Lemma entry_at w c l n : reachable E w -> contents E c w l ->
  exists w', match nth_error l n with
  | None => exec E (EntryAt c n) w = Exc InvalidIterator w'
  | Some p => (~ old E c w (fst p) (clock E (w_reads w)) /\ exec E (EntryAt c n) w = Val (ROpt (Some p)) w') \/
              (old E c w (fst p) (clock E (w_reads w)) /\ exec E (EntryAt c n) w = Exc KeyExpired w')
  end.
Proof.
  intros H CT. destruct (open_cache G H CT) as (aw & a & R & Ha & ->).
  assert (WF : a_well_formed aw (EntryAt c n) = true) by (simpl; eapply slot_alive; eauto).
  rewrite nth_mp, (rel_reads R). destruct (nth_error (a_ents a) n) as [e|] eqn:N; simpl.
  - assert (L : lookup_ent E (e_key e) (a_ents a) = Some e).
    { apply (in_lookup G (rel_dkeys R Ha)); [eapply nth_error_In; eauto|apply (good_refl G)]. }
    pose proof (old_not_stale (aw_reads aw) R Ha L) as ON. pose proof (old_stale (aw_reads aw) R Ha L) as OS.
    assert (LC : local E 0 (EntryAt c n) a (aw_reads aw) =
      (if stale E (a_ttl a) e (aw_reads aw) then exc KeyExpired else val (ROpt (Some (pair_of e))), a, Quiet, tkn a)) by (simpl; rewrite N; auto).
    pose proof (exec_local R (eq_refl : plain (EntryAt c n) = true) eq_refl Ha WF LC) as X.
    destruct (stale E (a_ttl a) e (aw_reads aw)); destruct X as (w' & X & _); exists w'; [right|left]; split; auto; [apply OS|apply ON]; auto.
  - assert (LC : local E 0 (EntryAt c n) a (aw_reads aw) = (exc InvalidIterator, a, Quiet, 0)) by (simpl; rewrite N; auto).
    destruct (exec_local R (eq_refl : plain (EntryAt c n) = true) eq_refl Ha WF LC) as (w' & X & _). eauto.
Qed.

(** ** Accesses to expired elements *)
Lemma expired_access w c k o oc w' l n : reachable E w -> contents E c w l -> capacity_is E c w n ->
  asks o = Some (c, k) -> old E c w k (clock E (w_reads w)) -> call E o w oc w' ->
  contents E c w' l /\ capacity_is E c w' n /\
  match o with
  | Find _ _ => oc = Returned (ROpt None)
  | Contains _ _ => oc = Returned (RBool false)
  | Lookup _ _ | Write _ _ _ => oc = Threw KeyNotFound \/ (oc = Threw KeyExpired /\ is_newest E k l)
  | _ => oc = Threw InvalidIterator
  end.
Proof.
  intros H CT CP A O C. destruct (open_cache G H CT) as (aw & a & R & Ha & ->).
  rewrite (rel_reads R) in O. pose proof O as O'. rewrite (old_iff _ _ R Ha) in O'. destruct O' as (e & d & L & T & _).
  rewrite (old_stale _ R Ha L) in O.
  destruct (asks_spec A) as (TG & P & WF).
  assert (WF' : a_well_formed aw o = true) by (rewrite WF; eapply slot_alive; eauto).
  destruct (call_local2 R P TG Ha WF' C) as (OC & R').
  assert (X : snd (fst (fst (local E 0 o a (aw_reads aw)))) = a /\
    match o with
    | Find _ _ => oc = Returned (ROpt None)
    | Contains _ _ => oc = Returned (RBool false)
    | Lookup _ _ | Write _ _ _ => oc = Threw KeyNotFound \/ (oc = Threw KeyExpired /\ is_newest E k (mp (a_ents a)))
    | _ => oc = Threw InvalidIterator
    end).
  { assert (HOT : forall e', a_hot_ent E a k = Some e' -> e' = e).
    { intros e' Hh. pose proof (hot_lookup G (rel_cinv R Ha) Hh). congruence. }
    assert (NEW : forall e', a_hot_ent E a k = Some e' -> is_newest E k (mp (a_ents a))).
    { intros e' Hh. destruct (hot_split Hh) as (_ & Q & l & ->). exists (mp l), (pair_of e'). rewrite map_app. auto. }
    revert OC. clear R'. destruct o; inversion A; subst; cbn [local]; unfold l_find, l_contains, l_lookup;
      try (destruct (a_hot_ent E a k) as [e'|]; [rewrite (HOT _ eq_refl); clear HOT; specialize (NEW _ eq_refl)|]);
      rewrite ?L, O; try destruct (lenient_end E); simpl; intros Q; inversion Q; auto. }
  destruct X as (X & OCS). rewrite X in R'.
  pose proof (noted_slot a (snd (fst (local E 0 o a (aw_reads aw)))) (snd (local E 0 o a (aw_reads aw))) Ha) as Ha'.
  split; [exact (contents_of G R' Ha')|]. split; auto.
  rewrite <- (capacity_inv R Ha CP). exact (capacity_of R' Ha').
Qed.

(** ** Erasing through an ordered iterator *)
Lemma erase_at w c l n i : reachable E w -> contents E c w l -> capacity_is E c w n ->
  match nth_error l i with
  | None => exists w', exec E (EraseOrdered c i) w = Exc InvalidIterator w' /\ contents E c w' l /\ capacity_is E c w' n
  | Some p => (~ old E c w (fst p) (clock E (w_reads w)) ->
               exists w', exec E (EraseOrdered c i) w = Val RUnit w' /\ contents E c w' (without E (fst p) l) /\ capacity_is E c w' n) /\
              (old E c w (fst p) (clock E (w_reads w)) ->
               exists w', exec E (EraseOrdered c i) w = Exc KeyExpired w' /\ contents E c w' l /\ capacity_is E c w' n)
  end.
Proof.
  intros H CT CP. destruct (open_cache G H CT) as (aw & a & R & Ha & ->).
  assert (WF : a_well_formed aw (EraseOrdered c i) = true) by (simpl; eapply slot_alive; eauto).
  pose proof (capacity_inv R Ha CP) as Cp. subst n.
  rewrite nth_mp, (rel_reads R). destruct (nth_error (a_ents a) i) as [e|] eqn:N; simpl.
  - assert (L : lookup_ent E (e_key e) (a_ents a) = Some e).
    { apply (in_lookup G (rel_dkeys R Ha)); [eapply nth_error_In; eauto|apply (good_refl G)]. }
    split; intros O.
    + apply (old_not_stale _ R Ha L) in O.
      assert (LC : local E 0 (EraseOrdered c i) a (aw_reads aw) = (val RUnit, removed E (e_key e) a, Quiet, tkn a)) by (simpl; rewrite N, O; auto).
      destruct (exec_local R (eq_refl : plain (EraseOrdered c i) = true) eq_refl Ha WF LC) as (w' & X & R').
      exists w'. split; auto. pose proof (noted_slot (removed E (e_key e) a) Quiet (tkn a) Ha) as Ha'.
      split; [|exact (capacity_of R' Ha')]. rewrite without_map. exact (contents_of G R' Ha').
    + apply (old_stale _ R Ha L) in O.
      assert (LC : local E 0 (EraseOrdered c i) a (aw_reads aw) = (exc KeyExpired, a, Quiet, tkn a)) by (simpl; rewrite N, O; auto).
      destruct (exec_local R (eq_refl : plain (EraseOrdered c i) = true) eq_refl Ha WF LC) as (w' & X & R').
      exists w'. split; auto. pose proof (noted_slot a Quiet (tkn a) Ha) as Ha'.
      split; [exact (contents_of G R' Ha')|exact (capacity_of R' Ha')].
  - assert (LC : local E 0 (EraseOrdered c i) a (aw_reads aw) = (exc InvalidIterator, a, Quiet, 0)) by (simpl; rewrite N; auto).
    destruct (exec_local R (eq_refl : plain (EraseOrdered c i) = true) eq_refl Ha WF LC) as (w' & X & R').
    exists w'. split; auto. pose proof (noted_slot a Quiet 0 Ha) as Ha'.
    split; [exact (contents_of G R' Ha')|exact (capacity_of R' Ha')].
Qed.

(** ** all_expired *)
Lemma last_mp (l : list entry) : last_ent l = nth_error l (length l - 1) .
Proof.
  unfold last_ent. destruct (rev l) as [|e t] eqn:Q.
  - apply (f_equal (@rev _)) in Q. rewrite rev_involutive in Q. subst. auto.
  - apply (f_equal (@rev _)) in Q. rewrite rev_involutive in Q. simpl in Q. subst. rewrite app_length. simpl.
    rewrite nth_error_app2 by lia. replace (length (rev t) + 1 - 1 - length (rev t)) with 0 by lia. auto.
Qed.
Lemma all_expired_last w c l : reachable E w -> timed w c = true -> contents E c w l ->
  exists b w', exec E (AllExpired c) w = Val (RBool b) w' /\
    (b = true <-> forall l0 p, l = l0 ++ [p] -> old E c w (fst p) (clock E (w_reads w))).
Proof.
  intros H TM CT. destruct (open_cache G H CT) as (aw & a & R & Ha & ->).
  assert (WF : a_well_formed aw (AllExpired c) = true) by (simpl; rewrite (a_timed_slot Ha), <- (timed_rel R Ha); auto).
  rewrite (rel_reads R).
  destruct (last_ent (a_ents a)) as [e|] eqn:Le.
  - assert (LC : local E 0 (AllExpired c) a (aw_reads aw) = (val (RBool (stale E (a_ttl a) e (aw_reads aw))), a, Quiet, tkn a)) by (simpl; rewrite Le; auto).
    destruct (exec_local R (eq_refl : plain (AllExpired c) = true) eq_refl Ha WF LC) as (w' & X & _).
    eexists _, w'. split; [exact X|].
    unfold last_ent in Le. destruct (rev (a_ents a)) as [|e' t] eqn:Q; [discriminate|]. inversion Le; subst e'. clear Le.
    apply (f_equal (@rev _)) in Q. rewrite rev_involutive in Q. simpl in Q.
    assert (L : lookup_ent E (e_key e) (a_ents a) = Some e).
    { apply (in_lookup G (rel_dkeys R Ha)); [rewrite Q; apply in_or_app; simpl; auto|apply (good_refl G)]. }
    rewrite <- (old_stale _ R Ha L). rewrite Q, map_app. split.
    + intros O l0 p J. apply app_inj_tail in J as (_ & <-). auto.
    + intros O. apply (O _ _ eq_refl).
  - assert (LC : local E 0 (AllExpired c) a (aw_reads aw) = (val (RBool true), a, Quiet, 0)) by (simpl; rewrite Le; auto).
    destruct (exec_local R (eq_refl : plain (AllExpired c) = true) eq_refl Ha WF LC) as (w' & X & _).
    exists true, w'. split; auto. split; auto. intros _ l0 p J. exfalso.
    rewrite last_mp in Le. apply nth_error_None in Le.
    assert (Z : length (mp (a_ents a)) = 0) by (rewrite map_length; lia).
    rewrite J, app_length in Z. simpl in Z. lia.
Qed.

(** ** clear_expired *)
Lemma remove_head e l : dkeys E (e :: l) -> remove_ent E (e_key e) (e :: l) = l.
Proof.
  intros (F & _). unfold remove_ent. simpl. rewrite (good_refl G). simpl.
  induction F as [|x l Q F IH]; simpl; auto. rewrite Q. simpl. congruence.
Qed.
Lemma clear_spec l : forall a n cnt d, a_ents a = l -> dkeys E l -> a_ttl a = Some d ->
  let r := l_clear E l a n cnt in
  exists gone rest, l = gone ++ rest /\ fst (fst r) = length gone + cnt /\ a_ents (snd (fst r)) = rest /\
    a_cap (snd (fst r)) = a_cap a /\
    (forall j e, nth_error gone j = Some e -> n + j < snd r /\ stale E (a_ttl a) e (n + j) = true) /\
    match rest with
    | [] => snd r = n + length gone
    | e :: _ => snd r = S (n + length gone) /\ stale E (a_ttl a) e (n + length gone) = false
    end.
Proof.
  induction l as [|e l IH]; intros a n cnt d Q D T; cbn [l_clear].
  - exists [], []. simpl. repeat (split; auto); try lia. destruct j; discriminate. destruct j; discriminate.
  - destruct (stale E (a_ttl a) e n) eqn:S.
    + assert (Q' : a_ents (removed E (e_key e) a) = l) by (simpl; rewrite Q; apply remove_head; auto).
      destruct (IH (removed E (e_key e) a) (tkn a + n) (Datatypes.S cnt) d Q' (proj2 D) T) as (gone & rest & L & C1 & C2 & C3 & C4 & C5).
      assert (TK : tkn a = 1) by (unfold tkn; rewrite T; auto). rewrite TK in *.
      exists (e :: gone), rest. split; [simpl; congruence|]. split; [rewrite C1; simpl; lia|]. split; auto. split; auto. split.
      * intros [|j] e' J; simpl in J.
        -- inversion J; subst e'. rewrite Nat.add_0_r. split; auto.
           destruct rest; [rewrite C5|destruct C5 as (-> & _)]; lia.
        -- destruct (C4 _ _ J) as (B & S'). simpl a_ttl in S'. replace (1 + n + j) with (n + Datatypes.S j) in * by lia. auto.
      * destruct rest as [|e' rest]; [rewrite C5; simpl; lia|]. destruct C5 as (C5 & C6). simpl a_ttl in C6. simpl length.
        replace (n + Datatypes.S (length gone)) with (1 + n + length gone) by lia. auto.
    + assert (TK : tkn a = 1) by (unfold tkn; rewrite T; auto). rewrite TK.
      exists [], (e :: l). simpl. repeat (split; auto); try lia. destruct j; discriminate. destruct j; discriminate.
      rewrite Nat.add_0_r. auto.
Qed.

Lemma clear_expired_prefix w c l n : reachable E w -> timed w c = true -> contents E c w l -> capacity_is E c w n ->
  exists gone rest w', l = gone ++ rest /\ exec E (ClearExpired c) w = Val (RNat (length gone)) w' /\
    contents E c w' rest /\ capacity_is E c w' n /\
    (forall j p, nth_error gone j = Some p -> during w w' (w_reads w + j) /\ old E c w (fst p) (clock E (w_reads w + j))) /\
    match rest with
    | [] => w_reads w' = w_reads w + length gone
    | p :: _ => w_reads w' = S (w_reads w + length gone) /\ ~ old E c w (fst p) (clock E (w_reads w + length gone))
    end.
Proof.
  intros H TM CT CP. destruct (open_cache G H CT) as (aw & a & R & Ha & ->).
  assert (WF : a_well_formed aw (ClearExpired c) = true) by (simpl; rewrite (a_timed_slot Ha), <- (timed_rel R Ha); auto).
  pose proof (capacity_inv R Ha CP) as Cp. subst n.
  rewrite (timed_rel R Ha) in TM. destruct (a_ttl a) as [d|] eqn:T; [|discriminate].
  destruct (clear_spec (aw_reads aw) 0 eq_refl (rel_dkeys R Ha) T) as (gone & rest & L & C1 & C2 & C3 & C4 & C5).
  destruct (l_clear E (a_ents a) a (aw_reads aw) 0) as ((cnt & a') & n') eqn:LC0. simpl in C1, C2, C3, C4, C5.
  assert (LC : local E 0 (ClearExpired c) a (aw_reads aw) = (val (RNat cnt), a', Quiet, n' - aw_reads aw)) by (simpl; rewrite LC0; auto).
  destruct (exec_local R (eq_refl : plain (ClearExpired c) = true) eq_refl Ha WF LC) as (w' & X & R').
  pose proof (noted_slot a' Quiet (n' - aw_reads aw) Ha) as Ha'.
  assert (NN : aw_reads aw <= n') by (destruct rest; [rewrite C5|destruct C5 as (-> & _)]; lia).
  assert (RW : w_reads w' = n') by (rewrite (noted_read R'); lia).
  assert (LK : forall e, In e (a_ents a) -> lookup_ent E (e_key e) (a_ents a) = Some e).
  { intros e I. apply (in_lookup G (rel_dkeys R Ha)); auto. apply (good_refl G). }
  exists (mp gone), (mp rest), w'. unfold during. rewrite (rel_reads R), RW.
  split; [rewrite L; apply map_app|]. split; [rewrite X, C1; rewrite map_length, Nat.add_0_r; auto|].
  split; [rewrite <- C2; exact (contents_of G R' Ha')|]. split; [rewrite <- C3; exact (capacity_of R' Ha')|]. split.
  - intros j p J. rewrite nth_mp in J. destruct (nth_error gone j) as [e|] eqn:NJ; [|discriminate]. inversion J; subst p.
    destruct (C4 _ _ NJ) as (B & S). split; [lia|]. simpl.
    assert (I : In e (a_ents a)) by (rewrite L; apply in_or_app; left; eapply nth_error_In; eauto).
    apply (old_stale _ R Ha (LK _ I)). exact S.
  - rewrite map_length. destruct rest as [|e rest]; simpl; auto. destruct C5 as (C5 & C6). split; auto.
    assert (I : In e (a_ents a)) by (rewrite L; apply in_or_app; right; simpl; auto).
    apply (old_not_stale _ R Ha (LK _ I)). exact C6.
Qed.

End Timed.
