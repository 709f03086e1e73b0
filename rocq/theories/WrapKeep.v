(** Wrapped functions: caches that are not used keep their contents, results stay
    for as long as there is room. *)
From Coq Require Import List Arith ZArith Bool Permutation Lia.
Import ListNotations.
From Verif Require Import Monad Types Model Api Spec SpecStats SpecTimed Ref Lists SimBase SimRel SimOps SimIns SimErase SimIter SimNew SimObs SimExec RefEval SimRun LruProofs CallProofs LruMore TimedTrack TimedProofs Wrap SpecWrap WrapProofs WrapRun WrapSteps.
Set Implicit Arguments.
Unset Strict Implicit.
Local Open Scope cpp_scope.

Section Keep.
Context {K V : Type}.
Variable E : env K V.
Hypothesis G : good E.
Variable F : nat -> nat -> K -> fbody K V.

Notation acache := (acache K V).
Notation aworld := (aworld K V).
Notation wworld := (wworld K V).
Notation entry := (entry K V).
Notation winv := (winv E).
Notation steps := (steps E F).
Implicit Types (a : acache) (aw : aworld) (w : wworld) (o : wobj) (e : entry).
Notation yes := (fun _ _ _ => True).
Notation yes6 := (fun _ _ _ _ _ _ => True).

(** *** Capacity and time to live never change *)
Definition const s c n t w aw : Prop :=
  find_static s (ww_statics w) = Some c /\ exists a, slot (aw_caches aw) c = Some a /\ a_cap a = n /\ a_ttl a = t.

Lemma insert_cap k v t a : a_cap (snd (insert_c E k v t a)) = a_cap a.
Proof. unfold insert_c. destruct (Nat.eqb (a_cap a) 0), (lookup_ent E k (a_ents a)); auto. Qed.

Lemma const_steps s0 c0 n t : steps (const s0 c0 n t) yes yes6 any.
Proof.
  constructor; unfold any; auto.
  - intros w aw o cat ttl cap x aw' I (Hs & a & Ha & H) Sn _ _ _ C _. split.
    + apply (we_static (wext_static (length (aw_caches aw)) x Sn)). exact Hs.
    + exists a. rewrite C. rewrite slot_app_lt by (eapply slot_lt; eauto). auto.
  - intros w aw i o cat k c a e x aw' l w0 aw0 I (Hs & a0 & Ha0 & H) Ho _ _ Sc Ha SV I' C _.
    split; auto. split; auto. rewrite C. destruct (Nat.eq_dec c c0) as [->|N].
    + rewrite (slot_upd_same _ _ _ Ha). exists (bump E k e a). replace a with a0 by congruence. auto.
    + rewrite slot_upd_other by auto. eauto.
  - intros w aw o cat k c a x aw' _ (Hs & a0 & Ha0 & H) Sc Ha SV I' C _.
    split; auto. rewrite C. eauto.
  - intros w aw i o cat k c a m v x aw' l w0 aw0 w1 aw1 a1 I (Hs & a0 & Ha0 & H) Ho _ _ _ _ _ _ _ _ _ Sc Ha My I' C _ _.
    split; auto. split; auto. rewrite C. destruct (Nat.eq_dec c c0) as [->|N].
    + rewrite (slot_upd_same _ _ _ Ha). eexists. split; [reflexivity|].
      rewrite insert_cap, insert_ttl. replace a with a0 by congruence. auto.
    + rewrite slot_upd_other by auto. eauto.
Qed.

(** *** Caches that are not used *)
Definition untouched s c a0 A0 w aw : Prop :=
  (exists l, ww_asked w = l ++ A0) /\ find_static s (ww_statics w) = Some c /\
  forall l, ww_asked w = l ++ A0 -> (forall k', ~ In (s, k') l) -> slot (aw_caches aw) c = Some a0.

Lemma asked_in s k w w0 l A0 : (exists l, ww_asked w0 = l ++ A0) -> ww_asked w = l ++ (s, k) :: ww_asked w0 ->
  forall l', ww_asked w = l' ++ A0 -> In (s, k) l'.
Proof.
  intros (l0 & Q0) Q l' Q'. rewrite Q, Q0 in Q'.
  change ((s, k) :: l0 ++ A0) with (((s, k) :: l0) ++ A0) in Q'. rewrite app_assoc in Q'. apply app_inv_tail in Q'.
  subst l'. apply in_or_app. right. left. auto.
Qed.

Lemma untouched_steps s0 c0 a0 A0 : steps (untouched s0 c0 a0 A0) yes yes6 any.
Proof.
  constructor; unfold any; auto.
  - intros w aw i o cat k I ((l & Q) & Hs & H) Ho. split; [|split; auto].
    + exists ((static_of o cat, k) :: l). simpl. rewrite Q. auto.
    + intros l' Q' N. simpl in Q'. apply (H l); auto. intros k' J. apply (N k').
      rewrite Q in Q'. change ((static_of o cat, k) :: l ++ A0) with (((static_of o cat, k) :: l) ++ A0) in Q'.
      apply app_inv_tail in Q'. subst l'. right. auto.
  - intros w aw o cat ttl cap x aw' I (Q & Hs & H) Sn _ _ _ C _. split; [auto|split].
    + apply (we_static (wext_static (length (aw_caches aw)) x Sn)). exact Hs.
    + intros l Ql N. specialize (H l Ql N). rewrite C. rewrite slot_app_lt by (eapply slot_lt; eauto). auto.
  - intros w aw i o cat k c a e x aw' l w0 aw0 I (Q & Hs & H) Ho (Q0 & _) Qw Sc Ha SV I' C _.
    split; auto. split; [auto|split; [auto|]]. intros l' Q' N. rewrite C.
    destruct (Nat.eq_dec c c0) as [->|Nc].
    + exfalso. apply (N k). rewrite (wi_inj I Hs Sc). eapply asked_in; eauto.
    + rewrite slot_upd_other by auto. eauto.
  - intros w aw o cat k c a x aw' _ (Q & Hs & H) Sc Ha SV I' C _. split; [auto|split; [auto|]].
    rewrite C. auto.
  - intros w aw i o cat k c a m v x aw' l w0 aw0 w1 aw1 a1 I (Q & Hs & H) Ho (Q0 & _) _ _ A1 _ _ _ _ A2 Sc Ha My I' C _ _.
    split; auto. split; [auto|split; [auto|]]. intros l' Q' N. rewrite C.
    destruct (Nat.eq_dec c c0) as [->|Nc].
    + exfalso. apply (N k). rewrite (wi_inj I Hs Sc). rewrite A1 in A2. eapply asked_in with (w := w); eauto.
    + rewrite slot_upd_other by auto. eauto.
Qed.

(** *** After a call *)
Definition latest i cat k v w aw : Prop := forall o, closure w i o ->
  exists c a, find_static (static_of o cat) (ww_statics w) = Some c /\ slot (aw_caches aw) c = Some a /\
    (a_cap a = 0 \/ exists l e, a_ents a = l ++ [e] /\ key_equal E k (e_key e) = true /\ e_val e = v).
Lemma latest_steps : steps (fun _ _ => True) yes latest any.
Proof.
  constructor; unfold any; auto.
  - intros w aw i o cat k c a e x aw' l w0 aw0 I _ Ho _ _ Sc Ha SV I' C _. split; auto. split; auto.
    intros o' Ho'. change (closure w i o') in Ho'. red in Ho, Ho'. replace o' with o by congruence.
    exists c, (bump E k e a). split; [exact Sc|]. split; [rewrite C; apply (slot_upd_same _ _ _ Ha)|].
    right. exists (remove_ent E k (a_ents a)), e. split; auto. split; auto.
    apply served_lookup in SV as (L & _). apply lookup_some_in in L. tauto.
  - intros w aw i o cat k c a m v x aw' l w0 aw0 w1 aw1 a1 I _ Ho _ _ _ _ _ _ _ _ _ Sc Ha My I' C _ _. split; auto. split; auto.
    intros o' Ho'. change (closure w i o') in Ho'. red in Ho, Ho'. replace o' with o by congruence.
    exists c, (snd (insert_c E k v (stamp E a aw) a)). split; [exact Sc|].
    split; [rewrite C; apply (slot_upd_same _ _ _ Ha)|]. rewrite insert_cap. unfold insert_c.
    destruct (Nat.eqb_spec (a_cap a) 0) as [Z|Z]; [auto|right].
    destruct (lookup_ent E k (a_ents a)) as [e|] eqn:L; simpl.
    + exists (remove_ent E k (a_ents a)), (Ent (e_key e) v (e_time e)). split; auto. split; auto.
      apply lookup_some_in in L. tauto.
    + rewrite lastn_snoc by auto. do 2 eexists. split; [reflexivity|]. simpl. rewrite ke_refl; auto.
Qed.

(** *** Pigeonholes *)
Lemma pigeon (l : list entry) : forall others, dkeys E l ->
  (forall e, In e l -> exists j, In j others /\ key_equal E j (e_key e) = true) -> length l <= length others.
Proof.
  induction l as [|e l IH]; intros others D H; simpl; [lia|]. destruct D as (Fa & D).
  destruct (H e (or_introl eq_refl)) as (j & Ij & Kj).
  apply in_split in Ij as (o1 & o2 & ->).
  assert (L : length l <= length (o1 ++ o2)).
  { apply IH; auto. intros e' Ie. destruct (H e' (or_intror Ie)) as (j' & Ij' & Kj').
    exists j'. split; auto. apply in_app_or in Ij' as [Ij'|[->|Ij']]; apply in_or_app; auto.
    exfalso. rewrite Forall_forall in Fa. specialize (Fa e' Ie).
    rewrite (good_sym G) in Kj. rewrite (good_trans G _ _ _ Kj Kj') in Fa. discriminate. }
  rewrite app_length in *. simpl. lia.
Qed.

Lemma remove_mid k (l1 : list entry) e l2 : key_equal E k (e_key e) = false ->
  remove_ent E k (l1 ++ e :: l2) = remove_ent E k l1 ++ e :: remove_ent E k l2.
Proof. intros H. unfold remove_ent. rewrite filter_app. simpl. rewrite H. auto. Qed.

(** *** Results that stay *)
Section Stay.
Variables (s0 : static) (c0 n : nat) (ttl : option Z) (A0 : list (static * K)) (k0 : K) (v0 : V) (t0 : Z) (others : list K).
Hypothesis room : length others < n.
Let st m := stale E ttl (Ent k0 v0 t0) m.
Hypothesis st_mono : forall m m', m <= m' -> st m = true -> st m' = true.

Definition ok k' : Prop := exists j, In j (k0 :: others) /\ key_equal E j k' = true.
Definition in_use (l : list entry) : Prop := forall e, In e l -> exists j, In j others /\ key_equal E j (e_key e) = true.
Definition held a m : Prop :=
  exists e l1 l2, a_ents a = l1 ++ e :: l2 /\ key_equal E k0 (e_key e) = true /\ e_time e = t0 /\
    (e_val e = v0 \/ st m = true) /\ in_use l2.
Definition stays w aw : Prop :=
  (exists l, ww_asked w = l ++ A0) /\ find_static s0 (ww_statics w) = Some c0 /\
  exists a, slot (aw_caches aw) c0 = Some a /\ a_cap a = n /\ a_ttl a = ttl /\
    forall l, ww_asked w = l ++ A0 -> (forall k', In (s0, k') l -> ok k') -> held a (aw_reads aw).

Lemma held_mono a m m' : m <= m' -> held a m -> held a m'.
Proof.
  intros L (e & l1 & l2 & H1 & H2 & H3 & H4 & H5). exists e, l1, l2. split; auto. split; auto. split; auto. split; auto.
  destruct H4; auto. right. eapply st_mono; eauto.
Qed.
Lemma st_stale e m : e_time e = t0 -> stale E ttl e m = st m.
Proof. intros H. unfold st, stale. simpl. rewrite H. auto. Qed.
Lemma ke_false k1 k2 k3 : key_equal E k1 k2 = true -> key_equal E k1 k3 = false -> key_equal E k2 k3 = false.
Proof.
  intros H1 H2. destruct (key_equal E k2 k3) eqn:X; auto. rewrite (good_trans G _ _ _ H1 X) in H2. discriminate.
Qed.
Lemma in_use_remove k l : in_use l -> in_use (remove_ent E k l).
Proof. intros H e I. apply filter_In in I. apply H. tauto. Qed.
Lemma in_use_snoc l e : in_use l -> (exists j, In j others /\ key_equal E j (e_key e) = true) -> in_use (l ++ [e]).
Proof. intros H J e' I. apply in_app_or in I as [I|[<-|[]]]; auto. Qed.
Lemma ok_other k : ok k -> key_equal E k0 k = false -> exists j, In j others /\ key_equal E j k = true.
Proof. intros (j & [<-|I] & Q) N; [congruence|eauto]. Qed.

(** Moving element [x], found by [k], to the end. *)
Lemma held_move a m k x y : dkeys E (a_ents a) -> ok k -> held a m -> lookup_ent E k (a_ents a) = Some x ->
  e_key y = e_key x -> e_time y = e_time x ->
  (key_equal E k0 k = true -> e_val y = e_val x \/ st m = true) -> held (bump E k y a) m.
Proof.
  intros D Ok (e & l1 & l2 & H1 & H2 & H3 & H4 & H5) L Qk Qt Hv.
  destruct (key_equal E k0 k) eqn:Kk.
  - assert (x = e).
    { apply lookup_some_in in L as (Ix & Kx).
      assert (X : lookup_ent E k (a_ents a) = Some x) by (apply (in_lookup G); auto).
      assert (Y : lookup_ent E k (a_ents a) = Some e).
      { apply (in_lookup G); auto. rewrite H1. apply in_or_app; right; left; auto.
        rewrite (good_sym G) in Kk. eapply (good_trans G); eauto. }
      congruence. }
    subst x. exists y, (remove_ent E k (a_ents a)), []. split; auto. split; [congruence|]. split; [congruence|].
    split; [|intros ? []]. destruct (Hv eq_refl) as [->|]; auto.
  - exists e, (remove_ent E k l1), (remove_ent E k l2 ++ [y]). split.
    { simpl. rewrite H1, remove_mid.
      - rewrite <- app_assoc. auto.
      - rewrite (good_sym G). eapply ke_false; eauto. }
    split; auto. split; auto. split; auto. apply in_use_snoc; [apply in_use_remove; auto|].
    apply lookup_some_in in L as (Ix & Kx). rewrite Qk.
    destruct (ok_other Ok Kk) as (j & Ij & Kj). exists j. split; auto. eapply (good_trans G); eauto.
Qed.

Lemma held_insert a m k v t : dkeys E (a_ents a) -> a_cap a = n -> ok k -> held a m ->
  (key_equal E k0 k = true -> st m = true) -> held (snd (insert_c E k v t a)) m.
Proof.
  intros D Cn Ok Hd Hs. unfold insert_c. destruct (Nat.eqb_spec (a_cap a) 0) as [Z|Z]; [lia|].
  destruct (lookup_ent E k (a_ents a)) as [x|] eqn:L; simpl snd.
  - eapply held_move; eauto.
  - assert (Dn : dkeys E (a_ents a ++ [Ent k v t])) by (apply dkeys_snoc; auto).
    destruct Hd as (e & l1 & l2 & H1 & H2 & H3 & H4 & H5).
    assert (Kk : key_equal E k0 k = false).
    { destruct (key_equal E k0 k) eqn:X; auto. exfalso.
      rewrite (in_lookup G (e := e)) in L; auto; [discriminate| |].
      - rewrite H1. apply in_or_app; right; left; auto.
      - rewrite (good_sym G) in X. eapply (good_trans G); eauto. }
    assert (U : in_use (l2 ++ [Ent k v t])) by (apply in_use_snoc; auto; simpl; apply ok_other; auto).
    rewrite H1 in Dn. rewrite <- app_assoc in Dn. simpl in Dn.
    assert (Le : length (l2 ++ [Ent k v t]) <= length others).
    { apply pigeon; auto. apply dkeys_app_r in Dn. simpl in Dn. tauto. }
    exists e, (skipn (length (a_ents a ++ [Ent k v t]) - n) l1), (l2 ++ [Ent k v t]).
    split; [|auto]. simpl. rewrite Cn, H1. rewrite <- app_assoc. simpl. unfold lastn.
    rewrite skipn_app. f_equal.
    replace (length (l1 ++ e :: l2 ++ [Ent k v t]) - n - length l1) with 0; [auto|].
    rewrite (app_length l1). simpl. lia.
Qed.

Lemma ok_asked s k w w0 l : (exists l, ww_asked w0 = l ++ A0) -> ww_asked w = l ++ (s, k) :: ww_asked w0 -> s = s0 ->
  forall l', ww_asked w = l' ++ A0 -> (forall k', In (s0, k') l' -> ok k') -> ok k.
Proof. intros H Q -> l' Q' A. apply A. eapply asked_in; eauto. Qed.

Lemma stays_steps : steps stays yes yes6 any.
Proof.
  constructor; unfold any; auto.
  - intros w aw i o cat k I ((l & Q) & Hs & a & Ha & Cn & Tt & H) Ho. split; [|split; auto].
    + exists ((static_of o cat, k) :: l). simpl. rewrite Q. auto.
    + exists a. split; auto. split; auto. split; auto. intros l' Q' N. simpl in Q'. apply (H l); auto. intros k' J. apply (N k').
      rewrite Q in Q'. change ((static_of o cat, k) :: l ++ A0) with (((static_of o cat, k) :: l) ++ A0) in Q'.
      apply app_inv_tail in Q'. subst l'. right. auto.
  - intros w aw o cat ttl' cap x aw' I (Q & Hs & a & Ha & Cn & Tt & H) Sn _ _ _ C Rd. split; [auto|split].
    + apply (we_static (wext_static (length (aw_caches aw)) x Sn)). exact Hs.
    + exists a. rewrite C, Rd. rewrite slot_app_lt by (eapply slot_lt; eauto). auto.
  - intros w aw i o cat k c a' e x aw' l w0 aw0 I (Q & Hs & a & Ha & Cn & Tt & H) Ho (Q0 & _) Qw Sc Ha' SV I' C Rd.
    split; auto. split; [auto|split; [auto|]]. rewrite C.
    destruct (Nat.eq_dec c c0) as [->|Nc].
    + rewrite (slot_upd_same _ _ _ Ha). eexists. split; [reflexivity|]. replace a' with a in * by congruence.
      split; auto. split; auto. intros l' Q' N.
      assert (Ok : ok k) by (eapply ok_asked; eauto; symmetry; apply (wi_inj I Hs Sc)).
      apply (held_mono Rd). apply served_lookup in SV as (L & _). eapply held_move; eauto.
      eapply rel_dkeys; [apply (wi_rel I)|eauto].
    + rewrite slot_upd_other by auto. exists a. split; auto. split; auto. split; auto. intros l' Q' N.
      apply (held_mono Rd). eauto.
  - intros w aw o cat k c a' x aw' _ (Q & Hs & a & Ha & Cn & Tt & H) Sc Ha' SV I' C Rd. split; [auto|split; [auto|]].
    rewrite C. exists a. split; auto. split; auto. split; auto. intros l' Q' N. apply (held_mono Rd). eauto.
  - intros w aw i o cat k c a' m v x aw' l w0 aw0 w1 aw1 a1 I (Q & Hs & a & Ha & Cn & Tt & H) Ho (Q0 & _) I1
      ((l1 & Q1) & _ & a1' & Ha1 & Cn1 & Tt1 & H1) A1 Sc1 Ha1' SV Rd1 A2 Sc Ha' My I' C Rd _.
    split; auto. split; [auto|split; [auto|]]. rewrite C.
    destruct (Nat.eq_dec c c0) as [->|Nc].
    + rewrite (slot_upd_same _ _ _ Ha). eexists. split; [reflexivity|]. replace a' with a in * by congruence.
      rewrite insert_cap, insert_ttl. split; auto. split; auto. intros l' Q' N.
      assert (Ok : ok k).
      { pose proof A2 as A3. rewrite A1 in A3. eapply ok_asked; eauto; symmetry; apply (wi_inj I Hs Sc). }
      apply (held_mono Rd). apply held_insert; auto.
      * eapply rel_dkeys; [apply (wi_rel I)|eauto].
      * eauto.
      * intros Kk. apply (st_mono Rd1). replace a1 with a1' in * by congruence.
        assert (Hd : held a1' (aw_reads aw1)).
        { apply (H1 l1); auto. intros k' J. apply N. change (ww_asked w = l' ++ A0) in Q'.
          rewrite A2, Q1, app_assoc in Q'. apply app_inv_tail in Q'. subst l'. apply in_or_app; auto. }
        destruct Hd as (e & x1 & x2 & B1 & B2 & B3 & B4 & B5). unfold served_now in SV.
        assert (D1 : dkeys E (a_ents a1')).
        { eapply rel_dkeys; [apply (wi_rel I1)|eauto]. }
        rewrite (in_lookup G (e := e)) in SV; auto.
        -- rewrite Tt1, (st_stale _ B3) in SV. destruct (st (aw_reads aw1)); [auto|discriminate].
        -- rewrite B1. apply in_or_app; right; left; auto.
        -- rewrite (good_sym G) in Kk. eapply (good_trans G); eauto.
    + rewrite slot_upd_other by auto. exists a. split; auto. split; auto. split; auto. intros l' Q' N.
      apply (held_mono Rd). eauto.
Qed.
End Stay.

Lemma may_yes Q (b : fbody K V) r : may Q b r -> may yes b r.
Proof. induction 1; eauto using may_return, may_raise, may_ask, may_ask_raise. Qed.

(** *** Insertion times *)
Section Times.
Variables (s0 : static) (k0 : K) (m0 : nat).
Definition timed_from w aw : Prop := m0 <= aw_reads aw /\
  forall c a e, find_static s0 (ww_statics w) = Some c -> slot (aw_caches aw) c = Some a -> In e (a_ents a) ->
  key_equal E k0 (e_key e) = true -> a_ttl a <> None -> exists i, m0 <= i < aw_reads aw /\ e_time e = clock E i.

Lemma timed_steps : steps timed_from yes latest any.
Proof.
  constructor; unfold any; auto.
  - intros w aw o cat ttl' cap x aw' I (M & H) Sn _ _ _ C Rd. split; [lia|].
    intros c a e Hs Ha. rewrite C in Ha. rewrite Rd.
    change (find_static s0 ((static_of o cat, length (aw_caches aw)) :: ww_statics w) = Some c) in Hs.
    rewrite find_static_cons in Hs. destruct (static_eqb s0 (static_of o cat)).
    + inversion Hs; subst. rewrite slot_app_new in Ha. inversion Ha; subst. intros [].
    + destruct (wi_alive I Hs) as (b & Hb). rewrite slot_app_lt in Ha by (eapply slot_lt; eauto). eauto.
  - intros w aw i o cat k c a' e x aw' l w0 aw0 I (M & H) Ho _ Qw Sc Ha' SV I' C Rd.
    split; [|split; [auto|exact (proj2 (proj2 (P_hit latest_steps I Logic.I Ho (aw0 := aw) Logic.I Qw Sc Ha' SV I' C Rd)))]].
    split; [lia|]. intros d a e' Hs Ha He Ke Tt. rewrite C in Ha. apply served_lookup in SV as (L & _).
    apply lookup_some_in in L as (Ie & _). change (find_static s0 (ww_statics w) = Some d) in Hs.
    assert (X : exists i, m0 <= i < aw_reads aw /\ e_time e' = clock E i).
    { destruct (Nat.eq_dec c d) as [->|N].
      - rewrite (slot_upd_same _ _ _ Ha') in Ha. inversion Ha; subst a. eapply H; eauto. eapply in_bump; eauto.
      - rewrite slot_upd_other in Ha by auto. eapply H; eauto. }
    destruct X as (j & B & Q). exists j. split; auto. lia.
  - intros w aw o cat k c a' x aw' _ (M & H) Sc Ha' SV I' C Rd. split; [lia|].
    intros d a e' Hs Ha He Ke Tt. rewrite C in Ha.
    destruct (H d a e' Hs Ha He Ke Tt) as (j & B & Q). exists j. split; auto. lia.
  - intros w aw i o cat k c a' m v x aw' l w0 aw0 w1 aw1 a1 I (M & H) Ho _ I1 _ A1 Sc1 Ha1 SV1 Rd1 A2 Sc Ha' My I' C Rd Rt.
    split; [|split; [auto|exact (proj2 (proj2 (P_store latest_steps I Logic.I Ho (aw0 := aw) Logic.I I1 Logic.I A1 Sc1 Ha1 SV1 Rd1 A2 Sc Ha'
      (may_yes My) I' C Rd Rt)))]].
    split; [lia|]. intros d a e' Hs Ha He Ke Tt. rewrite C in Ha.
    change (find_static s0 (ww_statics w) = Some d) in Hs.
    destruct (Nat.eq_dec c d) as [->|N].
    + rewrite (slot_upd_same _ _ _ Ha') in Ha. inversion Ha; subst a. rewrite insert_ttl in Tt.
      apply insert_from in He as [(e & Ie & Qk & Qt)|(-> & L & Cz)].
      * rewrite <- Qk in Ke. destruct (H d a' e Hs Ha' Ie Ke Tt) as (j & B & Q). exists j. split; [lia|congruence].
      * exists (aw_reads aw). rewrite Rt. unfold insert_tk. destruct (Nat.eqb_spec (a_cap a') 0); [easy|]. rewrite L.
        simpl. unfold stamp. destruct (a_ttl a'); [|easy]. simpl. split; [lia|auto].
    + rewrite slot_upd_other in Ha by auto. destruct (H d a e' Hs Ha He Ke Tt) as (j & B & Q). exists j. split; auto. lia.
Qed.
End Times.

End Keep.
