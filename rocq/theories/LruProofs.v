(** Untimed caches: accesses, and the textbook machine of Spec.v. *)
From Coq Require Import List Arith ZArith Bool Permutation Lia.
Import ListNotations.
From Verif Require Import Monad Types Model Api Spec Ref Lists SimBase SimRel SimOps SimIns SimErase SimIter SimNew SimObs SimExec RefEval SimRun.
Set Implicit Arguments.
Unset Strict Implicit.
Local Open Scope cpp_scope.

Section Lru.
Context {K V : Type}.
Variable E : env K V.
Hypothesis G : good E.

Notation entry := (entry K V).
Notation world := (world K V).
Notation acache := (acache K V).
Notation aworld := (aworld K V).
Notation rel := (rel E).
Notation mp := (map (@pair_of K V)).
Implicit Types (w : world) (aw : aworld) (a : acache) (e : entry).

(** What holds of a cache by itself. *)
Record cinv a : Prop := {
  ci_keys : dkeys E (a_ents a);
  ci_len : length (a_ents a) <= a_cap a;
  ci_hot : a_hot a = true -> a_ents a <> []
}.
Lemma rel_cinv w aw c a : rel w aw -> slot (aw_caches aw) c = Some a -> cinv a.
Proof.
  intros R Ha. constructor;
  [eapply rel_dkeys|eapply rel_len_le|eapply rel_hot]; eauto.
Qed.

Lemma last_ent_app l e : last_ent (l ++ [e] : list entry) = Some e.
Proof. unfold last_ent. rewrite rev_app_distr; auto. Qed.
Lemma last_ent_split l e : last_ent (l : list entry) = Some e -> exists l', l = l' ++ [e].
Proof.
  unfold last_ent. intros H. destruct (rev l) as [|d m] eqn:Q; [discriminate|].
  inversion H; subst. exists (rev m). rewrite <- (rev_involutive l), Q. auto.
Qed.
Lemma hot_split a k e : a_hot_ent E a k = Some e ->
  a_hot a = true /\ key_equal E k (e_key e) = true /\ exists l, a_ents a = l ++ [e].
Proof.
  unfold a_hot_ent. destruct (a_hot a); [|discriminate].
  destruct (last_ent (a_ents a)) eqn:L; [|discriminate].
  destruct (key_equal E k (e_key e0)) eqn:Q; [|discriminate].
  intros H; inversion H; subst. apply last_ent_split in L. auto.
Qed.
Lemma hot_lookup a k e : cinv a -> a_hot_ent E a k = Some e -> lookup_ent E k (a_ents a) = Some e.
Proof.
  intros C H. apply hot_split in H as (Hh & Q & l & L). rewrite L. apply lookup_mid; auto.
  rewrite <- L. apply C.
Qed.
Lemma bump_last a k e l : dkeys E (a_ents a) -> a_ents a = l ++ [e] -> key_equal E k (e_key e) = true ->
  remove_ent E k (a_ents a) ++ [e] = a_ents a.
Proof.
  intros D L Q. rewrite L in *. rewrite remove_mid; auto. rewrite app_nil_r; auto.
Qed.
Lemma bump_hot a k e : cinv a -> a_hot_ent E a k = Some e -> bump E k e a = a.
Proof.
  intros C H. apply hot_split in H as (Hh & Q & l & L). unfold bump.
  erewrite bump_last; eauto; [|apply C]. apply set_ents_id; auto.
Qed.

Lemma hitw_caches a k v aw : aw_caches (hitw E a k v aw) = aw_caches aw.
Proof. reflexivity. Qed.

(** All accesses to an untimed cache do the same. *)
Lemma find_r_untimed aw c a k : a_ttl a = None ->
  find_r E aw c a k =
  match lookup_ent E k (a_ents a) with
  | None => (None, missw E a k aw)
  | Some e => (Some e, awith c (bump E k e a) (hitw E a k (e_val e) aw))
  end.
Proof. intros T. unfold find_r. rewrite T. simpl. auto. Qed.

Lemma contains_r_untimed aw c a k : a_ttl a = None -> cinv a -> slot (aw_caches aw) c = Some a ->
  contains_r E aw c a k =
  (match fst (find_r E aw c a k) with Some _ => true | None => false end, snd (find_r E aw c a k)).
Proof.
  intros T C Ha. unfold contains_r. destruct (a_hot_ent E a k) as [e|] eqn:H; auto.
  rewrite find_r_untimed, (hot_lookup C H) by auto. simpl. rewrite T. simpl.
  rewrite (bump_hot C H). f_equal. symmetry. apply awith_same. auto.
Qed.
Lemma lookup_r_untimed aw c a k : a_ttl a = None -> cinv a -> slot (aw_caches aw) c = Some a ->
  lookup_r E aw c a k =
  match find_r E aw c a k with
  | (None, aw') => Exc KeyNotFound aw'
  | (Some e, aw') => Val e aw'
  end.
Proof.
  intros T C Ha. unfold lookup_r. destruct (a_hot_ent E a k) as [e|] eqn:H.
  - rewrite find_r_untimed, (hot_lookup C H) by auto. simpl. rewrite T. simpl.
    rewrite (bump_hot C H). f_equal. symmetry. apply awith_same. auto.
  - destruct (find_r E aw c a k) as ([e|] & aw'); auto. rewrite T. auto.
Qed.

(** Invariants of a cache under insertion. *)
Lemma dkeys_remove k l : dkeys E l -> dkeys E (remove_ent E k l).
Proof.
  induction l as [|x l IH]; simpl; auto. intros (F & D).
  destruct (key_equal E k (e_key x)); simpl; auto. split; auto.
  rewrite Forall_forall in *. intros y I. apply filter_In in I as (I & _). auto.
Qed.
Lemma dkeys_snoc l e : dkeys E l -> lookup_ent E (e_key e) l = None -> dkeys E (l ++ [e]).
Proof.
  intros D L. apply (dkeys_mid G). rewrite app_nil_r. split; auto.
  apply lookup_none_forall; auto.
Qed.
Lemma lookup_removed k l : dkeys E l -> lookup_ent E k (remove_ent E k l) = None.
Proof.
  intros _. apply lookup_none_forall, Forall_forall. intros x I.
  apply filter_In in I as (_ & I). destruct (key_equal E k (e_key x)); easy.
Qed.
Lemma lookup_keq k k' l : key_equal E k k' = true -> lookup_ent E k l = lookup_ent E k' l.
Proof.
  intros Q. unfold lookup_ent. induction l as [|x l IH]; simpl; auto.
  rewrite (keq_cong G _ _ _ Q), IH. auto.
Qed.
Lemma dkeys_bump k l e : dkeys E l -> key_equal E k (e_key e) = true ->
  dkeys E (remove_ent E k l ++ [e]).
Proof.
  intros D Q. apply dkeys_snoc; [apply dkeys_remove; auto|].
  rewrite <- (lookup_keq (k := k)) by auto. apply lookup_removed; auto.
Qed.
Lemma dkeys_lastn n l : dkeys E l -> dkeys E (lastn n l).
Proof.
  intros D. unfold lastn. rewrite <- (firstn_skipn (length l - n) l) in D.
  eapply dkeys_app_r; eauto.
Qed.
Lemma lastn_length {A} n (l : list A) : length (lastn n l) = Nat.min n (length l).
Proof. unfold lastn. rewrite skipn_length. lia. Qed.
Lemma remove_length k l e : dkeys E l -> lookup_ent E k l = Some e ->
  S (length (remove_ent E k l)) = length l.
Proof.
  intros D L. apply lookup_split in L as (x & y & -> & Q). rewrite (remove_mid G) by auto.
  rewrite !app_length; simpl; lia.
Qed.
Lemma lookup_key k l e : lookup_ent E k l = Some e -> key_equal E k (e_key e) = true.
Proof. intros L. apply find_some in L as (_ & L). auto. Qed.

Lemma lastn_snoc {A} n (l : list A) x : n <> 0 -> lastn n (l ++ [x]) = lastn (n - 1) l ++ [x].
Proof.
  intros N. unfold lastn. rewrite app_length. simpl.
  replace (length l + 1 - n) with (length l - (n - 1)) by lia.
  rewrite skipn_app. replace (length l - (n - 1) - length l) with 0 by lia. auto.
Qed.

Lemma insert_cinv k v t a : cinv a -> cinv (snd (insert_c E k v t a)).
Proof.
  intros C. unfold insert_c. destruct (Nat.eqb_spec (a_cap a) 0) as [Z|Z]; auto.
  destruct (lookup_ent E k (a_ents a)) as [e|] eqn:L; constructor; simpl.
  - apply dkeys_bump; [apply C|]. simpl. eapply lookup_key; eauto.
  - rewrite app_length; simpl. pose proof (ci_len C). pose proof (remove_length (ci_keys C) L). lia.
  - intros _ Q. destruct (remove_ent E k (a_ents a)); discriminate.
  - apply dkeys_lastn, dkeys_snoc; auto. apply C.
  - rewrite lastn_length. lia.
  - intros _ Q. rewrite lastn_snoc in Q by auto.
    destruct (lastn (a_cap a - 1) (a_ents a)); discriminate.
Qed.

(* ---------------------------------------------------------------- *)
(** ** The textbook machine *)

Definition lmatch a (s : lru) : Prop :=
  a_ttl a = None /\ lcap s = a_cap a /\ items s = rev (mp (a_ents a)).

Lemma look_rev k l : dkeys E l -> look E k (rev (mp l)) = option_map pair_of (lookup_ent E k l).
Proof.
  intros D. rewrite <- map_rev. rewrite look_map. f_equal. unfold lookup_ent.
  symmetry. apply find_perm; [|apply Permutation_rev].
  intros x y Ix Iy Qx Qy.
  apply in_split in Ix as (l1 & l2 & ->). apply (dkeys_mid G) in D as (_ & F).
  rewrite Forall_forall in F. apply in_app_or in Iy.
  assert (I : x = y \/ In y (l1 ++ l2)).
  { destruct Iy as [I|[I|I]]; auto; right; apply in_or_app; auto. }
  destruct I as [I|I]; auto. apply F in I.
  rewrite (keq_cong G _ _ _ Qx) in Qy. congruence.
Qed.
Lemma without_rev k l : without E k (rev (mp l)) = rev (mp (remove_ent E k l)).
Proof.
  rewrite <- without_map. unfold without. induction (mp l) as [|p m IH]; simpl; auto.
  rewrite filter_app, IH. simpl. destruct (key_equal E k (fst p)); simpl; auto. apply app_nil_r.
Qed.
Lemma has_rev k l : dkeys E l -> has E k (rev (mp l)) =
  match lookup_ent E k l with Some _ => true | None => false end.
Proof. intros D. rewrite has_look, look_rev by auto. destruct (lookup_ent E k l); auto. Qed.
Lemma firstn_rev_lastn {A} n (l : list A) : firstn n (rev l) = rev (lastn n l).
Proof.
  unfold lastn. rewrite firstn_rev. auto.
Qed.
Lemma rev_take n l : firstn n (rev (mp l)) = rev (mp (lastn n l)).
Proof. rewrite firstn_rev_lastn, <- newest_lastn, newest_map. auto. Qed.

Lemma lput_match k v t a s : cinv a -> lmatch a s ->
  fst (lput E k v s) = (fst (fst (insert_c E k v t a)),
                        option_map pair_of (snd (fst (insert_c E k v t a)))) /\
  lmatch (snd (insert_c E k v t a)) (snd (lput E k v s)).
Proof.
  intros C (T & M1 & M2). unfold lput, insert_c. rewrite M1.
  destruct (Nat.eqb (a_cap a) 0); [split; [auto|split; auto]|].
  rewrite M2, look_rev by apply C.
  destruct (lookup_ent E k (a_ents a)) as [e|] eqn:L; simpl.
  - split; auto. split; [auto|]. simpl. split; auto.
    rewrite map_app, rev_app_distr. simpl. rewrite without_rev. auto.
  - split; auto. split; [auto|]. split; auto. simpl.
    rewrite <- (rev_take (a_cap a)). rewrite map_app, rev_app_distr. auto.
Qed.

Lemma lputs_match l : forall n c a aw s, cinv a -> lmatch a s -> slot (aw_caches aw) c = Some a ->
  let r := inserts_r E c l n a aw in
  fst (fst r) = n + fst (lputs E l s) /\ cinv (snd (fst r)) /\
  lmatch (snd (fst r)) (snd (lputs E l s)).
Proof.
  induction l as [|[k v] l IH]; intros n c a aw s C M Ha; simpl.
  - split; [lia|auto].
  - destruct (lput_match k v (stamp E a aw) C M) as (H1 & H2).
    destruct (lput E k v s) as ((b & p) & s1) eqn:P. simpl in H1, H2.
    inversion H1; subst b p.
    edestruct (IH (if fst (fst (insert_c E k v (stamp E a aw) a)) then S n else n)
                  c _ (awith c (snd (insert_c E k v (stamp E a aw) a)) (insert_tk E k a aw))
                  s1 (insert_cinv k v (stamp E a aw) C) H2)
      as (I1 & I2 & I3).
    { eapply awith_get. rewrite insert_tk_caches; eauto. }
    destruct (lputs E l s1) as (m & s2). simpl in *. split; [|auto].
    destruct (fst (fst (insert_c E k v (stamp E a aw) a))); lia.
Qed.

(** One call: reference machine and textbook. *)
Definition lsim (c : nat) (r : res aworld (out K V)) (x : lcall) (t : option (outcome K V * lru)) : Prop :=
  match t with
  | None => r = Term EmptyCache
  | Some (Returned o, s') => exists o' aw' a', r = Val o' aw' /\ agree x (Returned o') (Returned o) /\
      slot (aw_caches aw') c = Some a' /\ lmatch a' s'
  | Some (Threw e, s') => exists aw' a', r = Exc e aw' /\
      slot (aw_caches aw') c = Some a' /\ lmatch a' s'
  end.

Lemma bump_match a s k e : lmatch a s -> cinv a -> lookup_ent E k (a_ents a) = Some e ->
  lmatch (bump E k e a) (Lru (lcap s) (pair_of e :: without E k (items s))).
Proof.
  intros (T & M1 & M2) C L. split; [auto|]. simpl. split; auto.
  rewrite map_app, rev_app_distr, M2, without_rev. auto.
Qed.

Lemma remove_match a s k h : lmatch a s ->
  lmatch (set_ents (remove_ent E k (a_ents a)) h a) (ldel E k s).
Proof.
  intros (T & M1 & M2). split; [auto|]. simpl. split; auto. rewrite M2, without_rev. auto.
Qed.
Lemma take_match a s n h : lmatch a s -> lmatch (set_ents (lastn n (a_ents a)) h a) (ltake n s).
Proof.
  intros (T & M1 & M2). split; [auto|]. simpl. split; auto. rewrite M2, rev_take. auto.
Qed.

Lemma lget_match aw c a s k : lmatch a s -> cinv a -> slot (aw_caches aw) c = Some a ->
  fst (lget E k s) = option_map pair_of (fst (find_r E aw c a k)) /\
  exists a', slot (aw_caches (snd (find_r E aw c a k))) c = Some a' /\ lmatch a' (snd (lget E k s)) /\
  cinv a'.
Proof.
  intros M C Ha. pose proof M as (T & M1 & M2). rewrite find_r_untimed by auto. unfold lget.
  rewrite M2, look_rev by apply C. destruct (lookup_ent E k (a_ents a)) as [e|] eqn:L; simpl.
  - split; auto. erewrite slot_upd_same by eauto. eexists; split; [reflexivity|].
    split; [rewrite <- M2; apply bump_match; auto|].
    constructor; simpl.
    + apply dkeys_bump; [apply C|]. eapply lookup_key; eauto.
    + rewrite app_length; simpl. pose proof (ci_len C). pose proof (remove_length (ci_keys C) L). lia.
    + intros _ Q. destruct (remove_ent E k (a_ents a)); discriminate.
  - split; auto. eexists; split; [eauto|]. split; auto.
Qed.

Ltac start c Ha :=
  unfold aexec; cbn [on a_well_formed]; try rewrite (slot_alive Ha); cbn [abody].
Ltac getc Ha := erewrite bind_val by (apply a_get_ev; exact Ha).

Lemma lassign_sim aw c a s l x : (forall o : out K V, agree x (Returned o) (Returned o)) ->
  lmatch a s -> cinv a -> slot (aw_caches aw) c = Some a ->
  lsim c ((a_assign E c l;;; ret RUnit) aw) x (Some (Returned RUnit, lassign E l s)).
Proof.
  intros Ax M C Ha. pose proof M as (T & M1 & M2). unfold a_assign, lassign.
  rewrite bind_assoc. erewrite bind_val by (apply a_keep_ev; eauto).
  rewrite bind_assoc. erewrite bind_val by (apply a_get_ev; eapply awith_get; eauto).
  rewrite bind_assoc. erewrite bind_val by (apply a_setcap_ev; eapply awith_get; eauto).
  rewrite bind_assoc.
  match goal with |- context [bind (a_insert_range E c l) _ ?w1] => set (aw1 := w1) end.
  set (n := Nat.max (a_cap a) (length l)).
  set (a1 := MkA (@nil entry) false n (a_stats a) (a_cbs a) (a_ttl a)).
  assert (Q : lastn 0 (a_ents a) = []).
  { unfold lastn. rewrite Nat.sub_0_r. apply skipn_all. }
  assert (H1 : slot (aw_caches aw1) c = Some a1).
  { unfold aw1. erewrite awith_get by (eapply awith_get; eauto). simpl. unfold a1. rewrite Q; auto. }
  assert (C1 : cinv a1) by (constructor; simpl; auto; [lia|discriminate]).
  assert (N1 : lmatch a1 (Lru (Nat.max (lcap s) (length l)) [])).
  { split; auto. simpl. rewrite M1; auto. }
  unfold a_insert_range. erewrite bind_val by (apply a_inserts_ev; eauto). rewrite bind_ret.
  destruct (lputs_match l 0 C1 N1 H1) as (_ & _ & H3).
  eexists _, _, _. split; [reflexivity|]. split; [apply Ax|]. split; [apply inserts_get; auto|]. auto.
Qed.

Lemma lstep_sim w aw c a s x : rel w aw -> slot (aw_caches aw) c = Some a -> lmatch a s ->
  lsim c (aexec E 0 (on c x) aw) x (lstep E x s).
Proof.
  intros R Ha M. pose proof (rel_cinv R Ha) as C. pose proof (rel_st R Ha) as St.
  pose proof M as (T & M1 & M2).
  assert (Hrev : rev (items s) = mp (a_ents a)) by (rewrite M2; apply rev_involutive).
  assert (Hlen : length (items s) = length (a_ents a)) by (rewrite M2, rev_length, map_length; auto).
  destruct x; start c Ha; cbn [lstep].
  - (* insert *) destruct (lput_match k v (stamp E a aw) C M) as (H1 & H2).
    destruct (lput E k v s) as ((b & p) & s'). simpl in H1, H2. inversion H1; subst.
    erewrite bind_val by (apply a_insert_ev; eauto).
    eexists _, _, _. split; [reflexivity|]. split; [reflexivity|]. split; [|eauto].
    eapply awith_get. rewrite insert_tk_caches; eauto.
  - (* emplace *) destruct (lput_match k v (stamp E a aw) C M) as (H1 & H2).
    destruct (lput E k v s) as ((b & p) & s'). simpl in H1, H2. inversion H1; subst.
    erewrite bind_val by (apply a_insert_ev; eauto).
    eexists _, _, _. split; [reflexivity|]. split; [reflexivity|]. split; [|eauto].
    eapply awith_get. rewrite insert_tk_caches; eauto.
  - (* insert range *) destruct (lputs_match l 0 C M Ha) as (H1 & H2 & H3).
    destruct (lputs E l s) as (m & s') eqn:P. simpl in H1, H3.
    unfold a_insert_range. erewrite bind_val by (apply a_inserts_ev; eauto).
    eexists _, _, _. split; [reflexivity|]. split; [rewrite H1; reflexivity|]. split; [|eauto].
    apply inserts_get; auto.
  - (* insert move *) destruct (lputs_match l 0 C M Ha) as (H1 & H2 & H3).
    destruct (lputs E l s) as (m & s') eqn:P. simpl in H1, H3.
    unfold a_insert_range. erewrite bind_val by (apply a_inserts_ev; eauto).
    eexists _, _, _. split; [reflexivity|]. split; [rewrite H1; reflexivity|]. split; [|eauto].
    apply inserts_get; auto.
  - (* assign *) eapply lassign_sim; eauto; reflexivity.
  - (* assign move *) eapply lassign_sim; eauto; reflexivity.
  - (* find *) destruct (lget_match k M C Ha) as (H1 & a' & H2 & H3 & _).
    destruct (lget E k s) as (p & s'). simpl in H1, H3. subst p.
    erewrite bind_val by (apply a_find_ev; eauto).
    eexists _, _, _. split; [reflexivity|]. split; [reflexivity|]. eauto.
  - (* contains *) destruct (lget_match k M C Ha) as (H1 & a' & H2 & H3 & _).
    destruct (lget E k s) as (p & s'). simpl in H1, H3. subst p.
    erewrite bind_val by (apply a_contains_ev; eauto).
    rewrite contains_r_untimed by auto.
    eexists _, _, _. split; [reflexivity|]. split; [|eauto].
    simpl. destruct (fst (find_r E aw c a k)); auto.
  - (* lookup *) destruct (lget_match k M C Ha) as (H1 & a' & H2 & H3 & _).
    destruct (lget E k s) as (p & s'). simpl in H1, H3. subst p.
    unfold bind. erewrite a_lookup_ev by eauto. rewrite lookup_r_untimed by auto.
    destruct (find_r E aw c a k) as ([e|] & aw'); simpl in *; eauto.
    eexists _, _, _. split; [reflexivity|]. split; [reflexivity|]. eauto.
  - (* write *) destruct (lget_match k M C Ha) as (H1 & a' & H2 & H3 & C').
    destruct (lget E k s) as (p & s') eqn:P. simpl in H1, H3. subst p.
    unfold bind at 1. erewrite a_lookup_ev by eauto. rewrite lookup_r_untimed by auto.
    destruct (find_r E aw c a k) as ([e|] & aw'); simpl in *; eauto.
    getc H2. erewrite bind_val by (apply a_ents_put_ev; eauto).
    eexists _, _, _. split; [reflexivity|]. split; [reflexivity|].
    split; [eapply awith_get; eauto|]. destruct H3 as (T' & N1 & N2).
    split; [auto|]. simpl. split; auto.
    rewrite map_app, rev_app_distr, N2, without_rev. auto.
  - (* erase *) rewrite M2, has_rev by apply C. unfold bind. erewrite a_erase_ev by eauto.
    destruct (lookup_ent E k (a_ents a)) eqn:L.
    + eexists _, _, _. split; [reflexivity|]. split; [reflexivity|]. split; [eapply awith_get; eauto|].
      apply remove_match; auto.
    + eexists _, _, _. split; [reflexivity|]. split; [reflexivity|]. split; [eauto|].
      split; auto. split; auto. simpl. rewrite M2, without_rev, (remove_absent _ _ _ L); auto.
  - (* erase found *) rewrite M2, has_rev by apply C.
    erewrite bind_val by (apply a_find_ev; eauto). rewrite find_r_untimed by auto.
    destruct (lookup_ent E k (a_ents a)) as [e|] eqn:L; simpl.
    + erewrite bind_val by (apply a_remove_ev; simpl; erewrite slot_upd_same by eauto; reflexivity).
      eexists _, _, _. split; [reflexivity|]. split; [reflexivity|].
      split; [eapply awith_get; simpl; erewrite slot_upd_same by eauto; reflexivity|].
      split; [auto|]. simpl. split; auto. rewrite M2, without_rev.
      rewrite remove_app. simpl. rewrite (good_refl G). simpl. rewrite app_nil_r.
      pose proof (lookup_key L) as Q.
      rewrite (remove_keq G (k := e_key e) (k' := k)); [|rewrite (good_sym G); auto].
      rewrite (remove_absent E k (remove_ent E k (a_ents a))); auto. apply lookup_removed, C.
    + eexists _, _. split; [reflexivity|]. split; [simpl; eauto|]. auto.
  - (* erase ordered *) rewrite Hrev. getc Ha. rewrite nth_error_map.
    destruct (nth_error (a_ents a) n) as [e|] eqn:N; simpl.
    + rewrite T. erewrite bind_val by apply a_expired_none. cbv beta iota.
      erewrite bind_val by (apply a_remove_ev; eauto).
      eexists _, _, _. split; [reflexivity|]. split; [reflexivity|].
      split; [eapply awith_get; eauto|]. apply remove_match; auto.
    + eexists _, _. split; [reflexivity|]. split; [eauto|]. auto.
  - (* clear *) erewrite bind_val by (apply a_keep_ev; eauto).
    eexists _, _, _. split; [reflexivity|]. split; [reflexivity|]. split; [eapply awith_get; eauto|].
    apply take_match; auto.
  - erewrite bind_val by (apply a_keep_ev; eauto).
    eexists _, _, _. split; [reflexivity|]. split; [reflexivity|]. split; [eapply awith_get; eauto|].
    apply take_match; auto.
  - erewrite bind_val by (apply a_keep_ev; eauto).
    erewrite bind_val by (apply a_setcap_ev; eapply awith_get; eauto).
    eexists _, _, _. split; [reflexivity|]. split; [reflexivity|].
    split; [eapply awith_get; eapply awith_get; eauto|]. split; [auto|]. simpl. split; auto.
    rewrite M2, rev_take. auto.
  - getc Ha. eexists _, _, _. split; [reflexivity|]. split; [rewrite Hlen; reflexivity|]. eauto.
  - getc Ha. eexists _, _, _. split; [reflexivity|]. split; [rewrite M1; reflexivity|]. eauto.
  - getc Ha. eexists _, _, _. split; [reflexivity|]. split; [rewrite M1, Hlen; reflexivity|]. eauto.
  - getc Ha. eexists _, _, _. split; [reflexivity|]. split; [rewrite Hlen; reflexivity|]. eauto.
  - getc Ha. eexists _, _, _. split; [reflexivity|]. split; [rewrite M1, Hlen; reflexivity|]. eauto.
  - (* front *) unfold a_timed. rewrite Ha, T. cbn [andb negb]. unfold noexcept. getc Ha.
    rewrite M2, <- map_rev. unfold last_ent. destruct (rev (a_ents a)) as [|e l]; simpl; auto.
    eexists _, _, _. split; [reflexivity|]. split; [reflexivity|]. eauto.
  - (* back *) unfold a_timed. rewrite Ha, T. cbn [andb negb]. unfold noexcept. getc Ha.
    rewrite Hrev. destruct (a_ents a) as [|e l]; simpl; auto.
    eexists _, _, _. split; [reflexivity|]. split; [reflexivity|]. eauto.
  - getc Ha. eexists _, _, _. split; [reflexivity|]. split; [rewrite Hrev; reflexivity|]. eauto.
  - getc Ha. eexists _, _, _. split; [reflexivity|]. split; [rewrite M2; reflexivity|]. eauto.
  - getc Ha. eexists _, _, _. split; [reflexivity|]. split; [|eauto]. simpl.
    eexists _, _. split; [reflexivity|]. split; [reflexivity|]. rewrite M2. apply Permutation_rev.
  - getc Ha. rewrite Hrev, nth_error_map. destruct (nth_error (a_ents a) n) as [e|] eqn:N; simpl.
    + rewrite T. erewrite bind_val by apply a_expired_none. cbv beta iota.
      eexists _, _, _. split; [reflexivity|]. split; [reflexivity|]. eauto.
    + eauto.
  - getc Ha. rewrite Hlen. destruct (nth_error (a_ents a) n) as [e|] eqn:N; simpl.
    + rewrite T. erewrite bind_val by apply a_expired_none. cbv beta iota.
      eexists _, _, _. split; [reflexivity|]. split; [|eauto].
      simpl. assert (n < length (a_ents a)) by (apply nth_error_Some; congruence).
      destruct (Nat.ltb_spec n (length (a_ents a))); auto; lia.
    + eexists _, _, _. split; [reflexivity|]. split; [|eauto].
      simpl. apply nth_error_None in N. destruct (Nat.ltb_spec n (length (a_ents a))); auto; lia.
Qed.


Lemma lrun_cons x t s : lrun E (x :: t) s =
  match lstep E x s with
  | None => ([], None)
  | Some (r, s') => (r :: fst (lrun E t s'), snd (lrun E t s'))
  end.
Proof. simpl. destruct (lstep E x s) as [(r & s')|]; auto. destruct (lrun E t s'); auto. Qed.

Lemma on_copy_free c x : copy_free (on c x : op K V) = true.
Proof. destruct x; auto. Qed.
Lemma on_by_hash c x : by_hash (on c x : op K V) = false.
Proof. destruct x; auto. Qed.

Lemma agree_out c x r r' : @out_rel K V (on c x) r r' -> agree x (Returned r') (Returned r') ->
  forall q, agree x (Returned r') q -> agree x (Returned r) q.
Proof.
  destruct x; simpl; intros; subst; auto.
  destruct H as [->|(l & l' & -> & -> & P)]; auto.
  destruct H1 as (l1 & l2 & Q1 & -> & P'). inversion Q1; subst.
  eexists _, _; split; [reflexivity|]. split; [reflexivity|]. etransitivity; eauto.
Qed.
Lemma agree_refl_l x r q : @agree K V x r q -> agree x r r.
Proof.
  destruct x; simpl; auto. intros (l & l' & -> & -> & P). eexists _, _; split; [reflexivity|].
  split; [reflexivity|auto].
Qed.

Lemma lrun_sim calls : forall w aw c a s, rel w aw -> slot (aw_caches aw) c = Some a -> lmatch a s ->
  match lrun E calls s with
  | (answers, Some s') =>
      exists outs w' aw' a', run E (map (on c) calls) w = Finished outs w' /\ agrees calls outs answers /\
        rel w' aw' /\ slot (aw_caches aw') c = Some a' /\ lmatch a' s'
  | (answers, None) =>
      exists outs, run E (map (on c) calls) w = Terminated outs EmptyCache /\ agrees calls outs answers
  end.
Proof.
  induction calls as [|x t IH]; intros w aw c a s R Ha M.
  - simpl. exists [], w, aw, a. auto.
  - rewrite lrun_cons. pose proof (lstep_sim x R Ha M) as S.
    destruct (lstep E x s) as [([o|e] & s')|]; simpl in S.
    + destruct S as (o' & aw' & a' & X & A & Ha' & M').
      destruct (step_val G R (on_copy_free c x) (on_by_hash c x) X) as (r & w1 & X1 & R1 & O).
      assert (A' : agree x (Returned r) (Returned o)) by (eapply agree_out; eauto using agree_refl_l).
      specialize (IH w1 aw' c a' s' R1 Ha' M'). simpl. rewrite X1.
      destruct (lrun E t s') as (answers & [s''|]); simpl in *.
      * destruct IH as (outs & w2 & aw2 & a2 & H & Ag & R2 & Ha2 & M2). rewrite H. simpl.
        eexists _, _, _, _. split; [reflexivity|]. split; [split; eauto|]. eauto.
      * destruct IH as (outs & H & Ag). rewrite H. simpl. eexists; split; [reflexivity|]. split; auto.
    + destruct S as (aw' & a' & X & Ha' & M').
      destruct (step_exc G R (on_copy_free c x) (on_by_hash c x) X) as (w1 & X1 & R1).
      specialize (IH w1 aw' c a' s' R1 Ha' M'). simpl. rewrite X1.
      assert (A' : agree x (Threw e) (Threw e)).
      { destruct x; simpl; auto. exfalso. clear - X Ha. unfold aexec in X. simpl in X.
        rewrite (slot_alive Ha) in X. unfold bind in X. erewrite a_get_ev in X by eauto. discriminate. }
      destruct (lrun E t s') as (answers & [s''|]); simpl in *.
      * destruct IH as (outs & w2 & aw2 & a2 & H & Ag & R2 & Ha2 & M2). rewrite H. simpl.
        eexists _, _, _, _. split; [reflexivity|]. split; [split; eauto|]. eauto.
      * destruct IH as (outs & H & Ag). rewrite H. simpl. eexists; split; [reflexivity|]. split; auto.
    + pose proof (step_term G R (on_copy_free c x) (on_by_hash c x) S) as X1.
      simpl. rewrite X1. exists []. auto.
Qed.

Theorem lru_refinement w c n l calls :
  reachable E w -> timed w c = false -> contents E c w l -> capacity_is E c w n ->
  match lrun E calls (Lru n (rev l)) with
  | (answers, Some s) =>
      exists outs w', run E (map (on c) calls) w = Finished outs w' /\ agrees calls outs answers /\
        contents E c w' (rev (items s)) /\ capacity_is E c w' (lcap s)
  | (answers, None) =>
      exists outs, run E (map (on c) calls) w = Terminated outs EmptyCache /\ agrees calls outs answers
  end.
Proof.
  intros H T C N. destruct (reach_rel G H) as (aw & R).
  destruct (contents_inv G R C) as (a & Ha & ->).
  assert (M : lmatch a (Lru n (rev (mp (a_ents a))))).
  { split; [eapply untimed_inv; eauto|]. split; [|auto]. simpl. symmetry. eapply capacity_inv; eauto. }
  pose proof (lrun_sim calls R Ha M) as S.
  destruct (lrun E calls (Lru n (rev (mp (a_ents a))))) as (answers & [s|]); auto.
  destruct S as (outs & w' & aw' & a' & H1 & Ag & R' & Ha' & (T' & M1 & M2)).
  exists outs, w'. split; auto. split; auto. split.
  - rewrite M2, rev_involutive. eapply contents_of; eauto.
  - rewrite M1. eapply capacity_of; eauto.
Qed.

Lemma lru_run w c n l calls outs w' :
  reachable E w -> timed w c = false -> contents E c w l -> capacity_is E c w n ->
  run E (map (on c) calls) w = Finished outs w' ->
  exists answers s, lrun E calls (Lru n (rev l)) = (answers, Some s) /\ agrees calls outs answers /\
    contents E c w' (rev (items s)) /\ capacity_is E c w' (lcap s) /\
    reachable E w' /\ timed w' c = false.
Proof.
  intros H T C N Rn. destruct (reach_rel G H) as (aw & R).
  destruct (contents_inv G R C) as (a & Ha & ->).
  assert (M : lmatch a (Lru n (rev (mp (a_ents a))))).
  { split; [eapply untimed_inv; eauto|]. split; [|auto]. simpl. symmetry. eapply capacity_inv; eauto. }
  pose proof (lrun_sim calls R Ha M) as S.
  destruct (lrun E calls (Lru n (rev (mp (a_ents a))))) as (answers & [s|]).
  2:{ destruct S as (o1 & S & _). congruence. }
  destruct S as (outs1 & w1 & aw' & a' & H1 & Ag & R' & Ha' & (T' & M1 & M2)).
  rewrite Rn in H1. inversion H1; subst outs1 w1.
  exists answers, s. split; auto. split; auto. split; [|split; [|split]].
  - rewrite M2, rev_involutive. eapply contents_of; eauto.
  - rewrite M1. eapply capacity_of; eauto.
  - eapply reachable_run; [exact H| |exact Rn]. clear. induction calls; simpl; auto.
    rewrite on_copy_free. auto.
  - eapply untimed_of; eauto.
Qed.

End Lru.
