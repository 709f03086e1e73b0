(** Single calls from reachable worlds. *)
From Coq Require Import List Arith ZArith Bool Permutation Lia.
Import ListNotations.
From Verif Require Import Monad Types Model Api Spec Ref Lists SimBase SimRel SimOps SimIns SimErase SimIter SimNew SimObs SimExec RefEval SimRun LruProofs.
Set Implicit Arguments.
Unset Strict Implicit.
Local Open Scope cpp_scope.

Section Calls.
Context {K V : Type}.
Variable E : env K V.
Hypothesis G : good E.

Notation entry := (entry K V).
Notation world := (world K V).
Notation acache := (acache K V).
Notation aworld := (aworld K V).
Notation rel := (rel E).
Notation mp := (map (@pair_of K V)).
Implicit Types (w : world) (aw : aworld) (a : acache) (e : entry) (o : op K V).

(** Evaluation of plain calls. *)
Lemma plain_spec o : plain o = true -> copy_free o = true /\ by_hash o = false /\
  forall r r', out_rel o r r' -> r = r'.
Proof.
  unfold plain. destruct o; simpl; intros H; auto; try (destruct (Nat.eqb c d); simpl in H; try discriminate);
    try discriminate; auto.
Qed.
Lemma call_val o w aw r aw' : rel w aw -> aexec E 0 o aw = Val r aw' -> plain o = true ->
  exists w', exec E o w = Val r w' /\ rel w' aw'.
Proof.
  intros R X P. apply plain_spec in P as (P1 & P2 & P3).
  destruct (step_val G R P1 P2 X) as (r' & w' & X' & R' & O). apply P3 in O. subst. eauto.
Qed.
Lemma call_exc o w aw (e : exn) aw' : rel w aw -> aexec E 0 o aw = Exc e aw' -> plain o = true ->
  exists w', exec E o w = Exc e w' /\ rel w' aw'.
Proof.
  intros R X P. apply plain_spec in P as (P1 & P2 & P3). eapply step_exc; eauto.
Qed.

(** Worlds with the same reference world are indistinguishable. *)
Lemma rel_same_seen w w' aw : rel w aw -> rel w' aw -> same_seen E w w'.
Proof.
  intros R R' ops F. revert w w' aw R R'. induction ops as [|o t IH]; intros w w' aw R R'; simpl; auto.
  simpl in F. apply andb_prop in F as (F1 & F2). specialize (IH F2).
  apply plain_spec in F1 as (P1 & P2 & P3).
  destruct (exec_sim G (o := o) R P1) as (ch & S).
  destruct (exec_sim G (o := o) R' P1) as (ch' & S').
  rewrite (aexec_ch E ch P2) in S. rewrite (aexec_ch E ch' P2) in S'.
  destruct (aexec E 0 o aw) as [r aw1|e aw1|u|e], (exec E o w), (exec E o w'); simpl in S, S'; try easy.
  - destruct S as (Ra & O), S' as (Rb & O'). apply P3 in O. apply P3 in O'. subst.
    specialize (IH _ _ _ Ra Rb). destruct (run E t s), (run E t s0); simpl in *; congruence.
  - destruct S as (-> & Ra), S' as (-> & Rb).
    specialize (IH _ _ _ Ra Rb). destruct (run E t s), (run E t s0); simpl in *; congruence.
  - subst; auto.
  - subst; auto.
Qed.

(** Reduce a statement about a reachable world and one of its caches. *)
Lemma open_cache w c l : reachable E w -> contents E c w l ->
  exists aw a, rel w aw /\ slot (aw_caches aw) c = Some a /\ l = mp (a_ents a).
Proof.
  intros H C. destruct (reach_rel G H) as (aw & R).
  destruct (contents_inv G R C) as (a & Ha & ->). eauto.
Qed.

Ltac opened H C := let aw := fresh "aw" in let a := fresh "a" in let R := fresh "R" in
  let Ha := fresh "Ha" in
  destruct (open_cache H C) as (aw & a & R & Ha & ->).

(** The observables of the cache that a call replaced. *)
Lemma after w aw c a b : slot (aw_caches aw) c = Some a -> rel w (awith c b aw) ->
  contents E c w (mp (a_ents b)) /\ capacity_is E c w (a_cap b).
Proof.
  intros Ha R. pose proof (awith_get b Ha) as Hb.
  split; [eapply contents_of|eapply capacity_of]; eauto.
Qed.

(** ** Invariants *)

Lemma size_le_capacity w c n m : reachable E w -> size_is E c w n -> capacity_is E c w m -> n <= m.
Proof.
  intros H S C. destruct (reach_rel G H) as (aw & R).
  destruct (slot (aw_caches aw) c) as [a|] eqn:Ha.
  - rewrite <- (size_inv R Ha S), <- (capacity_inv R Ha C). eapply rel_len_le; eauto.
  - exfalso. unfold size_is in S. rewrite (exec_wf _ R) in S. simpl in S. unfold a_alive in S.
    rewrite Ha in S. discriminate.
Qed.

Lemma has_perm k l l' : Permutation l l' -> has E k l = has E k l'.
Proof.
  intros P. unfold has. destruct (existsb _ l') eqn:X.
  - apply existsb_exists in X as (p & I & Q). apply existsb_exists. exists p. split; auto.
    eapply Permutation_in; [symmetry|]; eauto.
  - apply not_true_iff_false. intros Y. apply not_true_iff_false in X. apply X.
    apply existsb_exists in Y as (p & I & Q). apply existsb_exists. exists p. split; auto.
    eapply Permutation_in; eauto.
Qed.
Lemma distinct_perm l l' : Permutation l l' -> distinct E l -> distinct E l'.
Proof.
  induction 1; simpl; auto.
  - intros (F & D); split; auto. erewrite <- has_perm; eauto.
  - intros (F & F' & D). unfold has in *. simpl in *.
    apply orb_false_elim in F as (F1 & F2). rewrite (good_sym G), F1. auto.
Qed.

Lemma traversals w c l : reachable E w -> contents E c w l ->
  exec E (Backward c) w = Val (REnts (rev l)) w /\
  (exists u, exec E (Unordered c) w = Val (REnts u) w /\ Permutation u l) /\
  size_is E c w (length l) /\ distinct E l.
Proof.
  intros H C. opened H C. destruct (rel_get _ R Ha) as (x & s & ls & At & Rp).
  split; [|split; [|split]].
  - rewrite (exec_wf _ R). simpl. rewrite (slot_alive Ha), (rp_ents Rp).
    unfold bind. erewrite traverse_backward_ev by eauto using rp_store. reflexivity.
  - rewrite (exec_wf _ R). simpl. rewrite (slot_alive Ha), (rp_ents Rp).
    destruct (traverse_unordered_ev At (rp_store Rp)) as (t & Et & P).
    exists t. unfold bind. rewrite Et. split; auto.
  - rewrite map_length. eapply size_of; eauto.
  - apply distinct_dkeys. eapply rel_dkeys; eauto.
Qed.

Lemma keys_unique w c l : reachable E w ->
  exec E (Ordered c) w = Val (REnts l) w \/ exec E (Backward c) w = Val (REnts l) w \/
  exec E (Unordered c) w = Val (REnts l) w ->
  distinct E l /\ size_is E c w (length l).
Proof.
  intros H X. destruct (reach_rel G H) as (aw & R).
  destruct (slot (aw_caches aw) c) as [a|] eqn:Ha.
  - pose proof (contents_of G R Ha) as C. destruct (traversals H C) as (T1 & (u & T2 & P) & T3 & T4).
    destruct X as [X|[X|X]].
    + unfold contents in C. rewrite C in X. inversion X; subst. auto.
    + rewrite T1 in X. inversion X; subst. rewrite rev_length. split; auto.
      eapply distinct_perm; [apply Permutation_rev|auto].
    + rewrite T2 in X. inversion X; subst. rewrite (Permutation_length P). split; auto.
      eapply distinct_perm; [symmetry; eauto|auto].
  - exfalso. destruct X as [X|[X|X]]; rewrite (exec_wf _ R) in X; simpl in X; unfold a_alive in X;
      rewrite Ha in X; discriminate.
Qed.

(** ** Insertion *)

Lemma put_result w c k v o l n : puts c k v o -> reachable E w -> contents E c w l -> capacity_is E c w n ->
  exists w', exec E o w = Val (RIns (fst (fst (lput E k v (Lru n (rev l)))))
                                    (snd (fst (lput E k v (Lru n (rev l)))))) w' /\
    contents E c w' (rev (items (snd (lput E k v (Lru n (rev l)))))) /\ capacity_is E c w' n.
Proof.
  intros P H C N. opened H C. pose proof (capacity_inv R Ha N) as Hn. subst n.
  set (r := insert_c E k v (stamp E a aw) a).
  assert (X : aexec E 0 o aw = Val (RIns (fst (fst r)) (option_map pair_of (snd (fst r))))
                                   (awith c (snd r) (insert_tk E k a aw))).
  { unfold aexec. destruct P; simpl; rewrite (slot_alive Ha);
      erewrite bind_val by (apply a_insert_ev; eauto); reflexivity. }
  destruct (call_val (o := o) (w := w) (aw := aw)) with (1 := R) (2 := X) as (w' & X' & R').
  { destruct P; auto. }
  pose proof (rel_cinv R Ha) as Ci.
  assert (Q : fst (fst r) = fst (fst (lput E k v (Lru (a_cap a) (rev (mp (a_ents a)))))) /\
              option_map pair_of (snd (fst r)) = snd (fst (lput E k v (Lru (a_cap a) (rev (mp (a_ents a)))))) /\
              mp (a_ents (snd r)) = rev (items (snd (lput E k v (Lru (a_cap a) (rev (mp (a_ents a))))))) /\
              a_cap (snd r) = a_cap a).
  { (* as for untimed caches: the time does not matter *)
    unfold r, insert_c, lput. simpl. destruct (Nat.eqb (a_cap a) 0); simpl;
      [rewrite rev_involutive; auto|].
    rewrite (look_rev G) by apply Ci. destruct (lookup_ent E k (a_ents a)) as [e|] eqn:L; simpl.
    - split; auto. split; auto. split; auto. rewrite without_rev, rev_involutive, map_app. auto.
    - split; auto. split; auto. split; auto.
      replace ((k, v) :: rev (mp (a_ents a))) with (rev (mp (a_ents a ++ [Ent k v (stamp E a aw)]))).
      + rewrite rev_take, rev_involutive. auto.
      + rewrite map_app, rev_app_distr. auto. }
  destruct Q as (Q1 & Q2 & Q3 & Q4). rewrite Q1, Q2 in X'.
  assert (Ha' : slot (aw_caches (awith c (snd r) (insert_tk E k a aw))) c = Some (snd r)).
  { eapply awith_get. rewrite insert_tk_caches; eauto. }
  exists w'. split; auto. split.
  - rewrite <- Q3. eapply contents_of; eauto.
  - rewrite <- Q4. eapply capacity_of; eauto.
Qed.

Lemma look_app_none k l l' : look E k (l ++ l') = None <-> look E k l = None /\ look E k l' = None.
Proof.
  unfold look. induction l as [|p l IH]; simpl; [tauto|].
  destruct (key_equal E k (fst p)); [split; intros; [|destruct H]; discriminate|auto].
Qed.
Lemma look_none_rev k l : look E k l = None -> look E k (rev l) = None.
Proof.
  induction l as [|p l IH]; simpl; auto. intros H. apply look_app_none.
  change (p :: l) with ([p] ++ l) in H. simpl in H.
  destruct (key_equal E k (fst p)) eqn:Q; [discriminate|]. split; auto. simpl. rewrite Q; auto.
Qed.

Lemma put_full w c k v o p l : puts c k v o -> reachable E w ->
  contents E c w (p :: l) -> capacity_is E c w (length (p :: l)) -> look E k (p :: l) = None ->
  exists w', exec E o w = Val (RIns true (Some (k, v))) w' /\
    contents E c w' (l ++ [(k, v)]) /\ capacity_is E c w' (length (p :: l)).
Proof.
  intros P H C N L. destruct (put_result P H C N) as (w' & X & C' & N').
  exists w'. unfold lput in *. simpl lcap in *. simpl items in *.
  change (rev l ++ [p]) with (rev (p :: l)) in *. rewrite (look_none_rev L) in *. simpl Nat.eqb in *. cbn [fst snd ltake items lcap] in *.
  split; auto. split; auto.
  replace (l ++ [(k, v)]) with (rev (firstn (length (p :: l)) ((k, v) :: rev (p :: l)))); auto.
  simpl length. simpl firstn. simpl rev. rewrite firstn_app, rev_length, Nat.sub_diag. simpl.
  rewrite app_nil_r. replace (firstn (length l) (rev l)) with (rev l).
  - rewrite rev_involutive; auto.
  - symmetry. rewrite <- (rev_length l). apply firstn_all.
Qed.

Lemma put_room w c k v o l n : puts c k v o -> reachable E w ->
  contents E c w l -> capacity_is E c w n -> length l < n -> look E k l = None ->
  exists w', exec E o w = Val (RIns true (Some (k, v))) w' /\
    contents E c w' (l ++ [(k, v)]) /\ capacity_is E c w' n.
Proof.
  intros P H C N B L. destruct (put_result P H C N) as (w' & X & C' & N').
  exists w'. unfold lput in *. simpl lcap in *. simpl items in *.
  rewrite (look_none_rev L) in *. destruct (Nat.eqb_spec n 0); [lia|]. cbn [fst snd ltake items lcap] in *.
  split; auto. split; auto.
  rewrite firstn_all2 in C' by (simpl; rewrite rev_length; lia).
  simpl in C'. rewrite rev_involutive in C'. auto.
Qed.

Lemma put_present w c k v o l n k0 v0 : puts c k v o -> reachable E w ->
  contents E c w l -> capacity_is E c w n -> look E k l = Some (k0, v0) ->
  exists w', exec E o w = Val (RIns false (Some (k0, v))) w' /\
    contents E c w' (without E k l ++ [(k0, v)]) /\ capacity_is E c w' n.
Proof.
  intros P H C N L. destruct (put_result P H C N) as (w' & X & C' & N').
  opened H C. pose proof (rel_cinv R Ha) as Ci. pose proof (capacity_inv R Ha N) as Hn. subst n.
  assert (N0 : a_cap a <> 0).
  { pose proof (ci_len Ci). destruct (a_ents a); [discriminate|]. simpl in H0. lia. }
  exists w'. unfold lput in *. simpl lcap in *. simpl items in *.
  apply look_some in L as (e & L & Le). inversion Le; subst.
  rewrite (look_rev G), L in * by apply Ci.
  destruct (Nat.eqb_spec (a_cap a) 0); [lia|]. cbn [fst snd ltake items lcap option_map pair_of] in *.
  split; auto. split; auto. simpl in C'. rewrite without_rev, rev_involutive in C'.
  rewrite without_map. auto.
Qed.

Lemma put_zero w c k v o : puts c k v o -> reachable E w -> alive w c = true -> capacity_is E c w 0 ->
  contents E c w [] /\
  exists w', exec E o w = Val (RIns false None) w' /\ contents E c w' [] /\ capacity_is E c w' 0.
Proof.
  intros P H Al N. destruct (reach_rel G H) as (aw & R). destruct (alive_inv R Al) as (a & Ha).
  pose proof (capacity_inv R Ha N) as Hn. pose proof (rel_len_le R Ha).
  assert (C : contents E c w []).
  { replace (@nil (K * V)) with (mp (a_ents a)); [eapply contents_of; eauto|].
    destruct (a_ents a); auto. simpl in *; lia. }
  split; auto. destruct (put_result P H C N) as (w' & X & C' & N'). eauto.
Qed.

Lemma insert_emplace w c k v : reachable E w -> alive w c = true ->
  exists r w1 w2, exec E (Insert c k v) w = Val r w1 /\ exec E (Emplace c k v) w = Val r w2 /\
    same_seen E w1 w2.
Proof.
  intros H Al. destruct (reach_rel G H) as (aw & R). destruct (alive_inv R Al) as (a & Ha).
  assert (X : exists r aw', aexec E 0 (Insert c k v) aw = Val r aw').
  { unfold aexec. simpl. rewrite (slot_alive Ha). erewrite bind_val by (apply a_insert_ev; eauto).
    eexists _, _; reflexivity. }
  destruct X as (r & aw' & X).
  destruct (call_val (o := Insert c k v) R X eq_refl) as (w1 & X1 & R1).
  destruct (call_val (o := Emplace c k v) R X eq_refl) as (w2 & X2 & R2).
  exists r, w1, w2. split; auto. split; auto. eapply rel_same_seen; eauto.
Qed.

(** ** Access to untimed caches *)


Lemma read_sim w aw c a k o ans : reads c k o ans -> rel w aw -> slot (aw_caches aw) c = Some a ->
  a_ttl a = None ->
  exists w', call E o w (ans (option_map pair_of (fst (find_r E aw c a k)))) w' /\
    rel w' (snd (find_r E aw c a k)).
Proof.
  intros Gt R Ha T. pose proof (rel_cinv R Ha) as Ci. pose proof (rel_st R Ha) as St.
  destruct Gt.
  - assert (X : aexec E 0 (Find c k) aw = Val (ROpt (option_map pair_of (fst (find_r E aw c a k))))
                                              (snd (find_r E aw c a k))).
    { unfold aexec. simpl. rewrite (slot_alive Ha). erewrite bind_val by (apply a_find_ev; eauto). auto. }
    destruct (call_val R X eq_refl) as (w' & X' & R'). exists w'. split; auto.
  - assert (X : aexec E 0 (Contains c k) aw =
       Val (RBool (match fst (find_r E aw c a k) with Some _ => true | None => false end))
           (snd (find_r E aw c a k))).
    { unfold aexec. simpl. rewrite (slot_alive Ha). erewrite bind_val by (apply a_contains_ev; eauto).
      rewrite (contains_r_untimed G) by auto. auto. }
    destruct (call_val R X eq_refl) as (w' & X' & R'). exists w'. split; auto. simpl.
    destruct (fst (find_r E aw c a k)); auto.
  - assert (X : aexec E 0 (Lookup c k) aw =
       match find_r E aw c a k with
       | (None, aw') => Exc KeyNotFound aw'
       | (Some e, aw') => Val (RVal (e_val e)) aw'
       end).
    { unfold aexec. simpl. rewrite (slot_alive Ha). unfold bind. erewrite a_lookup_ev by eauto.
      rewrite (lookup_r_untimed G) by auto. destruct (find_r E aw c a k) as ([e|] & aw'); auto. }
    destruct (find_r E aw c a k) as ([e|] & aw'); simpl.
    + destruct (call_val R X eq_refl) as (w' & X' & R'). eauto.
    + destruct (call_exc R X eq_refl) as (w' & X' & R'). eauto.
Qed.

Lemma access_hit w c k l n p o ans : reads c k o ans -> reachable E w -> timed w c = false ->
  contents E c w l -> capacity_is E c w n -> look E k l = Some p ->
  exists w', call E o w (ans (Some p)) w' /\
    contents E c w' (without E k l ++ [p]) /\ capacity_is E c w' n.
Proof.
  intros Gt H T C N L. opened H C. pose proof (capacity_inv R Ha N) as Hn. subst n.
  pose proof (untimed_inv R Ha T) as T'.
  apply look_some in L as (e & L & ->).
  destruct (read_sim Gt R Ha T') as (w' & X & R'). rewrite find_r_untimed, L in * by auto.
  exists w'. split; auto. simpl in R'.
  split.
  - rewrite without_map. replace (mp (remove_ent E k (a_ents a)) ++ [pair_of e]) with (mp (a_ents (bump E k e a)))
      by (simpl; rewrite map_app; auto).
    eapply contents_of; eauto. eapply awith_get; eauto.
  - eapply (capacity_of (a := bump E k e a)); eauto. eapply awith_get; eauto.
Qed.

Lemma access_miss w c k l n o ans : reads c k o ans -> reachable E w -> timed w c = false ->
  contents E c w l -> capacity_is E c w n -> look E k l = None ->
  exists w', call E o w (ans None) w' /\ contents E c w' l /\ capacity_is E c w' n.
Proof.
  intros Gt H T C N L. opened H C. pose proof (capacity_inv R Ha N) as Hn. subst n.
  pose proof (untimed_inv R Ha T) as T'.
  apply look_none in L.
  destruct (read_sim Gt R Ha T') as (w' & X & R'). rewrite find_r_untimed, L in * by auto.
  exists w'. split; auto. simpl in R'.
  split.
  - eapply contents_of; eauto.
  - eapply capacity_of; eauto.
Qed.

(** operator[] = and lookup() = on untimed caches. *)
Lemma write_ev aw c a k v : cinv E a -> slot (aw_caches aw) c = Some a -> stats_ok aw a ->
  a_ttl a = None ->
  aexec E 0 (Write c k v) aw =
  match lookup_ent E k (a_ents a) with
  | None => Exc KeyNotFound (missw E a k aw)
  | Some e => Val RUnit (awith c (bump E k (Ent (e_key e) v (e_time e)) a) (hitw E a k (e_val e) aw))
  end.
Proof.
  intros Ci Ha St T. unfold aexec. simpl. rewrite (slot_alive Ha). unfold bind at 1.
  erewrite a_lookup_ev by eauto. rewrite (lookup_r_untimed G), find_r_untimed by auto.
  destruct (lookup_ent E k (a_ents a)) as [e|] eqn:L; auto.
  erewrite bind_val by (apply a_get_ev; eapply awith_get; eauto).
  erewrite bind_val by (apply a_ents_put_ev; eapply awith_get; eauto).
  unfold ret. f_equal. rewrite awith_awith. unfold bump, set_ents; simpl.
  rewrite remove_app. simpl. rewrite (lookup_key L). simpl. rewrite app_nil_r.
  rewrite (remove_absent E k (remove_ent E k (a_ents a))); auto. apply lookup_removed, Ci.
Qed.

Lemma write_hit w c k v l n k0 v0 : reachable E w -> timed w c = false ->
  contents E c w l -> capacity_is E c w n -> look E k l = Some (k0, v0) ->
  exists w', exec E (Write c k v) w = Val RUnit w' /\
    contents E c w' (without E k l ++ [(k0, v)]) /\ capacity_is E c w' n.
Proof.
  intros H T C N L. opened H C. pose proof (capacity_inv R Ha N) as Hn. subst n.
  pose proof (untimed_inv R Ha T) as T'. pose proof (rel_cinv R Ha) as Ci.
  apply look_some in L as (e & L & Le). inversion Le; subst.
  pose proof (write_ev k v Ci Ha (rel_st R Ha) T') as X. rewrite L in X.
  destruct (call_val R X eq_refl) as (w' & X' & R'). exists w'. split; auto. split.
  - rewrite without_map. replace (mp (remove_ent E k (a_ents a)) ++ [(e_key e, v)])
      with (mp (a_ents (bump E k (Ent (e_key e) v (e_time e)) a))) by (simpl; rewrite map_app; auto).
    eapply contents_of; eauto. eapply awith_get; eauto.
  - eapply (capacity_of (a := bump E k (Ent (e_key e) v (e_time e)) a)); eauto. eapply awith_get; eauto.
Qed.
Lemma write_miss w c k v l n : reachable E w -> timed w c = false ->
  contents E c w l -> capacity_is E c w n -> look E k l = None ->
  exists w', exec E (Write c k v) w = Exc KeyNotFound w' /\
    contents E c w' l /\ capacity_is E c w' n.
Proof.
  intros H T C N L. opened H C. pose proof (capacity_inv R Ha N) as Hn. subst n.
  pose proof (untimed_inv R Ha T) as T'. pose proof (rel_cinv R Ha) as Ci. apply look_none in L.
  pose proof (write_ev k v Ci Ha (rel_st R Ha) T') as X. rewrite L in X.
  destruct (call_exc R X eq_refl) as (w' & X' & R'). exists w'. split; auto. split.
  - eapply contents_of; eauto.
  - eapply capacity_of; eauto.
Qed.

(** ** Removal *)

Lemma erase_result w c k l n : reachable E w -> contents E c w l -> capacity_is E c w n ->
  exists w', exec E (Erase c k) w = Val (RBool (has E k l)) w' /\
    contents E c w' (without E k l) /\ capacity_is E c w' n.
Proof.
  intros H C N. opened H C. pose proof (capacity_inv R Ha N) as Hn. subst n.
  rewrite has_map, without_map.
  assert (X : aexec E 0 (Erase c k) aw =
    match lookup_ent E k (a_ents a) with
    | Some _ => Val (RBool true) (awith c (set_ents (remove_ent E k (a_ents a)) (hot_after E a k) a) aw)
    | None => Val (RBool false) aw
    end).
  { unfold aexec. simpl. rewrite (slot_alive Ha). unfold bind. erewrite a_erase_ev by eauto.
    destruct (lookup_ent E k (a_ents a)); auto. }
  destruct (lookup_ent E k (a_ents a)) eqn:L.
  - destruct (call_val R X eq_refl) as (w' & X' & R'). exists w'. split; auto. split.
    + eapply (contents_of G (a := set_ents _ _ _)); eauto. eapply awith_get; eauto.
    + eapply (capacity_of (a := set_ents _ (hot_after E a k) a)); eauto. eapply awith_get; eauto.
  - destruct (call_val R X eq_refl) as (w' & X' & R'). exists w'. split; auto.
    rewrite (remove_absent _ _ _ L). split; [eapply contents_of|eapply capacity_of]; eauto.
Qed.

(** Any call that removes key [k0] in the reference machine. *)
Lemma removed w w' aw c a k : rel w aw -> slot (aw_caches aw) c = Some a ->
  rel w' (awith c (set_ents (remove_ent E k (a_ents a)) (hot_after E a k) a) aw) ->
  contents E c w' (without E k (mp (a_ents a))) /\ capacity_is E c w' (a_cap a).
Proof.
  intros R Ha R'. split.
  - rewrite without_map. eapply (contents_of G (a := set_ents _ _ _)); eauto. eapply awith_get; eauto.
  - eapply (capacity_of (a := set_ents _ (hot_after E a k) a)); eauto. eapply awith_get; eauto.
Qed.

Lemma erase_ordered w c l n i : reachable E w -> timed w c = false ->
  contents E c w l -> capacity_is E c w n ->
  match nth_error l i with
  | Some (k, _) => exists w', exec E (EraseOrdered c i) w = Val RUnit w' /\
      contents E c w' (without E k l) /\ capacity_is E c w' n
  | None => exists w', exec E (EraseOrdered c i) w = Exc InvalidIterator w' /\
      contents E c w' l /\ capacity_is E c w' n
  end.
Proof.
  intros H T C N. opened H C. pose proof (capacity_inv R Ha N) as Hn. subst n.
  pose proof (untimed_inv R Ha T) as T'.
  assert (X : aexec E 0 (EraseOrdered c i) aw =
    match nth_error (a_ents a) i with
    | Some e => Val RUnit (awith c (set_ents (remove_ent E (e_key e) (a_ents a)) (hot_after E a (e_key e)) a) aw)
    | None => Exc InvalidIterator aw
    end).
  { unfold aexec. simpl. rewrite (slot_alive Ha). erewrite bind_val by (apply a_get_ev; eauto).
    destruct (nth_error (a_ents a) i); auto. rewrite T'. erewrite bind_val by apply a_expired_none.
    cbv beta iota. erewrite bind_val by (apply a_remove_ev; eauto). auto. }
  rewrite nth_error_map. destruct (nth_error (a_ents a) i) as [e|]; simpl.
  - destruct (call_val R X eq_refl) as (w' & X' & R'). exists w'. split; auto. exact (removed R Ha R').
  - destruct (call_exc R X eq_refl) as (w' & X' & R'). exists w'. split; auto.
    split; [eapply contents_of|eapply capacity_of]; eauto.
Qed.

Lemma erase_found w c l n k : reachable E w -> timed w c = false ->
  contents E c w l -> capacity_is E c w n ->
  if has E k l then exists w', exec E (EraseFound c k) w = Val RUnit w' /\
      contents E c w' (without E k l) /\ capacity_is E c w' n
  else exists w', exec E (EraseFound c k) w = Exc InvalidIterator w' /\
      contents E c w' l /\ capacity_is E c w' n.
Proof.
  intros H T C N. 
  pose proof (lru_refinement G [LEraseFound k] H T C N) as S. simpl in S.
  opened H C. pose proof (rel_cinv R Ha) as Ci. rewrite has_map. rewrite (has_rev G) in S by apply Ci.
  destruct (lookup_ent E k (a_ents a)) as [e|] eqn:L; simpl in S;
    destruct S as (outs & w' & S1 & S2 & S3 & S4).
  - destruct (exec E (EraseFound c k) w) as [r w1|x w1|u|x] eqn:X; simpl in S1; inversion S1; subst;
      simpl in S2; destruct S2 as (S2 & _); inversion S2; subst.
    exists w'. split; auto. split; auto. rewrite without_rev, rev_involutive in S3.
    rewrite without_map; auto.
  - destruct (exec E (EraseFound c k) w) as [r w1|x w1|u|x] eqn:X; simpl in S1; inversion S1; subst;
      simpl in S2; destruct S2 as (S2 & _); inversion S2; subst.
    exists w'. split; auto. split; auto. rewrite rev_involutive in S3. auto.
Qed.

Lemma erase_unordered w c l n u i : reachable E w ->
  contents E c w l -> capacity_is E c w n -> exec E (Unordered c) w = Val (REnts u) w ->
  match nth_error u i with
  | Some (k, _) => exists w', exec E (EraseUnordered c i) w = Val RUnit w' /\
      contents E c w' (without E k l) /\ capacity_is E c w' n
  | None => exists w', exec E (EraseUnordered c i) w = Exc InvalidIterator w' /\
      contents E c w' l /\ capacity_is E c w' n
  end.
Proof.
  intros H C N U. opened H C. pose proof (capacity_inv R Ha N) as Hn. subst n.
  destruct (rel_get _ R Ha) as (x & s & ls & At & Rp). pose proof (rp_store Rp) as RS.
  assert (Hu : u = map (fun r => (n_key (snd r), n_val (snd r))) (s_map s)).
  { rewrite (exec_wf _ R) in U. simpl in U. rewrite (slot_alive Ha) in U. unfold bind in U.
    assert (T : traverse_unordered c w = Val (map (fun r => (n_key (snd r), n_val (snd r))) (s_map s)) w).
    { unfold traverse_unordered. ev size_ev. ev unordered_begin_ev.
      eapply (u_collect_ev (m1 := [])); eauto. eapply rep_map_nodup; eauto. }
    rewrite T in U. inversion U. auto. }
  subst u. rewrite nth_error_map.
  assert (L : length (a_ents a) = length (s_map s)).
  { rewrite (rp_ents Rp), (rep_size RS). unfold ents. apply map_length. }
  assert (X : exec E (EraseUnordered c i) w = ((it <- unordered_nth c i;; erase_u E c it);;; ret RUnit) w).
  { rewrite (exec_wf _ R). simpl. rewrite (slot_alive Ha). rewrite bind_assoc. auto. }
  pose proof (skipn_split i (s_map s)) as SP.
  destruct (nth_error (s_map s) i) as [[m nd]|] eqn:NE; simpl.
  - destruct (unordered_place Rp NE) as (ch & l1 & cl & l2 & H1 & -> & ->).
    assert (Hnd : n_key nd = e_key (cl_e cl)).
    { apply nth_error_In in NE. apply (Permutation_in _ (rs_map RS)), in_map_iff in NE as (cl' & Q & I).
      unfold mrow in Q. inversion Q; subst. simpl. f_equal. f_equal.
      pose proof (rs_nm RS) as ND. rewrite map_app in ND. simpl in ND.
      apply in_app_or in I. apply NoDup_remove_2 in ND. rewrite <- map_app in ND.
      destruct I as [I|[I|I]]; auto; exfalso; apply ND; rewrite <- H2; apply in_map, in_or_app; auto. }
    rewrite Hnd.
    assert (S : simr E (fun _ _ _ _ => True) ((it <- unordered_nth c i;; erase_u E c it) w)
                  (a_remove E c (e_key (cl_e cl)) aw)).
    { ev unordered_nth_ev. destruct SP as (b & -> & _).
      unfold erase_u, u_eq. cbn [upos_of ui_pos unordered_end upos_eqb].
      eapply sim_weaken; [eapply erase_it_sim; eauto; apply (good_refl G)|auto]. }
    rewrite (a_remove_ev _ _ Ha) in S.
    destruct ((it <- unordered_nth c i;; erase_u E c it) w) as [[] w1| | |] eqn:Y; simpl in S; try easy.
    destruct S as (R1 & _). exists w1.
    split; [rewrite X, (bind_val _ _ _ Y); auto|]. exact (removed R Ha R1).
  - exists w. destruct SP as (SP & SP').
    split; [|split; [eapply contents_of|eapply capacity_of]; eauto].
    rewrite X, bind_assoc. ev unordered_nth_ev. rewrite SP.
    unfold erase_u, u_eq. cbn [upos_of ui_pos unordered_end upos_eqb]. rewrite Nat.eqb_refl. auto.
Qed.

Lemma keep_ev o c n aw a : o = Shrink c n \/ (o = Clear c /\ n = 0) ->
  slot (aw_caches aw) c = Some a ->
  aexec E 0 o aw = Val RUnit (awith c (set_ents (lastn n (a_ents a)) (if Nat.eqb n 0 then false else a_hot a) a) aw).
Proof.
  intros [->|(-> & ->)] Ha; unfold aexec; simpl; rewrite (slot_alive Ha);
    erewrite bind_val by (apply a_keep_ev; eauto); reflexivity.
Qed.

Lemma shrink_result w c l n m : reachable E w -> contents E c w l -> capacity_is E c w n ->
  exists w', exec E (Shrink c m) w = Val RUnit w' /\
    contents E c w' (newest m l) /\ capacity_is E c w' n.
Proof.
  intros H C N. opened H C. pose proof (capacity_inv R Ha N) as Hn. subst n.
  destruct (call_val (o := Shrink c m) R (keep_ev (or_introl eq_refl) Ha) eq_refl) as (w' & X & R').
  exists w'. split; auto. rewrite newest_map. split.
  - eapply (contents_of G (a := set_ents _ _ _)); eauto. eapply awith_get; eauto.
  - eapply (capacity_of (a := set_ents (lastn m (a_ents a)) _ a)); eauto. eapply awith_get; eauto.
Qed.

Lemma clear_result w c l n : reachable E w -> contents E c w l -> capacity_is E c w n ->
  exists w', exec E (Clear c) w = Val RUnit w' /\ contents E c w' [] /\ capacity_is E c w' n.
Proof.
  intros H C N. opened H C. pose proof (capacity_inv R Ha N) as Hn. subst n.
  destruct (call_val (o := Clear c) R (keep_ev (or_intror (conj eq_refl eq_refl)) Ha) eq_refl) as (w' & X & R').
  exists w'. split; auto.
  assert (Q : lastn 0 (a_ents a) = []).
  { unfold lastn. rewrite Nat.sub_0_r. apply skipn_all. }
  rewrite Q in R'. split.
  - change [] with (mp (a_ents (set_ents [] false a))). eapply contents_of; eauto. eapply awith_get; eauto.
  - change (a_cap a) with (a_cap (set_ents [] false a)). eapply capacity_of; eauto. eapply awith_get; eauto.
Qed.

Lemma set_capacity_result w c l m : reachable E w -> contents E c w l ->
  exists w', exec E (SetCapacity c m) w = Val RUnit w' /\
    contents E c w' (newest m l) /\ capacity_is E c w' m.
Proof.
  intros H C. opened H C.
  assert (X : aexec E 0 (SetCapacity c m) aw = Val RUnit
     (awith c (MkA (lastn m (a_ents a)) (if Nat.eqb m 0 then false else a_hot a) m
                   (a_stats a) (a_cbs a) (a_ttl a)) aw)).
  { unfold aexec. simpl. rewrite (slot_alive Ha). erewrite bind_val by (apply a_keep_ev; eauto).
    erewrite bind_val by (apply a_setcap_ev; eapply awith_get; eauto). rewrite awith_awith. auto. }
  destruct (call_val R X eq_refl) as (w' & X' & R').
  exists w'. split; auto. rewrite newest_map. split.
  - eapply (contents_of G (a := MkA _ _ _ _ _ _)); eauto. eapply awith_get; eauto.
  - eapply (capacity_of (a := MkA (lastn m (a_ents a)) _ m _ _ _)); eauto. eapply awith_get; eauto.
Qed.

(** ** Derived observers *)

Lemma space_result w c n m : reachable E w -> alive w c = true -> size_is E c w n -> capacity_is E c w m ->
  (Z.of_nat m < 2 ^ 64)%Z ->
  exec E (SpaceLeft c) w = Val (RZ (Z.of_nat m - Z.of_nat n)) w /\ (0 <= Z.of_nat m - Z.of_nat n)%Z /\
  exec E (IsFull c) w = Val (RBool (Nat.eqb (m - n) 0)) w /\
  exec E (IsEmpty c) w = Val (RBool (Nat.eqb n 0)) w.
Proof.
  intros H Al S C B. destruct (reach_rel G H) as (aw & R). destruct (alive_inv R Al) as (a & Ha).
  pose proof (size_inv R Ha S) as Hs. pose proof (capacity_inv R Ha C) as Hc.
  pose proof (rel_len_le R Ha) as L. subst.
  destruct (rel_get _ R Ha) as (x & s & ls & At & Rp).
  assert (Q : length (s_map s) = length (a_ents a)).
  { rewrite (rp_ents Rp), (rep_size (rp_store Rp)). unfold ents. rewrite map_length. auto. }
  assert (Z1 : (0 <= Z.of_nat (a_cap a) - Z.of_nat (length (a_ents a)))%Z) by lia.
  split; [|split; [auto|split]].
  - rewrite (exec_wf _ R). simpl. rewrite (slot_alive Ha). unfold space_left, bind.
    erewrite capacity_ev by apply At. erewrite size_ev by eauto. unfold ret, wrap64.
    rewrite Q, (rp_cap Rp), Z.mod_small; auto. lia.
  - rewrite (exec_wf _ R). simpl. rewrite (slot_alive Ha). unfold is_full, bind.
    erewrite size_ev by eauto. erewrite capacity_ev by apply At. unfold ret.
    rewrite Q, (rp_cap Rp). do 2 f_equal.
    destruct (Nat.eqb_spec (length (a_ents a)) (a_cap a)), (Nat.eqb_spec (a_cap a - length (a_ents a)) 0); auto; lia.
  - rewrite (exec_wf _ R). simpl. rewrite (slot_alive Ha). unfold is_empty, bind.
    erewrite size_ev by eauto. unfold ret. rewrite Q. auto.
Qed.

End Calls.
