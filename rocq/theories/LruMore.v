(** More consequences of the textbook refinement: ranges, constructors, the
    survival of elements. *)
From Coq Require Import List Arith ZArith Bool Permutation Lia.
Import ListNotations.
From Verif Require Import Monad Types Model Api Spec Ref Lists SimBase SimRel SimOps SimIns SimErase SimIter SimNew SimObs SimExec RefEval SimRun LruProofs CallProofs Effects.
Set Implicit Arguments.
Unset Strict Implicit.
Local Open Scope cpp_scope.

Section More.
Context {K V : Type}.
Variable E : env K V.
Hypothesis G : good E.

Notation entry := (entry K V).
Notation world := (world K V).
Notation acache := (acache K V).
Notation aworld := (aworld K V).
Notation rel := (rel E).
Notation mp := (map (@pair_of K V)).
Implicit Types (w : world) (aw : aworld) (a : acache) (o : op K V).

Lemma insert_lput k v t a : cinv E a ->
  let r := insert_c E k v t a in let s := lput E k v (Lru (a_cap a) (rev (mp (a_ents a)))) in
  fst (fst r) = fst (fst s) /\ option_map pair_of (snd (fst r)) = snd (fst s) /\
  snd s = Lru (a_cap a) (rev (mp (a_ents (snd r)))) /\ a_cap (snd r) = a_cap a.
Proof.
  intros Ci. unfold insert_c, lput. simpl. destruct (Nat.eqb (a_cap a) 0); simpl; auto.
  rewrite (look_rev G) by apply Ci. destruct (lookup_ent E k (a_ents a)) as [e|] eqn:L; simpl.
  - split; auto. split; auto. split; auto. rewrite without_rev, map_app, rev_app_distr. auto.
  - split; auto. split; auto. split; auto. unfold ltake. simpl. f_equal.
    replace ((k, v) :: rev (mp (a_ents a))) with (rev (mp (a_ents a ++ [Ent k v t]))).
    + apply rev_take.
    + rewrite map_app, rev_app_distr. auto.
Qed.
Lemma inserts_lputs l : forall c n a aw, cinv E a -> slot (aw_caches aw) c = Some a ->
  let r := inserts_r E c l n a aw in let s := lputs E l (Lru (a_cap a) (rev (mp (a_ents a)))) in
  fst (fst r) = n + fst s /\ snd s = Lru (a_cap a) (rev (mp (a_ents (snd (fst r))))) /\
  a_cap (snd (fst r)) = a_cap a /\ cinv E (snd (fst r)) /\ a_ttl (snd (fst r)) = a_ttl a.
Proof.
  induction l as [|[k v] l IH]; intros c n a aw Ci Ha; simpl; [repeat split; auto; try lia; apply Ci|].
  destruct (insert_lput k v (stamp E a aw) Ci) as (H1 & H2 & H3 & H4).
  pose proof (insert_cinv G k v (stamp E a aw) Ci) as Ci'.
  destruct (lput E k v (Lru (a_cap a) (rev (mp (a_ents a))))) as ((b & p) & s). simpl in *.
  assert (Ha' : slot (aw_caches (awith c (snd (insert_c E k v (stamp E a aw) a)) (insert_tk E k a aw))) c =
     Some (snd (insert_c E k v (stamp E a aw) a))).
  { eapply awith_get. rewrite insert_tk_caches; eauto. }
  specialize (IH c (if b then S n else n) _ _ Ci' Ha').
  rewrite H4 in IH. rewrite <- H3 in IH. destruct (lputs E l s) as (m & s'). simpl in *.
  rewrite H1. destruct IH as (I1 & I2 & I3 & I4 & I5). split; [destruct b; lia|].
  split; auto. split; auto. split; auto. rewrite I5. unfold insert_c.
  destruct (Nat.eqb (a_cap a) 0), (lookup_ent E k (a_ents a)); auto.
Qed.

(** ** Ranges *)

Lemma news_cons r rs : news (r :: rs) = (match r with Returned (RIns true _) => 1 | _ => 0 end) + news (rs : list (outcome K V)).
Proof. unfold news. simpl. destruct r as [[| | | | | | | |[]| | |]|]; auto. Qed.

Lemma inserts_run l : forall w aw c a n, rel w aw -> slot (aw_caches aw) c = Some a ->
  exists outs w', run E (map (fun p => Insert c (fst p) (snd p)) l) w = Finished outs w' /\
    rel w' (snd (inserts_r E c l n a aw)) /\ fst (fst (inserts_r E c l n a aw)) = n + news outs.
Proof.
  induction l as [|p l IH]; intros w aw c a n R Ha; simpl.
  - exists [], w. split; auto.
  - assert (X : aexec E 0 (Insert c (fst p) (snd p)) aw =
       Val (RIns (fst (fst (insert_c E (fst p) (snd p) (stamp E a aw) a)))
                 (option_map pair_of (snd (fst (insert_c E (fst p) (snd p) (stamp E a aw) a)))))
           (awith c (snd (insert_c E (fst p) (snd p) (stamp E a aw) a)) (insert_tk E (fst p) a aw))).
    { unfold aexec. simpl. rewrite (slot_alive Ha). erewrite bind_val by (apply a_insert_ev; eauto). auto. }
    destruct (call_val G R X eq_refl) as (w1 & X1 & R1). rewrite X1.
    destruct (IH w1 _ c (snd (insert_c E (fst p) (snd p) (stamp E a aw) a)) (if fst (fst (insert_c E (fst p) (snd p) (stamp E a aw) a)) then S n else n) R1)
      as (outs & w' & H1 & H2 & H3).
    { eapply awith_get. rewrite insert_tk_caches; eauto. }
    rewrite H1. simpl. eexists _, w'. split; [reflexivity|]. split; auto.
    rewrite H3, news_cons. destruct (fst (fst (insert_c E (fst p) (snd p) (stamp E a aw) a))); lia.
Qed.

Lemma range_ev aw c a l o : puts_range c l o -> slot (aw_caches aw) c = Some a ->
  aexec E 0 o aw = Val (RNat (fst (fst (inserts_r E c l 0 a aw)))) (snd (inserts_r E c l 0 a aw)).
Proof.
  intros [] Ha; unfold aexec; simpl; rewrite (slot_alive Ha); unfold a_insert_range;
    erewrite bind_val by (apply a_inserts_ev; eauto); reflexivity.
Qed.

Lemma insert_range_result w c l o : puts_range c l o -> reachable E w -> alive w c = true ->
  exists w' outs w1, exec E o w = Val (RNat (news outs)) w' /\
    run E (map (fun p => Insert c (fst p) (snd p)) l) w = Finished outs w1 /\ same_seen E w' w1.
Proof.
  intros P H Al. destruct (reach_rel G H) as (aw & R). destruct (alive_inv R Al) as (a & Ha).
  destruct (call_val G R (range_ev P Ha)) as (w' & X & R'). { destruct P; auto. }
  destruct (inserts_run l 0 R Ha) as (outs & w1 & H1 & H2 & H3).
  exists w', outs, w1. rewrite H3 in X. split; auto. split; auto. eapply rel_same_seen; eauto.
Qed.

(** ** Constructors *)

Definition fresh_a cap ttl : acache := MkA [] false cap None no_callbacks ttl.
Definition anewc cap ttl aw : aworld :=
  MkAW (aw_caches aw ++ [Some (fresh_a cap ttl)]) (aw_stats aw) (aw_log aw) (aw_reads aw).

Lemma anewc_get cap ttl aw : slot (aw_caches (anewc cap ttl aw)) (length (aw_caches aw)) = Some (fresh_a cap ttl).
Proof. unfold slot, anewc. simpl. rewrite app_nth2, Nat.sub_diag by lia. auto. Qed.

Lemma build_ev aw ttl o cap l : builds ttl o cap l ->
  let c := length (aw_caches aw) in
  aexec E 0 o aw = Val (RNat c) (snd (inserts_r E c l 0 (fresh_a cap ttl) (anewc cap ttl aw))).
Proof.
  intros B c. destruct B; unfold aexec; simpl; try reflexivity; unfold a_newfrom;
    rewrite bind_assoc; erewrite bind_val by reflexivity; unfold a_insert_range; rewrite bind_assoc;
    erewrite bind_val by (apply a_inserts_ev; apply anewc_get); reflexivity.
Qed.

Lemma cinv_fresh cap ttl : cinv E (fresh_a cap ttl).
Proof. constructor; simpl; auto; try lia. Qed.

Lemma build_result w ttl o cap l : builds ttl o cap l -> reachable E w ->
  exists c w', exec E o w = Val (RNat c) w' /\ alive w c = false /\
    contents E c w' (rev (items (snd (lputs E l (Lru cap []))))) /\ capacity_is E c w' cap /\
    ttl_of c w' ttl /\
    exists outs w1, run E (New cap ttl :: map (fun p => Insert c (fst p) (snd p)) l) w = Finished outs w1 /\
      same_seen E w' w1.
Proof.
  intros B H. destruct (reach_rel G H) as (aw & R). set (c := length (aw_caches aw)).
  destruct (call_val G R (build_ev aw B)) as (w' & X & R'). { destruct B; auto. }
  fold c in X, R'. exists c, w'. split; auto.
  pose proof (anewc_get cap ttl aw) as Ha. fold c in Ha.
  destruct (inserts_lputs l 0 (cinv_fresh cap ttl) Ha) as (I1 & I2 & I3 & I4 & I5).
  pose proof (inserts_get E l 0 Ha) as Ha'. simpl in I2.
  split; [|split; [|split; [|split]]].
  - rewrite (rel_alive _ R). unfold a_alive, slot. rewrite nth_overflow; auto.
  - rewrite I2. simpl. rewrite rev_involutive. eapply contents_of; eauto.
  - pose proof (capacity_of R' Ha') as Q. rewrite I3 in Q. exact Q.
  - pose proof (ttl_ofw R' Ha') as Q. rewrite I5 in Q. exact Q.
  - assert (X0 : aexec E 0 (New cap ttl) aw = Val (RNat c) (anewc cap ttl aw)) by reflexivity.
    destruct (call_val G R X0 eq_refl) as (w0 & Y0 & R0).
    destruct (inserts_run l 0 R0 Ha) as (outs & w1 & H1 & H2 & H3).
    exists (Returned (RNat c) :: outs), w1. cbn [run]. rewrite Y0, H1. split; auto.
    eapply rel_same_seen; eauto.
Qed.

(** ** Assignment from a range *)

Lemma assign_ev aw c a l o : assigns c l o -> slot (aw_caches aw) c = Some a ->
  let a0 := MkA [] false (Nat.max (a_cap a) (length l)) (a_stats a) (a_cbs a) (a_ttl a) in
  aexec E 0 o aw = Val RUnit (snd (inserts_r E c l 0 a0 (awith c a0 aw))).
Proof.
  intros A Ha a0.
  assert (X : (a_assign E c l;;; ret RUnit) aw = Val (@RUnit K V) (snd (inserts_r E c l 0 a0 (awith c a0 aw)))).
  { unfold a_assign. rewrite bind_assoc. erewrite bind_val by (apply a_keep_ev; eauto).
    rewrite bind_assoc. erewrite bind_val by (apply a_get_ev; eapply awith_get; eauto).
    rewrite bind_assoc. erewrite bind_val by (apply a_setcap_ev; eapply awith_get; eauto).
    rewrite awith_awith, bind_assoc. unfold a_insert_range.
    assert (Q : MkA (lastn 0 (a_ents a)) false (Nat.max (a_cap a) (length l)) (a_stats a) (a_cbs a) (a_ttl a) = a0).
    { unfold a0, lastn. rewrite Nat.sub_0_r, skipn_all. auto. }
    simpl. rewrite Q. erewrite bind_val by (apply a_inserts_ev; eapply awith_get; eauto).
    reflexivity. }
  destruct A; unfold aexec; simpl; rewrite (slot_alive Ha); exact X.
Qed.

Lemma assign_result w c l o l0 n : assigns c l o -> reachable E w -> contents E c w l0 -> capacity_is E c w n ->
  exists w', exec E o w = Val RUnit w' /\
    contents E c w' (rev (items (snd (lputs E l (Lru (Nat.max n (length l)) []))))) /\
    capacity_is E c w' (Nat.max n (length l)).
Proof.
  intros A H C N. destruct (open_cache G H C) as (aw & a & R & Ha & ->).
  pose proof (capacity_inv R Ha N) as Hn. subst n.
  destruct (call_val G R (assign_ev A Ha)) as (w' & X & R'). { destruct A; auto. }
  exists w'. split; auto. set (a0 := MkA [] _ _ _ _ _) in *.
  assert (Ha0 : slot (aw_caches (awith c a0 aw)) c = Some a0) by (eapply awith_get; eauto).
  assert (Ci : cinv E a0) by (constructor; simpl; auto; lia).
  destruct (inserts_lputs l 0 Ci Ha0) as (I1 & I2 & I3 & I4 & I5).
  pose proof (inserts_get E l 0 Ha0) as Ha'. change (rev (mp (a_ents a0))) with (@nil (K * V)) in I2.
  change (a_cap a0) with (Nat.max (a_cap a) (length l)) in *. split.
  - rewrite I2. simpl items. rewrite rev_involutive. eapply contents_of; eauto.
  - rewrite <- I3. eapply capacity_of; eauto.
Qed.

(** Nothing is evicted when everything fits. *)
Lemma has_app k l l' : has E k (l ++ l') = has E k l || has E k l'.
Proof. unfold has. apply existsb_app. Qed.
Lemma has_keq k k' l : key_equal E k k' = true -> has E k l = has E k' l.
Proof.
  intros Q. unfold has. induction l as [|p l IH]; simpl; auto.
  rewrite IH, (keq_cong G _ _ _ Q). auto.
Qed.
Lemma has_without k k' l : has E k (without E k' l) = has E k l && negb (key_equal E k' k).
Proof.
  unfold has, without. induction l as [|p l IH]; simpl; auto.
  destruct (key_equal E k' (fst p)) eqn:Q; simpl; rewrite IH.
  - destruct (key_equal E k (fst p)) eqn:Q'; simpl; auto.
    rewrite (good_trans G k' (fst p) k Q); [apply andb_false_r|].
    rewrite (good_sym G); auto.
  - destruct (key_equal E k (fst p)) eqn:Q'; simpl; auto.
    destruct (key_equal E k' k) eqn:Q''; auto. rewrite (good_trans G _ _ _ Q'' Q') in Q. discriminate.
Qed.
Lemma look_keq k k' l : key_equal E k k' = true -> look E k l = look E k' l.
Proof.
  intros Q. unfold look. induction l as [|p l IH]; simpl; auto.
  rewrite IH, (keq_cong G _ _ _ Q). auto.
Qed.
Lemma look_without k k' l : look E k (without E k' l) = if key_equal E k' k then None else look E k l.
Proof.
  unfold look, without. induction l as [|p l IH]; simpl.
  - destruct (key_equal E k' k); auto.
  - destruct (key_equal E k' (fst p)) eqn:Q; simpl.
    + rewrite IH. destruct (key_equal E k (fst p)) eqn:Q'; auto.
      rewrite (good_trans G k' (fst p) k Q); auto. rewrite (good_sym G); auto.
    + rewrite IH. destruct (key_equal E k (fst p)) eqn:Q'; auto.
      destruct (key_equal E k' k) eqn:Q''; auto. rewrite (good_trans G _ _ _ Q'' Q') in Q. discriminate.
Qed.
Lemma without_length k l : length (without E k l) <= length l.
Proof. unfold without. induction l as [|p l IH]; simpl; auto. destruct (negb _); simpl; lia. Qed.
Lemma without_length_in k l p : look E k l = Some p -> length (without E k l) < length l.
Proof.
  unfold look, without. induction l as [|q l IH]; simpl; [discriminate|].
  destruct (key_equal E k (fst q)); simpl; intros H.
  - pose proof (without_length k l). unfold without in H0. lia.
  - specialize (IH H). lia.
Qed.

Lemma look_app k l l' : look E k (l ++ l') =
  match look E k l with Some p => Some p | None => look E k l' end.
Proof.
  unfold look. induction l as [|p l IH]; simpl; auto. destruct (key_equal E k (fst p)); auto.
Qed.

Lemma lputs_fit l : forall cap its, length its + length l <= cap ->
  let r := lputs E l (Lru cap its) in
  lcap (snd r) = cap /\ length (items (snd r)) <= length its + length l /\
  (forall k, has E k (items (snd r)) = has E k its || has E k l) /\
  (forall k, option_map snd (look E k (items (snd r))) =
     match look E k (rev l) with Some p => Some (snd p) | None => option_map snd (look E k its) end).
Proof.
  induction l as [|[k v] l IH]; intros cap its L; simpl.
  - repeat split; auto; try lia. intros; rewrite orb_false_r; auto.
  - simpl in L. unfold lput. simpl. destruct (Nat.eqb_spec cap 0) as [|N]; [lia|].
    destruct (look E k its) as [(k0, v0)|] eqn:Lk.
    + pose proof (without_length_in Lk).
      specialize (IH cap ((k0, v) :: without E k its)). simpl in IH.
      destruct (lputs E l (Lru cap ((k0, v) :: without E k its))) as (m & s'). simpl in *.
      assert (Q0 : key_equal E k k0 = true) by (apply find_some in Lk as (_ & Q); auto).
      destruct IH as (I1 & I2 & I3 & I4); [lia|]. repeat split; auto; try lia.
      * intros k'. rewrite I3, has_without.
        rewrite (good_sym G k' k0), <- (keq_cong G _ _ _ Q0), (good_sym G k k').
        destruct (key_equal E k' k) eqn:Q; simpl.
        -- rewrite orb_true_r. auto.
        -- rewrite andb_true_r. auto.
      * intros k'. rewrite I4.
        rewrite look_app. destruct (look E k' (rev l)); auto.
        unfold look at 1 3. simpl. fold (look E k' (without E k its)). rewrite look_without.
        rewrite (good_sym G k' k0), <- (keq_cong G _ _ _ Q0), (good_sym G k k').
        destruct (key_equal E k' k); auto.
    + unfold ltake. simpl lcap. simpl items. rewrite firstn_all2 by (simpl; lia).
      specialize (IH cap ((k, v) :: its)). simpl in IH.
      destruct (lputs E l (Lru cap ((k, v) :: its))) as (m & s'). simpl in *.
      destruct IH as (I1 & I2 & I3 & I4); [lia|]. repeat split; auto; try lia.
      * intros k'. rewrite I3.
        destruct (key_equal E k' k) eqn:Q; simpl; auto. rewrite orb_true_r; auto.
      * intros k'. rewrite I4.
        rewrite look_app. destruct (look E k' (rev l)); auto.
        unfold look at 1 3. simpl. destruct (key_equal E k' k); auto.
Qed.

Lemma lputs_distinct l : forall cap its, length its + length l <= cap ->
  distinct E l -> (forall p, In p l -> look E (fst p) its = None) ->
  items (snd (lputs E l (Lru cap its))) = rev l ++ its.
Proof.
  induction l as [|[k v] l IH]; intros cap its L D F; simpl; auto.
  simpl in L. destruct D as (D1 & D2). unfold lput. simpl. destruct (Nat.eqb_spec cap 0) as [|N]; [lia|].
  pose proof (F (k, v) (or_introl eq_refl)) as F0. simpl in F0. rewrite F0. unfold ltake. simpl lcap. simpl items.
  rewrite firstn_all2 by (simpl; lia).
  specialize (IH cap ((k, v) :: its)). simpl in IH.
  destruct (lputs E l (Lru cap ((k, v) :: its))) as (m & s'). simpl in *.
  rewrite IH; auto; try lia.
  - rewrite <- app_assoc. auto.
  - intros p I. unfold look. simpl. fold (look E (fst p) its). rewrite F by auto.
    unfold has in D1. simpl in D1.
    destruct (key_equal E (fst p) k) eqn:Q; auto.
    assert (X : existsb (fun p => key_equal E k (fst p)) l = true).
    { apply existsb_exists. exists p. split; auto. rewrite (good_sym G); auto. }
    rewrite X in D1. discriminate.
Qed.

Lemma has_rev' k l : has E k (rev l) = has E k l.
Proof. apply (has_perm E). symmetry. apply Permutation_rev. Qed.

Lemma assign_keeps_all w c l o l0 n : assigns c l o -> reachable E w -> contents E c w l0 -> capacity_is E c w n ->
  exists w' l', exec E o w = Val RUnit w' /\ contents E c w' l' /\
    capacity_is E c w' (Nat.max n (length l)) /\
    (forall k, has E k l' = has E k l) /\
    (forall k v, In (k, v) l' -> exists k', look E k (rev l) = Some (k', v)) /\
    (distinct E l -> l' = l).
Proof.
  intros A H C N. destruct (assign_result A H C N) as (w' & X & C' & N').
  exists w', (rev (items (snd (lputs E l (Lru (Nat.max n (length l)) []))))).
  split; auto. split; auto. split; auto.
  destruct (lputs_fit (l := l) (cap := Nat.max n (length l)) (its := [])) as (F1 & F2 & F3 & F4); [simpl; lia|].
  split; [|split].
  - intros k. rewrite has_rev', F3. auto.
  - intros k v I. specialize (F4 k).
    destruct (traversals G (reachable_step H (o := o) (w' := w') ltac:(destruct A; auto) X) C') as (_ & _ & _ & D).
    apply in_rev in I. 
    assert (Lk : look E k (items (snd (lputs E l (Lru (Nat.max n (length l)) [])))) = Some (k, v)).
    { apply (distinct_perm G (l' := items (snd (lputs E l (Lru (Nat.max n (length l)) []))))) in D;
        [|symmetry; apply Permutation_rev].
      clear - D I G. induction (items (snd (lputs E l (Lru (Nat.max n (length l)) [])))) as [|q t IH]; [easy|].
      simpl in D. destruct D as (D1 & D2). unfold look. simpl. destruct I as [->|I].
      - simpl. rewrite (good_refl G). auto.
      - destruct (key_equal E k (fst q)) eqn:Q.
        + exfalso. assert (Y : has E (fst q) t = true).
          { unfold has. apply existsb_exists. exists (k, v). split; auto. simpl. rewrite (good_sym G); auto. }
          congruence.
        + apply IH; auto. }
    rewrite Lk in F4. simpl in F4. destruct (look E k (rev l)) as [(k', v')|]; simpl in F4; inversion F4; subst.
    eauto.
  - intros D. rewrite lputs_distinct; simpl; auto; [|lia].
    rewrite app_nil_r. apply rev_involutive.
Qed.

(** ** clear() *)

Lemma clear_fresh w c l n calls : reachable E w -> timed w c = false ->
  contents E c w l -> capacity_is E c w n ->
  exists w1 d w2 answers outs1 outs2 e,
    exec E (Clear c) w = Val RUnit w1 /\ exec E (New n None) w = Val (RNat d) w2 /\
    seen (run E (map (on c) calls) w1) = (outs1, e) /\ seen (run E (map (on d) calls) w2) = (outs2, e) /\
    agrees calls outs1 answers /\ agrees calls outs2 answers.
Proof.
  intros H T C N. destruct (clear_result G H C N) as (w1 & X1 & C1 & N1).
  destruct (build_result (builds_new None n) H) as (d & w2 & X2 & _ & C2 & N2 & T2 & _).
  simpl in C2.
  pose proof (reachable_step H (o := Clear c) eq_refl X1) as H1.
  pose proof (reachable_step H (o := New n None) eq_refl X2) as H2.
  assert (T1 : timed w1 c = false).
  { destruct (open_cache G H C) as (aw & a & R & Ha & ->). pose proof (untimed_inv R Ha T) as T'.
    destruct (call_val G (o := Clear c) R (keep_ev E (or_intror (conj eq_refl eq_refl)) Ha) eq_refl) as (w' & X' & R').
    rewrite X1 in X'. inversion X'; subst.
    eapply untimed_of; [exact R'|eapply awith_get; eauto|exact T']. }
  assert (T2' : timed w2 d = false).
  { destruct T2 as (x & Q & Qt). unfold timed. rewrite Q, Qt. auto. }
  pose proof (lru_refinement G calls H1 T1 C1 N1) as S1.
  pose proof (lru_refinement G calls H2 T2' C2 N2) as S2. simpl in S1, S2.
  exists w1, d, w2. destruct (lrun E calls (Lru n [])) as (answers & [s|]).
  - destruct S1 as (o1 & w1' & R1 & A1 & _), S2 as (o2 & w2' & R2 & A2 & _).
    exists answers, o1, o2, Alive. rewrite R1, R2. auto 10.
  - destruct S1 as (o1 & R1 & A1), S2 as (o2 & R2 & A2).
    exists answers, o1, o2, (Aborted EmptyCache). rewrite R1, R2. auto 10.
Qed.

(** ** front and back *)

Lemma front_back w c l : reachable E w -> timed w c = false -> contents E c w l ->
  match l with
  | [] => exec E (Front c) w = Term EmptyCache /\ exec E (Back c) w = Term EmptyCache
  | p :: _ => exec E (Back c) w = Val (RKey (fst p)) w /\
              exec E (Front c) w = Val (RKey (fst (last l p))) w
  end.
Proof.
  intros H T C. destruct (open_cache G H C) as (aw & a & R & Ha & ->).
  pose proof (capacity_of R Ha) as N.
  pose proof (lru_refinement G [LFront] H T C N) as S1.
  pose proof (lru_refinement G [LBack] H T C N) as S2. simpl in S1, S2.
  assert (P : forall o w', (o = Front c \/ o = Back c) -> forall r, exec E o w = Val r w' -> w' = w).
  { intros o w' O r X. assert (O' : pure_observer o = true) by (destruct O; subst; auto).
    pose proof (pure_observer_same E O' w) as Q. rewrite X in Q. auto. }
  rewrite rev_involutive in S2.
  destruct (mp (a_ents a)) as [|p t] eqn:Q.
  - destruct S1 as (o1 & R1 & _), S2 as (o2 & R2 & _).
    destruct (exec E (Front c) w) as [? ?|? ?|?|?]; simpl in R1; try discriminate.
    destruct (exec E (Back c) w) as [? ?|? ?|?|?]; simpl in R2; try discriminate.
    inversion R1; inversion R2; auto.
  - destruct p as (k & v). simpl in S2. destruct S2 as (o2 & w2 & R2 & A2 & _).
    split.
    + destruct (exec E (Back c) w) as [r2 w'|? ?|?|?] eqn:X; simpl in R2; inversion R2; subst; simpl in A2;
        destruct A2 as (A2 & _); inversion A2; subst. rewrite (P _ _ (or_intror eq_refl) _ X). auto.
    + destruct (rev ((k, v) :: t)) as [|(k', v') m] eqn:Q'; [apply app_eq_nil in Q' as (_ & Q'); discriminate|].
      assert (L : last ((k, v) :: t) (k, v) = (k', v')).
      { rewrite <- (rev_involutive ((k, v) :: t)), Q'. simpl. apply last_last. }
      rewrite L. simpl in Q', S1. destruct S1 as (o1 & w1 & R1 & A1 & _).
      destruct (exec E (Front c) w) as [r1 w'|? ?|?|?] eqn:X; simpl in R1; inversion R1; subst; simpl in A1;
        destruct A1 as (A1 & _); inversion A1; subst. rewrite (P _ _ (or_introl eq_refl) _ X). auto.
Qed.

(** ** How long an element survives *)

Lemma distinct_app_inv l l' : distinct E (l ++ l') -> distinct E l /\ distinct E l' /\
  forall q, In q l -> has E (fst q) l' = false.
Proof.
  induction l as [|q l IH]; simpl; intros D; [split; [|split]; auto; intros ? []|].
  destruct D as (D1 & D2). rewrite has_app in D1. apply orb_false_iff in D1 as (D1 & D1').
  destruct (IH D2) as (A & B & C). repeat split; auto. intros q' [->|I]; auto.
Qed.
Lemma distinct_without k l : distinct E l -> distinct E (without E k l).
Proof.
  induction l as [|q l IH]; simpl; auto. intros (D1 & D2).
  destruct (key_equal E k (fst q)); simpl; auto. split; auto. rewrite has_without, D1. auto.
Qed.
Lemma distinct_firstn n : forall l, distinct E l -> distinct E (firstn n l).
Proof.
  induction n; intros [|q l]; simpl; auto. intros (D1 & D2). split; auto.
  apply not_true_is_false. intros A. apply not_true_iff_false in D1. apply D1.
  unfold has in *. apply existsb_exists in A as (x & I & Q). apply existsb_exists. exists x. split; auto.
  rewrite <- (firstn_skipn n l). apply in_or_app; auto.
Qed.
Lemma without_none k l : has E k l = false -> without E k l = l.
Proof.
  unfold has, without. induction l as [|q l IH]; simpl; auto. intros H.
  apply orb_false_iff in H as (-> & H). simpl. rewrite IH; auto.
Qed.
Lemma without_one k l : distinct E l -> has E k l = true -> S (length (without E k l)) = length l.
Proof.
  induction l as [|q l IH]; simpl; [discriminate|]. intros (D1 & D2) H.
  destruct (key_equal E k (fst q)) eqn:Q; simpl.
  - rewrite without_none; auto. rewrite (has_keq (k' := fst q)); auto.
  - simpl in H. rewrite IH; auto.
Qed.
Lemma without_app k l l' : without E k (l ++ l') = without E k l ++ without E k l'.
Proof. apply filter_app. Qed.
Lemma look_has k l : has E k l = match look E k l with Some _ => true | None => false end.
Proof. unfold has, look. induction l as [|q l IH]; simpl; auto. destruct (key_equal E k (fst q)); auto. Qed.
Lemma look_eq k l q : look E k l = Some q -> key_equal E k (fst q) = true.
Proof. intros H. apply find_some in H. tauto. Qed.

Notation differs := (fold_left (fun acc k => if existsb (key_equal E k) acc then acc else k :: acc)).
Notation add k acc := (if existsb (key_equal E k) acc%list then acc%list else k :: acc%list).

Definition survives (n : nat) (p : K * V) (s : lru) (acc : list K) : Prop :=
  lcap s = n /\ distinct E (items s) /\ length (items s) <= n /\
  ((exists (b a : list (K * V)), items s = b ++ p :: a /\ (forall k, has E k b = existsb (key_equal E k) acc) /\
                length b = length acc) \/
   (has E (fst p) (items s) = false /\ n <= length acc)).

Lemma survives_use n p s acc k q v : survives n p s acc -> key_equal E (fst p) k = false ->
  look E k (items s) = Some q ->
  survives n p (Lru (lcap s) ((fst q, v) :: without E k (items s))) (add k acc).
Proof.
  intros (C & D & L & O) N Q. pose proof (look_eq Q) as Qk. split; auto. simpl. split; [|split].
  - split; [|apply distinct_without; auto]. rewrite has_without, Qk. apply andb_false_r.
  - assert (S (length (without E k (items s))) = length (items s)); [|lia].
    apply without_one; auto. rewrite look_has, Q. auto.
  - destruct O as [(b & a & Qi & B & Bl)|(A & Al)].
    + left. exists ((fst q, v) :: without E k b), (without E k a).
      assert (Np : key_equal E k (fst p) = false) by (rewrite (good_sym G); auto).
      split.
      { rewrite Qi, without_app. simpl. rewrite Np. simpl. auto. }
      rewrite Qi in D. apply distinct_app_inv in D as (Db & _ & _).
      rewrite <- B. destruct (has E k b) eqn:Hb; simpl.
      * split.
        { intros k'. rewrite has_without. rewrite <- B. destruct (key_equal E k' (fst q)) eqn:X; simpl.
          - rewrite (has_keq (k' := k)); auto.
            rewrite (good_sym G) in Qk. eapply (good_trans G); eauto.
          - destruct (key_equal E k k') eqn:Y; simpl; [|apply andb_true_r].
            rewrite (good_sym G) in Y. rewrite (good_trans G _ _ _ Y Qk) in X. discriminate. }
        { rewrite <- Bl. apply without_one; auto. }
      * rewrite without_none by auto. split; [|rewrite Bl; auto].
        intros k'. rewrite <- B. f_equal. destruct (key_equal E k' (fst q)) eqn:X.
        -- symmetry. rewrite (good_sym G) in Qk. eapply (good_trans G); eauto.
        -- symmetry. apply not_true_is_false. intros Y. rewrite (good_trans G _ _ _ Y Qk) in X. discriminate.
    + right. split.
      * simpl. rewrite has_without, A, orb_false_r.
        apply not_true_is_false. intros X. rewrite (good_sym G) in Qk.
        rewrite (good_trans G _ _ _ X Qk) in N. discriminate.
      * destruct (existsb (key_equal E k) acc); simpl; lia.
Qed.

Lemma survives_add n p s acc k v : survives n p s acc -> n <> 0 -> key_equal E (fst p) k = false ->
  look E k (items s) = None ->
  survives n p (ltake (lcap s) (Lru (lcap s) ((k, v) :: items s))) (add k acc).
Proof.
  intros (C & D & L & O) Z N Q. rewrite C. destruct n as [|m]; [lia|].
  assert (Hk : has E k (items s) = false) by (rewrite look_has, Q; auto).
  split; auto. unfold ltake. cbn [items lcap]. split; [|split].
  - apply distinct_firstn. simpl. auto.
  - rewrite firstn_length. lia.
  - destruct O as [(b & a & Qi & B & Bl)|(A & Al)].
    + rewrite <- B. assert (Hb : has E k b = false).
      { rewrite Qi, has_app in Hk. apply orb_false_iff in Hk. tauto. }
      rewrite Hb. rewrite Qi in L, D. rewrite app_length in L. simpl in L. simpl firstn. rewrite Qi.
      destruct (le_lt_dec m (length b)) as [Le|Lt].
      * right. assert (length b = m) by lia. subst m. rewrite firstn_app, firstn_all, Nat.sub_diag.
        simpl. rewrite app_nil_r. split; [|lia].
        apply orb_false_iff. split; auto. destruct (distinct_app_inv D) as (_ & Dp & Da).
        apply not_true_is_false. intros X. unfold has in X. apply existsb_exists in X as (q & I & Y).
        specialize (Da q I). simpl in Da. apply orb_false_iff in Da as (Da & _).
        rewrite (good_sym G) in Y. congruence.
      * left. exists ((k, v) :: b), (firstn (m - length b - 1) a). split.
        { rewrite firstn_app, firstn_all2 by lia. replace (m - length b) with (S (m - length b - 1)) by lia. simpl.
          rewrite Nat.sub_0_r. auto. }
        split; [|simpl; lia]. intros k'. simpl. rewrite B. auto.
    + right. split.
      * apply not_true_is_false. intros X.
        assert (Y : has E (fst p) ((k, v) :: items s) = true).
        { unfold has in *. apply existsb_exists in X as (q & I & Y). apply existsb_exists. exists q. split; auto.
          rewrite <- (firstn_skipn (S m)). apply in_or_app; auto. }
        simpl in Y. rewrite N, A in Y. discriminate.
      * destruct (existsb (key_equal E k) acc); simpl; lia.
Qed.

Lemma survives_run n p calls : n <> 0 -> forall s acc, survives n p s acc ->
  (forall x, In x calls -> exists k, lkey x = Some k /\ key_equal E (fst p) k = false) ->
  exists answers s', lrun E calls s = (answers, Some s') /\
    survives n p s' (differs (luses calls answers) acc).
Proof.
  intros Z. induction calls as [|x t IH]; intros s acc S F.
  - exists [], s. auto.
  - rewrite lrun_cons.
    assert (X : exists r s1, lstep E x s = Some (r, s1) /\ survives n p s1 (differs (luse x r) acc)).
    { destruct (F x (or_introl eq_refl)) as (k & Kx & Nk). pose proof S as (C & _).
      assert (PUT : forall v, exists r s1, (let '((b, q), s') := lput E k v s in Some (Returned (RIns b q), s')) = Some (r, s1) /\
                 survives n p s1 (add k acc)).
      { intros v. unfold lput. rewrite C. destruct n; [lia|]. simpl Nat.eqb. cbv iota.
        destruct (look E k (items s)) as [(k0 & v0)|] eqn:Q.
        - do 2 eexists. split; eauto. pose proof (survives_use v S Nk Q) as U. rewrite C in U. exact U.
        - do 2 eexists. split; eauto. pose proof (survives_add v S Z Nk Q) as U. rewrite C in U. exact U. }
      assert (GET : forall q, look E k (items s) = Some q ->
                 survives n p (Lru (lcap s) (q :: without E k (items s))) (add k acc)).
      { intros (k0 & v0) Q. exact (survives_use v0 S Nk Q). }
      destruct x; simpl in Kx; inversion Kx; subst; simpl; try (apply PUT); unfold lget;
        destruct (look E k (items s)) as [(k0 & v0)|] eqn:Q; do 2 eexists; (split; [reflexivity|]); simpl; auto. }
    destruct X as (r & s1 & -> & S1).
    destruct (IH s1 _ S1) as (answers & s' & Rn & S'); [intros y I; apply F; right; auto|].
    rewrite Rn. exists (r :: answers), s'. split; auto. simpl. rewrite fold_left_app. exact S'.
Qed.

Lemma agrees_eq calls : (forall x, In x calls -> lkey (x : lcall) <> None) ->
  forall rs rs', @agrees K V calls rs rs' -> rs = rs'.
Proof.
  induction calls as [|x t IH]; intros F [|r rs] [|r' rs']; simpl; auto; try tauto.
  intros (A & B). f_equal; [|apply IH; auto; intros y I; apply F; simpl; auto].
  specialize (F x (or_introl eq_refl)). destruct x; simpl in *; congruence.
Qed.

Lemma survival w c l p n calls : reachable E w -> timed w c = false ->
  contents E c w (l ++ [p]) -> capacity_is E c w n ->
  (forall x, In x calls -> exists k, lkey x = Some k /\ key_equal E (fst p) k = false) ->
  exists outs w' l', run E (map (on c) calls) w = Finished outs w' /\ contents E c w' l' /\
    (has E (fst p) l' = true <-> length (different E (luses calls outs)) < n).
Proof.
  intros H T C N F. pose proof (lru_refinement G calls H T C N) as X.
  destruct (keys_unique G H (or_introl C)) as (D & Sz).
  pose proof (size_le_capacity G H Sz N) as Le. rewrite app_length in Le. simpl in Le.
  assert (Dr : distinct E (rev (l ++ [p]))).
  { eapply (distinct_perm G); [|exact D]. apply Permutation_rev. }
  rewrite rev_app_distr in X, Dr. simpl rev in X, Dr. simpl app in X, Dr.
  assert (S : survives n p (Lru n (p :: rev l)) []).
  { split; auto. split; [exact Dr|]. split; [simpl; rewrite rev_length; rewrite Nat.add_1_r in Le; exact Le|].
    left. exists [], (rev l). auto. }
  assert (Z : n <> 0) by lia.
  destruct (survives_run (calls := calls) Z S F) as (answers & s' & Rn & S').
  simpl app in X. rewrite Rn in X. destruct X as (outs & w' & Rw & A & C' & _).
  assert (outs = answers) by (eapply agrees_eq; eauto; intros x I; destruct (F x I) as (k & -> & _); discriminate).
  subst. exists answers, w', (rev (items s')). split; auto. split; auto.
  rewrite has_rev'. destruct S' as (_ & D' & L' & [(b & a & Qi & B & Bl)|(A' & Al)]).
  - unfold different. rewrite <- Bl, Qi. rewrite Qi, app_length in L'. simpl in L'. split; [lia|]. intros _.
    rewrite has_app. simpl. rewrite (good_refl G). apply orb_true_r.
  - unfold different. rewrite A'. split; [discriminate|]. intros; lia.
Qed.

End More.
