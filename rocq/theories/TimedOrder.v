(** Timed caches whose elements are in order of insertion. *)
From Coq Require Import List Arith ZArith Bool Permutation Lia Sorted.
Import ListNotations.
From Verif Require Import Monad Types Model Api Spec SpecStats SpecTimed Ref Lists SimBase SimRel SimOps SimIns SimErase SimIter SimNew SimObs SimExec RefEval SimRun LruProofs CallProofs LruMore Flat Global Safe Frame StatProofs StatMore TimedTrack TimedProofs.
Set Implicit Arguments.
Unset Strict Implicit.
Local Open Scope cpp_scope.

Section Order.
Context {K V : Type}.
Variable E : env K V.
Hypothesis G : good E.

Notation acache := (acache K V).
Notation aworld := (aworld K V).
Notation world := (world K V).
Notation entry := (entry K V).
Notation mp := (map (@pair_of K V)).
Implicit Types (a : acache) (aw : aworld) (w : world) (o : op K V) (e : entry).

(** ** Exactness, given the order *)
Lemma all_expired_exact w c l : reachable E w -> timed w c = true -> contents E c w l -> in_age_order E c w l ->
  exists b w', exec E (AllExpired c) w = Val (RBool b) w' /\
    (b = true <-> forall p, In p l -> old E c w (fst p) (clock E (w_reads w))).
Proof.
  intros H T C A. destruct (all_expired_last G H T C) as (b & w' & X & Q). exists b, w'. split; auto.
  rewrite Q. split.
  - intros O p I. destruct (@exists_last _ l) as (l0 & q & ->); [destruct l; easy|].
    apply in_app_or in I as [I|[<-|[]]]; [|eapply O; eauto].
    apply in_split in I as (l1 & l2 & ->). eapply A; [|eapply O; reflexivity].
    rewrite <- app_assoc. reflexivity.
  - intros O l0 p ->. apply O. apply in_or_app. simpl. auto.
Qed.

Lemma old_later w c k z z' : (forall x y, (x <= y)%Z -> (dcast E x <= dcast E y)%Z) -> reachable E w ->
  (z <= z')%Z -> old E c w k z -> old E c w k z'.
Proof.
  intros D H Z O. destruct (reach_rel G H) as (aw & R).
  destruct (slot (aw_caches aw) c) as [a|] eqn:Ha.
  - rewrite (old_iff G k z R Ha) in O. rewrite (old_iff G k z' R Ha). destruct O as (e & d & L & T & Q).
    exists e, d. split; auto. split; auto.
    assert (X : (dcast E (z - e_time e) <= dcast E (z' - e_time e))%Z) by (apply D; lia). lia.
  - exfalso. destruct O as (w' & O). unfold exec in O. simpl in O.
    assert (TF : timed w c = false).
    { unfold timed. pose proof (rel_slot R c) as X. rewrite Ha in X. destruct (slot (w_caches w) c); easy. }
    rewrite TF in O. discriminate.
Qed.

Lemma clear_expired_exact w c l n : monotone_time E -> reachable E w -> timed w c = true -> contents E c w l -> capacity_is E c w n ->
  in_age_order E c w l ->
  exists gone rest w', l = gone ++ rest /\ exec E (ClearExpired c) w = Val (RNat (length gone)) w' /\
    contents E c w' rest /\ capacity_is E c w' n /\
    (forall p, In p gone -> old E c w (fst p) (clock E (w_reads w' - 1))) /\
    (forall p, In p rest -> ~ old E c w (fst p) (clock E (w_reads w' - 1))).
Proof.
  intros (MC & MD) H T C CP A. destruct (clear_expired_prefix G H T C CP) as (gone & rest & w' & L & X & C' & CP' & O & N).
  exists gone, rest, w'. repeat (split; auto).
  - intros p I. apply In_nth_error in I as (j & J). destruct (O _ _ J) as (B & Q).
    eapply old_later; [exact MD|exact H| |exact Q]. apply MC. unfold during in B. lia.
  - destruct rest as [|q rest]; [easy|]. destruct N as (N1 & N2). rewrite N1.
    replace (S (w_reads w + length gone) - 1) with (w_reads w + length gone) by lia.
    intros p [<-|I]; auto. intros O'. apply N2. apply in_split in I as (l1 & l2 & ->).
    eapply A; [|exact O']. exact L.
Qed.

(** ** Caches whose elements are only inserted *)
Inductive sub {A} : list A -> list A -> Prop :=
| sub_nil l : sub [] l
| sub_skip x l l' : sub l l' -> sub l (x :: l')
| sub_take x l l' : sub l l' -> sub (x :: l) (x :: l').
Lemma sub_refl {A} (l : list A) : sub l l.
Proof. induction l; [constructor|apply sub_take; auto]. Qed.
Lemma sub_filter {A} f (l : list A) : sub (filter f l) l.
Proof. induction l; simpl; [constructor|]. destruct (f a); [apply sub_take|apply sub_skip]; auto. Qed.
Lemma sub_skipn {A} n (l : list A) : sub (skipn n l) l.
Proof. revert l; induction n; intros l; [apply sub_refl|]. destruct l; simpl; [constructor|]. apply sub_skip; auto. Qed.
Lemma sub_trans {A} (l1 l2 l3 : list A) : sub l1 l2 -> sub l2 l3 -> sub l1 l3.
Proof.
  intros A1 A2. revert l1 A1. induction A2; intros l1 A1.
  - inversion A1; subst; constructor.
  - apply sub_skip; auto.
  - inversion A1; subst; [constructor|apply sub_skip; auto|apply sub_take; auto].
Qed.
Lemma sub_in {A} (l l' : list A) x : sub l l' -> In x l -> In x l'.
Proof. induction 1; simpl; [easy|auto|]. intros [->|I]; auto. Qed.
Definition older e e' : Prop := (e_time e <= e_time e')%Z.
Lemma sub_sorted l l' : sub l l' -> StronglySorted older l' -> StronglySorted older l.
Proof.
  induction 1; intros S; [constructor|inversion S; auto|]. inversion S; subst. constructor; auto.
  rewrite Forall_forall in *. intros y I. apply H3. eapply sub_in; eauto.
Qed.
Lemma sorted_snoc l e : StronglySorted older l -> Forall (fun x => older x e) l -> StronglySorted older (l ++ [e]).
Proof.
  induction 1 as [|x l S IH F]; simpl; intros B; [repeat constructor|]. inversion B; subst. constructor; auto.
  apply Forall_app. split; auto.
Qed.

Lemma sub_removed k a : sub (a_ents (removed E k a)) (a_ents a).
Proof. apply sub_filter. Qed.
Lemma sub_lastn {A} n (l : list A) : sub (lastn n l) l.
Proof. apply sub_skipn. Qed.
Lemma sub_clear l : forall a n cnt, sub (a_ents (snd (fst (l_clear E l a n cnt)))) (a_ents a).
Proof.
  induction l as [|e l IH]; intros a n cnt; simpl; [apply sub_refl|].
  destruct (stale E (a_ttl a) e n); [|apply sub_refl]. eapply sub_trans; [apply IH|]. apply sub_filter.
Qed.
Lemma find_missed k a n s : fst (fst (fst (l_find E k a n))) = Val None s -> snd (fst (fst (l_find E k a n))) = a.
Proof. unfold l_find. destruct (lookup_ent E k (a_ents a)) as [e|]; auto. destruct (stale E (a_ttl a) e n); simpl; auto; discriminate. Qed.

Ltac stales := repeat match goal with |- context [if stale E ?t ?e ?n then _ else _] => destruct (stale E t e n) eqn:? end.
Ltac hots a k := destruct (a_hot_ent E a k) as [?e|]; [|destruct (lookup_ent E k (a_ents a)) as [?e|]].

Lemma local_order ch o c a n oc : target o = Some c -> reuses c o oc = false ->
  outcome_in (fst (fst (fst (local E ch o a n)))) = Some oc ->
  let a' := snd (fst (fst (local E ch o a n))) in
  sub (a_ents a') (a_ents a) \/
  exists k v l, sub l (a_ents a) /\ a_ents a' = l ++ [Ent k v (stamp_at E a n)] /\ snd (local E ch o a n) = tkn a.
Proof.
  intros T RU. cbv zeta.
  assert (ONE : forall k v, let r := insert_c E k v (stamp_at E a n) a in
    (forall p, oc = Returned (RIns false (Some p)) -> False) ->
    outcome_in (val (RIns (fst (fst r)) (option_map pair_of (snd (fst r))))) = Some oc ->
    sub (a_ents (snd r)) (a_ents a) \/
    exists l, sub l (a_ents a) /\ a_ents (snd r) = l ++ [Ent k v (stamp_at E a n)] /\ l_insert_ticks E k a = tkn a).
  { intros k v r NU O. unfold r in *. clear r. unfold insert_c in *. unfold l_insert_ticks.
    destruct (Nat.eqb_spec (a_cap a) 0) as [Z|Z]; [left; apply sub_refl|].
    destruct (lookup_ent E k (a_ents a)) as [e|] eqn:L; simpl in *.
    - exfalso. eapply NU. inversion O. reflexivity.
    - right. exists (lastn (a_cap a - 1) (a_ents a)).
      split; [apply sub_lastn|]. split; [apply lastn_snoc; auto|]. auto. }
  destruct o; inversion T; subst; simpl in RU; rewrite ?Nat.eqb_refl in RU; try discriminate RU; cbn [local];
    try (intros _; left; simpl; apply sub_refl).
  - intros O. assert (NU : forall p, oc = Returned (RIns false (Some p)) -> False) by (intros p ->; discriminate).
    destruct (ONE k v NU O) as [H|(l & S & Q & TK)]; auto. right. exists k, v, l. auto.
  - intros O. assert (NU : forall p, oc = Returned (RIns false (Some p)) -> False) by (intros p ->; discriminate).
    destruct (ONE k v NU O) as [H|(l & S & Q & TK)]; auto. right. exists k, v, l. auto.
  - unfold l_find. destruct (lookup_ent E k (a_ents a)) as [e|]; stales; simpl; intros O; inversion O; subst; try discriminate RU; left; apply sub_refl.
  - destruct (lookup_ent E k (a_ents a)) as [e|]; stales; simpl; intros O; inversion O; subst; try discriminate RU; left; apply sub_refl.
  - unfold l_contains. hots a k; stales; simpl; intros O; inversion O; subst; try discriminate RU; left; apply sub_refl.
  - unfold l_lookup. hots a k; stales; simpl; intros O; inversion O; subst; try discriminate RU; left; apply sub_refl.
  - unfold l_lookup. hots a k; stales; simpl; intros O; inversion O; subst; try discriminate RU; left; apply sub_refl.
  - intros _. destruct (lookup_ent E k (a_ents a)); left; [apply sub_removed|apply sub_refl].
  - unfold l_find. destruct (lookup_ent E k (a_ents a)) as [e|]; stales; simpl; intros O; inversion O; subst; try discriminate RU; left; apply sub_refl.
  - intros _. left. destruct (nth_error (a_ents a) n0); stales; simpl; try apply sub_refl; apply sub_filter.
  - intros _. left. destruct (Nat.leb (length (a_ents a)) n0); [apply sub_refl|]. destruct (nth_error (a_ents a) ch); [apply sub_filter|apply sub_refl].
  - intros _. left. apply sub_lastn.
  - intros _. left. apply sub_lastn.
  - intros _. left. apply sub_lastn.
  - intros _. left. pose proof (sub_clear (a_ents a) a n 0) as S. destruct (l_clear E (a_ents a) a n 0) as ((cnt & a') & n'). exact S.
  - intros _. left. destruct (last_ent (a_ents a)); apply sub_refl.
  - intros _. left. destruct (a_ents a) eqn:Q; simpl; rewrite ?Q; apply sub_refl.
  - intros _. left. destruct (lookup_ent E k (a_ents a)); apply sub_refl.
  - intros _. left. destruct (last_ent (a_ents a)); apply sub_refl.
  - intros _. left. destruct (nth_error (a_ents a) n0); apply sub_refl.
  - intros _. left. destruct (nth_error (a_ents a) n0); apply sub_refl.
Qed.

(** The elements are sorted by insertion time, and inserted in the past. *)
Definition ordered_at n a : Prop :=
  StronglySorted older (a_ents a) /\ Forall (fun e => exists i, i < n /\ e_time e = clock E i) (a_ents a) /\ a_ttl a <> None.
Lemma ordered_mono n n' a : n <= n' -> ordered_at n a -> ordered_at n' a.
Proof.
  intros L (S & F & T). split; auto. split; auto. eapply Forall_impl; [|exact F]. simpl. intros e (i & B & Q). exists i. split; auto. lia.
Qed.
Lemma ordered_ents n a a' : a_ents a' = a_ents a -> a_ttl a' = a_ttl a -> ordered_at n a -> ordered_at n a'.
Proof. unfold ordered_at. intros -> ->. auto. Qed.

Lemma step_order ch o aw oc aw' c a : (forall i j, i <= j -> (clock E i <= clock E j)%Z) -> copy_free o = true ->
  after (astep E ch o aw) oc aw' -> slot (aw_caches aw) c = Some a -> reuses c o oc = false ->
  ordered_at (aw_reads aw) a ->
  match slot (aw_caches aw') c with Some a' => ordered_at (aw_reads aw') a' | None => False end.
Proof.
  intros MC CF ST Ha RU OR.
  assert (SAME : aw_caches aw' = aw_caches aw -> aw_reads aw' = aw_reads aw ->
    match slot (aw_caches aw') c with Some a' => ordered_at (aw_reads aw') a' | None => False end).
  { intros Q1 Q2. rewrite Q1, Q2, Ha. auto. }
  unfold astep in ST. destruct (a_well_formed aw o) eqn:WF; simpl in ST.
  2:{ destruct oc; simpl in ST; [|easy]. destruct ST as (<- & <-). apply SAME; auto. }
  destruct (target o) as [d|] eqn:T.
  { unfold two in ST. destruct (slot (aw_caches aw) d) as [b|] eqn:Hb.
    2:{ destruct oc; simpl in ST; [|easy]. destruct ST as (_ & <-). apply SAME; auto. }
    destruct (after_give ST) as (-> & O). rewrite (give_caches E b _ Hb).
    assert (RD : aw_reads (awith d (snd (fst (fst (local E ch o b (aw_reads aw))))) (noted E b (snd (fst (local E ch o b (aw_reads aw))))
             (ticks (snd (local E ch o b (aw_reads aw))) aw))) = snd (local E ch o b (aw_reads aw)) + aw_reads aw)
      by (simpl; rewrite noted_reads; auto).
    rewrite RD. destruct (Nat.eqb_spec d c) as [->|N].
    - rewrite Ha in Hb; inversion Hb; subst b.
      pose proof (proj1 (local_attr E ch o a (aw_reads aw))) as TT. simpl in TT.
      destruct OR as (S & F & TA). split; [|split; [|rewrite TT; auto]].
      + destruct (local_order T RU O) as [SB|(k & v & l & SB & Q & TK)]; [eapply sub_sorted; eauto|].
        rewrite Q. apply sorted_snoc; [eapply sub_sorted; eauto|].
        rewrite Forall_forall in *. intros x I. destruct (F x (sub_in SB I)) as (i & B & Q').
        unfold older. rewrite Q'. simpl. unfold stamp_at. destruct (a_ttl a); [|easy]. apply MC. lia.
      + destruct (local_order T RU O) as [SB|(k & v & l & SB & Q & TK)].
        * rewrite Forall_forall in *. intros x I. destruct (F x (sub_in SB I)) as (i & B & Q'). exists i. split; auto. lia.
        * rewrite Q, TK. unfold tkn, stamp_at. destruct (a_ttl a) as [d|]; [|easy]. apply Forall_app. split.
          -- rewrite Forall_forall in *. intros x I. destruct (F x (sub_in SB I)) as (i & B & Q'). exists i. split; [lia|auto].
          -- repeat constructor. exists (aw_reads aw). simpl. split; auto; lia.
    - rewrite Ha. eapply ordered_mono; [|eauto]. lia. }
  destruct (stats_target o) as [d|] eqn:S.
  { unfold two in ST.
    destruct (slot (aw_caches aw) d) as [b|]; [|destruct oc; simpl in ST; [|easy]; destruct ST as (_ & <-); apply SAME; auto].
    destruct (a_stats b) as [s|]; [|destruct oc; simpl in ST; [easy|]; destruct ST as (_ & <-); apply SAME; auto].
    destruct (slot (aw_stats aw) s) as [x|]; [|easy]. destruct (on_stats E o x) as (r & x').
    destruct r, oc; simpl in ST; try easy; destruct ST as (_ & <-); apply SAME; auto. }
  destruct (building o) as [((cap, ttl), l)|] eqn:B.
  { destruct (l_inserts E l 0 (fresh_a cap ttl) (aw_reads aw)) as ((cnt & a') & n').
    destruct oc; simpl in ST; [|easy]. destruct ST as (_ & <-). simpl.
    rewrite slot_app_lt by (eapply slot_lt; eauto). rewrite Ha. eapply ordered_mono; [|eauto]. lia. }
  destruct o; try discriminate; simpl in WF.
  - (* Move *) unfold two in ST. destruct (slot (aw_caches aw) c0) as [b|] eqn:Hb; [|unfold a_alive in WF; rewrite Hb in WF; discriminate].
    destruct (junk E) as [n|]; [|easy]. destruct oc as [r|]; simpl in ST; [|easy]. destruct ST as (<- & <-).
    simpl in RU. apply Nat.eqb_neq in RU. simpl.
    rewrite slot_app_lt by (rewrite upd_length; eapply slot_lt; eauto). rewrite slot_upd_other by auto. rewrite Ha. auto.
  - (* Destroy *) destruct oc as [r|]; simpl in ST; [|easy]. destruct ST as (<- & <-). simpl.
    simpl in RU. apply Nat.eqb_neq in RU. rewrite slot_upd_other by auto. rewrite Ha. auto.
  - (* CopyAssign *) destruct oc as [r|]; simpl in ST; [|easy]. destruct ST as (<- & <-). apply SAME; auto.
  - (* MoveAssign *) unfold two in ST. destruct (kind_get WF) as (b & b' & Hb & Hb'). rewrite Hb, Hb' in ST.
    simpl in RU. apply orb_false_elim in RU as (N1 & N2). apply Nat.eqb_neq in N1, N2.
    destruct (Nat.eqb_spec c0 d) as [->|N]; (destruct oc as [r|]; simpl in ST; [|easy]; destruct ST as (<- & <-)); [apply SAME; auto|].
    simpl. rewrite !slot_upd_other by auto. rewrite Ha. auto.
  - (* Swap *) unfold two in ST. destruct (kind_get WF) as (b & b' & Hb & Hb'). rewrite Hb, Hb' in ST.
    simpl in RU. apply orb_false_elim in RU as (N1 & N2). apply Nat.eqb_neq in N1, N2.
    destruct (Nat.eqb_spec c0 d) as [->|N]; (destruct oc as [r|]; simpl in ST; [|easy]; destruct ST as (<- & <-)); [apply SAME; auto|].
    simpl. rewrite !slot_upd_other by auto. rewrite Ha. auto.
  - (* Equal *) unfold two in ST. destruct (kind_get WF) as (b & b' & Hb & Hb'). rewrite Hb, Hb' in ST.
    destruct oc as [r|]; simpl in ST; [|easy]. destruct ST as (<- & <-). apply SAME; auto.
  - (* MonitorNew *) unfold two in ST. destruct (slot (aw_caches aw) c0) as [b|] eqn:Hb; [|unfold a_alive in WF; rewrite Hb in WF; discriminate].
    destruct oc as [r|]; simpl in ST; [|easy]. destruct ST as (<- & <-). simpl.
    destruct (Nat.eq_dec c0 c) as [->|N].
    + erewrite slot_upd_same by eauto. rewrite Ha in Hb; inversion Hb; subst. eapply ordered_ents; [| |exact OR]; auto.
    + rewrite slot_upd_other by auto. rewrite Ha. auto.
Qed.

Lemma unordered_reuses c d r : reuses c (@Unordered K V d) r = false.
Proof. destruct r; auto. Qed.

Lemma run_order ops : forall w aw c a outs w', (forall i j, i <= j -> (clock E i <= clock E j)%Z) ->
  rel E w aw -> slot (aw_caches aw) c = Some a -> ordered_at (aw_reads aw) a -> forallb copy_free ops = true ->
  run E ops w = Finished outs w' -> inserts_only c ops outs = true ->
  exists aw', rel E w' aw' /\
    match slot (aw_caches aw') c with Some a' => ordered_at (aw_reads aw') a' | None => False end.
Proof.
  induction ops as [|o t IH]; intros w aw c a outs w' MC R Ha OR CF RN IO.
  - apply run_inv in RN as (-> & ->). exists aw. rewrite Ha. auto.
  - simpl in CF. apply andb_prop in CF as (CF & CFt).
    apply run_inv in RN as (w1 & r & rs & -> & RN & X). simpl in IO. apply andb_prop in IO as (IO & IOt).
    apply negb_true_iff in IO.
    assert (C : call E o w r w1) by (destruct X as [(x & -> & X)|(e & -> & X)]; exact X).
    destruct (call_any G R CF C) as (ch & oc' & aw1 & R1 & ST & OC).
    assert (RU : reuses c o oc' = false) by (destruct OC as [->|(d & ->)]; auto using unordered_reuses).
    pose proof (step_order MC CF ST Ha RU OR) as S.
    destruct (slot (aw_caches aw1) c) as [a1|] eqn:Ha1; [|easy]. eapply IH; eauto.
Qed.

Lemma sorted_split l1 (e : entry) l2 e' l3 : StronglySorted older (l1 ++ e :: l2 ++ e' :: l3) -> older e e'.
Proof.
  induction l1 as [|x l1 IH]; simpl; intros S; inversion S; subst; auto.
  rewrite Forall_forall in H2. apply H2. apply in_or_app. simpl. auto.
Qed.

(** A timed cache whose elements are inserted once and never used again. *)
Theorem inserted_order w0 o c ttl cap w1 ops outs w l : monotone_time E -> reachable E w0 -> builds (Some ttl) o cap [] ->
  call E o w0 (Returned (RNat c)) w1 -> forallb copy_free ops = true -> run E ops w1 = Finished outs w ->
  inserts_only c ops outs = true -> contents E c w l -> in_age_order E c w l.
Proof.
  intros (MC & MD) H B C CF RN IO CT. destruct (reach_rel G H) as (aw & R).
  assert (BO : building o = Some (cap, Some ttl, []) /\ copy_free o = true).
  { inversion B; subst; auto. }
  destruct BO as (BO & CFo).
  destruct (call_any G R CFo C) as (ch & oc' & aw1 & R1 & ST & OC).
  assert (oc' = Returned (RNat c)) by (destruct OC as [|(d & ->)]; [auto|discriminate]). subst oc'.
  unfold astep in ST.
  assert (X : a_well_formed aw o = true /\ target o = None /\ stats_target o = None).
  { destruct o; try discriminate BO; auto. }
  destruct X as (X1 & X2 & X3). rewrite X1, X2, X3, BO in ST. simpl in ST. destruct ST as (Q & <-). inversion Q; subst c. clear Q.
  assert (Ha : slot (aw_caches (anew (fresh_a cap (Some ttl)) (aw_reads aw - aw_reads aw) aw)) (length (aw_caches aw)) = Some (fresh_a cap (Some ttl)))
    by apply slot_app_new.
  assert (OR : ordered_at (aw_reads (anew (fresh_a cap (Some ttl)) (aw_reads aw - aw_reads aw) aw)) (fresh_a cap (Some ttl))).
  { split; [constructor|]. split; [constructor|]. discriminate. }
  destruct (run_order MC R1 Ha OR CF RN IO) as (aw' & R' & S).
  destruct (contents_inv G R' CT) as (a' & Ha' & ->). rewrite Ha' in S. destruct S as (S & _ & TT).
  intros l1 p l2 q l3 z L O.
  assert (DK : dkeys E (a_ents a')) by exact (rel_dkeys R' Ha').
  (* split the entries the same way *)
  assert (SP : exists m1 e m2 e' m3, a_ents a' = m1 ++ e :: m2 ++ e' :: m3 /\ pair_of e = p /\ pair_of e' = q).
  { revert L. generalize (a_ents a'). clear. intros es L.
    apply map_eq_app in L as (m1 & r1 & -> & _ & L). destruct r1 as [|e r1]; [discriminate|]. simpl in L. inversion L as [[L1 L2]]. clear L.
    apply map_eq_app in L2 as (m2 & r2 & -> & _ & L). destruct r2 as [|e' r2]; [discriminate|]. simpl in L. inversion L as [[L3 L4]].
    exists m1, e, m2, e', r2. auto. }
  destruct SP as (m1 & e & m2 & e' & m3 & Q & <- & <-). simpl in *.
  rewrite (old_iff G _ _ R' Ha') in O. rewrite (old_iff G _ _ R' Ha').
  destruct O as (x & d & Lx & T & O).
  assert (I' : In e' (a_ents a')) by (rewrite Q; apply in_or_app; right; right; apply in_or_app; simpl; auto).
  assert (I : In e (a_ents a')) by (rewrite Q; apply in_or_app; simpl; auto).
  rewrite (in_lookup G DK I' (good_refl G _)) in Lx. inversion Lx; subst x.
  exists e, d. split; [apply (in_lookup G DK I (good_refl G _))|]. split; auto.
  rewrite Q in S. apply sorted_split in S. unfold older in S.
  assert (dcast E (z - e_time e') <= dcast E (z - e_time e))%Z by (apply MD; lia). lia.
Qed.

End Order.
