(** Simulation of construction, destruction, swap, move and assignment. *)
From Coq Require Import List Arith ZArith Bool Permutation Lia.
Import ListNotations.
From Verif Require Import Monad Types Model Api Spec Ref Lists SimBase SimRel SimOps SimIns SimErase.
Set Implicit Arguments.
Unset Strict Implicit.
Local Open Scope cpp_scope.

Section New.
Context {K V : Type}.
Variable E : env K V.
Hypothesis G : good E.

Notation entry := (entry K V).
Notation world := (world K V).
Notation store := (store K V).
Notation mnode := (mnode K V).
Notation acache := (acache K V).
Notation aworld := (aworld K V).
Notation cell := (@cell K V).
Notation rel := (rel E).
Notation rep := (rep E).
Implicit Types (w : world) (s : store) (aw : aworld).

(** ** A new, empty cache *)

Definition aalloc (a : acache) aw : aworld :=
  MkAW (aw_caches aw ++ [Some a]) (aw_stats aw) (aw_log aw) (aw_reads aw).
Definition calloc (x : cache) (s : store) w : world :=
  MkWorld (w_caches w ++ [Some x]) (w_stores w ++ [Some s]) (w_stats w) (w_log w) (w_reads w) (w_steps w).

Lemma rel_alloc w aw x s a l : rel w aw -> c_rid x = length (w_stores w) ->
  rep x s a l -> a_stats a = None ->
  rel (calloc x s w) (aalloc a aw).
Proof.
  intros R Hr Rp Hs.
  constructor; simpl; try apply R.
  - rewrite !app_length, (rel_len R); auto.
  - intros c. destruct (Nat.lt_trichotomy c (length (w_caches w))) as [L|[->|L]].
    + rewrite !slot_app_lt by (rewrite <- ?(rel_len R); auto).
      pose proof (rel_slot R c) as S.
      destruct (slot (w_caches w) c) as [y|] eqn:Y, (slot (aw_caches aw) c); auto.
      destruct S as (t & m & S1 & S2). exists t, m; split; auto.
      rewrite slot_app_lt; auto. eapply slot_lt; eauto.
    + rewrite slot_app_new, (rel_len R), slot_app_new. exists s, l. rewrite Hr, slot_app_new. auto.
    + rewrite !slot_overflow; auto; rewrite app_length; simpl; rewrite <- ?(rel_len R); lia.
  - intros c d y z H1 H2 Q.
    apply slot_app_some in H1 as [(L1 & H1)|(-> & ->)];
    apply slot_app_some in H2 as [(L2 & H2)|(-> & ->)]; auto.
    + eapply (rel_inj R); eauto.
    + exfalso. pose proof (rel_slot R c) as S. rewrite H1 in S.
      destruct (slot (aw_caches aw) c); [|easy]. destruct S as (t & m & S & _).
      apply slot_lt in S. lia.
    + exfalso. pose proof (rel_slot R d) as S. rewrite H2 in S.
      destruct (slot (aw_caches aw) d); [|easy]. destruct S as (t & m & S & _).
      apply slot_lt in S. lia.
  - intros c b i H Q. apply slot_app_some in H as [(L1 & H)|(-> & ->)].
    + eapply (rel_sts R); eauto.
    + congruence.
Qed.

Lemma rep_empty r cap ttl : rep (MkCache r None cap None no_callbacks ttl) empty_store
  (MkA [] false cap None no_callbacks ttl) [].
Proof.
  constructor; simpl; auto; try lia; try discriminate.
  constructor; simpl; auto using NoDup_nil.
Qed.

Lemma new_cache_sim w aw cap ttl : rel w aw ->
  simr E (fun c c' _ aw' => c = c' /\
            slot (aw_caches aw') c = Some (MkA [] false cap None no_callbacks ttl))
    (new_cache cap ttl w) (a_newcache cap ttl aw).
Proof.
  intros R. unfold new_cache, a_newcache, bind, alloc_store, alloc_cache, a_new. simpl.
  split.
  - apply (@rel_alloc w aw (MkCache (length (w_stores w)) None cap None no_callbacks ttl) empty_store
             (MkA [] false cap None no_callbacks ttl) []); auto. apply rep_empty.
  - rewrite (rel_len R). split; auto. apply slot_app_new.
Qed.

Lemma a_insert_val aw c k v a : slot (aw_caches aw) c = Some a ->
  exists r aw' a', a_insert E c k v aw = Val r aw' /\ slot (aw_caches aw') c = Some a'.
Proof.
  intros H. unfold a_insert, bind. erewrite a_get_ev by eauto.
  destruct (Nat.eqb (a_cap a) 0); [eexists _, _, _; split; [reflexivity|eauto]|].
  destruct (lookup_ent E k (a_ents a)).
  - erewrite a_ents_put_ev by eauto. eexists _, _, _; split; [reflexivity|].
    simpl; erewrite slot_upd_same; eauto.
  - unfold a_timestamp. destruct (a_ttl a).
    + rewrite a_now_ev. erewrite a_ents_put_ev by (simpl; eauto).
      eexists _, _, _; split; [reflexivity|]. simpl; erewrite slot_upd_same; eauto.
    + simpl. erewrite a_ents_put_ev by eauto.
      eexists _, _, _; split; [reflexivity|]. simpl; erewrite slot_upd_same; eauto.
Qed.

Lemma a_insert_range_val l : forall n aw c a, slot (aw_caches aw) c = Some a ->
  exists r aw', foldM (fun cnt p => r <- a_insert E c (fst p) (snd p);;
                       ret (if fst r then S cnt else cnt)) l n aw = Val r aw'.
Proof.
  induction l as [|p l IH]; intros n aw c a H; simpl.
  - eexists _, _; reflexivity.
  - rewrite bind_assoc. destruct (a_insert_val (fst p) (snd p) H) as (r & aw' & a' & E1 & H').
    rewrite (bind_val _ _ _ E1), bind_ret. eauto.
Qed.

Lemma with_new_sim w aw cap ttl l body : rel w aw ->
  (forall c w aw a, rel w aw -> slot (aw_caches aw) c = Some a ->
     simr E (fun m m' w' aw' => m = m' /\ exists a', slot (aw_caches aw') c = Some a')
       (body c w) (a_insert_range E c l aw)) ->
  simr E (fun c c' _ _ => c = c') (with_new cap ttl body w) (a_newfrom E cap ttl l aw).
Proof.
  intros R S. unfold with_new, a_newfrom.
  eapply sim_bind; [apply new_cache_sim; auto|].
  intros c c' w' aw' R' (<- & Ha). specialize (S c w' aw' _ R' Ha).
  destruct (@a_insert_range_val l 0 aw' c _ Ha) as (m & aw'' & Ev).
  unfold a_insert_range in S |- *. rewrite (bind_val _ _ _ Ev). rewrite Ev in S.
  destruct (body c w'); simpl in S; try easy.
Qed.

Lemma new_from_sim w aw cap ttl l : rel w aw ->
  simr E (fun c c' _ _ => c = c') (new_from E cap ttl l w) (a_newfrom E cap ttl l aw).
Proof. intros R. apply with_new_sim; auto. intros. eapply insert_range_sim; eauto. Qed.

Lemma new_from_move_sim w aw cap ttl l : rel w aw ->
  simr E (fun c c' _ _ => c = c') (new_from_move E cap ttl l w) (a_newfrom E cap ttl l aw).
Proof. intros R. apply with_new_sim; auto. intros. eapply insert_move_sim; eauto. Qed.

(** ** Destruction *)

Lemma destroy_sim w aw c a : rel w aw -> slot (aw_caches aw) c = Some a ->
  simr E (fun _ _ _ _ => True) (destroy c w) ((a_get c;;; a_drop c) aw).
Proof.
  intros R Ha. destruct (rel_get _ R Ha) as (x & s & l & At & Rp).
  unfold destroy. ev get_cache_ev. aev a_get_ev.
  unfold drop_store, drop_cache, a_drop, modify, bind; simpl. split; auto.
  destruct At as (Hx & Hs).
  constructor; simpl; try apply R.
  - rewrite !upd_length. apply (rel_len R).
  - intros d. destruct (Nat.eq_dec c d) as [<-|N].
    + erewrite !slot_upd_same by eauto. auto.
    + rewrite !slot_upd_other by auto. pose proof (rel_slot R d) as S.
      destruct (slot (w_caches w) d) as [y|] eqn:Y, (slot (aw_caches aw) d); auto.
      destruct S as (t & m & S1 & S2). exists t, m; split; auto.
      rewrite slot_upd_other; auto. intro Q. apply N. eapply (rel_inj R); eauto.
  - intros d e y z D1 D2 Q.
    destruct (Nat.eq_dec c d) as [<-|N]; [erewrite slot_upd_same in D1 by eauto; discriminate|].
    destruct (Nat.eq_dec c e) as [<-|N']; [erewrite slot_upd_same in D2 by eauto; discriminate|].
    rewrite slot_upd_other in D1, D2 by auto. eapply (rel_inj R); eauto.
  - intros d b i. destruct (Nat.eq_dec c d) as [<-|N].
    + erewrite slot_upd_same by eauto. discriminate.
    + rewrite slot_upd_other by auto. apply (rel_sts R).
Qed.

(** ** Swap *)

Lemma rel_exchange w aw w' aw' c d x y sx sy a b x' y' a' b' lx ly :
  rel w aw -> c <> d -> at_ w c x sx -> at_ w d y sy ->
  slot (aw_caches aw) c = Some a -> slot (aw_caches aw) d = Some b ->
  w_caches w' = upd (upd (w_caches w) c (Some x')) d (Some y') ->
  w_stores w' = w_stores w -> w_stats w' = w_stats w -> w_log w' = w_log w ->
  w_reads w' = w_reads w ->
  aw' = MkAW (upd (upd (aw_caches aw) c (Some a')) d (Some b')) (aw_stats aw) (aw_log aw) (aw_reads aw) ->
  c_rid x' = c_rid y -> c_rid y' = c_rid x ->
  rep x' sy a' ly -> rep y' sx b' lx ->
  (forall i, a_stats a' = Some i -> slot (aw_stats aw) i <> None) ->
  (forall i, a_stats b' = Some i -> slot (aw_stats aw) i <> None) ->
  rel w' aw'.
Proof.
  intros R N (Hx & Sx) (Hy & Sy) Ha Hb C1 C2 C3 C4 C5 -> Rx Ry Px Py Ta Tb.
  assert (Hy' : forall v, slot (upd (w_caches w) c v) d = Some y) by (intros; rewrite slot_upd_other; auto).
  assert (Hb' : forall v, slot (upd (aw_caches aw) c v) d = Some b) by (intros; rewrite slot_upd_other; auto).
  assert (L : forall e z, slot (w_caches w') e = Some z ->
     exists e0 z0, slot (w_caches w) e0 = Some z0 /\ c_rid z0 = c_rid z /\
       ((e = c /\ e0 = d) \/ (e = d /\ e0 = c) \/ (e <> c /\ e <> d /\ e0 = e))).
  { intros e z H. rewrite C1 in H. destruct (Nat.eq_dec d e) as [<-|Nd].
    - erewrite slot_upd_same in H by eauto. inversion H; subst. exists c, x. intuition.
    - rewrite slot_upd_other in H by auto. destruct (Nat.eq_dec c e) as [<-|Nc].
      + erewrite slot_upd_same in H by eauto. inversion H; subst. exists d, y. intuition.
      + rewrite slot_upd_other in H by auto. exists e, z. intuition. }
  constructor; simpl.
  - rewrite C1, !upd_length. apply (rel_len R).
  - intros e. rewrite C1, C2. destruct (Nat.eq_dec d e) as [<-|Nd].
    + erewrite !slot_upd_same by eauto. exists sx, lx. rewrite Ry; auto.
    + rewrite !(@slot_upd_other _ _ d e) by auto. destruct (Nat.eq_dec c e) as [<-|Nc].
      * erewrite !slot_upd_same by eauto. exists sy, ly. rewrite Rx; auto.
      * rewrite !slot_upd_other by auto. apply (rel_slot R).
  - intros e f z z' H1 H2 Q. apply L in H1 as (e0 & z0 & H1 & Q1 & D1).
    apply L in H2 as (f0 & z0' & H2 & Q2 & D2).
    assert (e0 = f0) by (eapply (rel_inj R); eauto; congruence). subst f0. intuition congruence.
  - rewrite C3; apply (rel_stats R).
  - rewrite C4; apply (rel_log R).
  - rewrite C5; apply (rel_reads R).
  - intros e z i H Q. destruct (Nat.eq_dec d e) as [<-|Nd].
    + erewrite slot_upd_same in H by eauto. inversion H; subst; auto.
    + rewrite slot_upd_other in H by auto. destruct (Nat.eq_dec c e) as [<-|Nc].
      * erewrite slot_upd_same in H by eauto. inversion H; subst; auto.
      * rewrite slot_upd_other in H by auto. eapply (rel_sts R); eauto.
Qed.

Lemma rep_graft x s a l st cb ttl : rep x s a l ->
  rep (MkCache (c_rid x) (c_last x) (c_cap x) st cb ttl) s
      (MkA (a_ents a) (a_hot a) (a_cap a) st cb ttl) l.
Proof. intros R. constructor; simpl; try apply R; auto. Qed.

Lemma a_put_ev c (a : acache) aw : a_put c a aw = Val tt (awith c a aw).
Proof. auto. Qed.

Lemma swap_sim w aw c d a b : rel w aw -> slot (aw_caches aw) c = Some a ->
  slot (aw_caches aw) d = Some b ->
  simr E (fun _ _ _ _ => True) (swap c d w) (a_swap true c d aw).
Proof.
  intros R Ha Hb. destruct (rel_get _ R Ha) as (x & sx & lx & Ax & Px).
  destruct (rel_get _ R Hb) as (y & sy & ly & Ay & Py).
  pose proof Ax as (Hx & Sx). pose proof Ay as (Hy & Sy).
  unfold swap, a_swap. ev get_cache_ev. ev get_cache_ev. aev a_get_ev. aev a_get_ev.
  destruct (Nat.eq_dec c d) as [<-|N].
  - rewrite Nat.eqb_refl. assert (b = a) by congruence. subst b. assert (y = x) by congruence. subst y.
    aev a_put_ev. rewrite a_put_ev, awith_awith.
    replace (MkA (a_ents a) (a_hot a) (a_cap a) (a_stats a) (a_cbs a) (a_ttl a)) with a by (destruct a; auto).
    rewrite awith_same by auto.
    unfold base_swap. rewrite bind_assoc. ev get_cache_ev. rewrite bind_assoc. ev get_cache_ev.
    rewrite Nat.eqb_refl, bind_ret. ev get_cache_ev.
    replace (MkCache (c_rid x) (c_last x) (c_cap x) (c_stats x) (c_cbs x) (c_ttl x)) with x by (destruct x; auto).
    ev put_cache_ev. rewrite setC_same by auto. ev get_cache_ev.
    replace (MkCache (c_rid x) (c_last x) (c_cap x) (c_stats x) (c_cbs x) (c_ttl x)) with x by (destruct x; auto).
    rewrite put_cache_ev, setC_same by auto. simpl. auto.
  - destruct (Nat.eqb_spec c d) as [Q|_]; [congruence|].
    aev a_put_ev. rewrite a_put_ev.
    unfold base_swap. rewrite bind_assoc. ev get_cache_ev. rewrite bind_assoc. ev get_cache_ev.
    destruct (Nat.eqb_spec c d) as [Q|_]; [congruence|].
    rewrite bind_assoc. ev put_cache_ev. ev put_cache_ev.
    match goal with |- simr _ _ (bind (get_cache c) _ ?w1) _ =>
      assert (H1 : slot (w_caches w1) c = Some (MkCache (c_rid y) (c_last y) (c_cap y) (c_stats x) (c_cbs x) (c_ttl x))) end.
    { simpl. rewrite slot_upd_other by auto. erewrite slot_upd_same; eauto. }
    ev (get_cache_ev _ _ H1). ev put_cache_ev. cbn [c_rid c_last c_cap c_stats c_cbs c_ttl].
    match goal with |- simr _ _ (bind (get_cache d) _ ?w1) _ =>
      assert (H2 : slot (w_caches w1) d = Some (MkCache (c_rid x) (c_last x) (c_cap x) (c_stats y) (c_cbs y) (c_ttl y))) end.
    { simpl. rewrite slot_upd_other by auto. erewrite slot_upd_same; eauto. rewrite slot_upd_other; eauto. }
    ev (get_cache_ev _ _ H2). rewrite put_cache_ev. cbn [c_rid c_last c_cap c_stats c_cbs c_ttl].
    split; auto.
    rewrite (rp_stats Px), (rp_cbs Px), (rp_ttl Py), (rp_stats Py), (rp_cbs Py), (rp_ttl Px).
    eapply (rel_exchange R N Ax Ay Ha Hb);
      [simpl; rewrite (@upd_comm _ (upd _ c _) d c) by auto; rewrite !upd_upd; reflexivity|reflexivity|reflexivity|reflexivity|reflexivity|reflexivity|reflexivity|reflexivity| | | |].

    + apply (rep_graft (a_stats a) (a_cbs a) (a_ttl b) Py).
    + apply (rep_graft (a_stats b) (a_cbs b) (a_ttl a) Px).
    + simpl. intros i; apply (rel_sts_of R Ha).
    + simpl. intros i; apply (rel_sts_of R Hb).
Qed.

Lemma base_swap_sim w aw c d a b : rel w aw -> slot (aw_caches aw) c = Some a ->
  slot (aw_caches aw) d = Some b ->
  simr E (fun _ _ _ aw' => (exists a', slot (aw_caches aw') c = Some a') /\
                           exists b', slot (aw_caches aw') d = Some b')
    (base_swap c d w) (a_swap false c d aw).
Proof.
  intros R Ha Hb. destruct (rel_get _ R Ha) as (x & sx & lx & Ax & Px).
  destruct (rel_get _ R Hb) as (y & sy & ly & Ay & Py).
  pose proof Ax as (Hx & Sx). pose proof Ay as (Hy & Sy).
  unfold base_swap, a_swap. ev get_cache_ev. ev get_cache_ev. aev a_get_ev. aev a_get_ev.
  destruct (Nat.eq_dec c d) as [<-|N].
  - rewrite Nat.eqb_refl. assert (b = a) by congruence. subst b. assert (y = x) by congruence. subst y.
    aev a_put_ev. rewrite a_put_ev, awith_awith.
    replace (MkA (a_ents a) (a_hot a) (a_cap a) (a_stats a) (a_cbs a) (a_ttl a)) with a by (destruct a; auto).
    rewrite awith_same by auto. simpl. eauto.
  - destruct (Nat.eqb_spec c d) as [Q|_]; [congruence|].
    aev a_put_ev. rewrite a_put_ev. ev put_cache_ev. rewrite put_cache_ev.
    split.
    + rewrite (rp_stats Px), (rp_cbs Px), (rp_ttl Px), (rp_stats Py), (rp_cbs Py), (rp_ttl Py).
      eapply (rel_exchange R N Ax Ay Ha Hb); [reflexivity|reflexivity|reflexivity|reflexivity|reflexivity|reflexivity|reflexivity|reflexivity| | | |].
      * apply (rep_graft (a_stats a) (a_cbs a) (a_ttl a) Py).
      * apply (rep_graft (a_stats b) (a_cbs b) (a_ttl b) Px).
      * simpl. intros i; apply (rel_sts_of R Ha).
      * simpl. intros i; apply (rel_sts_of R Hb).
    + simpl. split.
      * eexists. rewrite slot_upd_other by auto. erewrite slot_upd_same; eauto.
      * eexists. erewrite slot_upd_same; eauto. rewrite slot_upd_other; eauto.
Qed.

(** An update of the cache object that keeps its contents. *)
Lemma rel_setC w aw c x s a l cap st cb ttl : rel w aw -> at_ w c x s ->
  slot (aw_caches aw) c = Some a -> rep x s a l -> length l <= cap ->
  (forall i, st = Some i -> slot (aw_stats aw) i <> None) ->
  rel (setC c (MkCache (c_rid x) (c_last x) cap st cb ttl) w)
      (awith c (MkA (a_ents a) (a_hot a) cap st cb ttl) aw).
Proof.
  intros R At Ha Rp L St.
  apply (@rel_chg K V E w _ aw c x s a _ (MkCache (c_rid x) (c_last x) cap st cb ttl) s l); auto.
  - eapply chg_setC; eauto.
  - constructor; simpl; try apply Rp; auto.
Qed.

Lemma move_assign_sim w aw c d a b : rel w aw -> slot (aw_caches aw) c = Some a ->
  slot (aw_caches aw) d = Some b ->
  simr E (fun _ _ _ _ => True) (move_assign c d w) (a_move_assign c d aw).
Proof.
  intros R Ha Hb. unfold move_assign, a_move_assign.
  eapply sim_bind; [eapply base_swap_sim; eauto|]. cbv beta.
  intros _ _ w' aw' R' ((a' & Ha') & (b' & Hb')).
  destruct (rel_get _ R' Ha') as (x & sx & lx & Ax & Px).
  destruct (rel_get _ R' Hb') as (y & sy & ly & Ay & Py).
  ev get_cache_ev. ev get_cache_ev. aev a_get_ev. aev a_get_ev.
  rewrite put_cache_ev, a_put_ev. split; auto.
  rewrite (rp_cap Px), (rp_stats Px), (rp_cbs Px), (rp_ttl Py).
  eapply rel_setC; eauto.
  - apply (rp_len Px).
  - intros i; apply (rel_sts_of R' Ha').
Qed.

Lemma move_sim w aw c a : rel w aw -> slot (aw_caches aw) c = Some a ->
  simr E (fun d d' _ _ => d = d') (move_new E c w) (a_move E c aw).
Proof.
  intros R Ha. destruct (rel_get _ R Ha) as (x & sx & lx & Ax & Px).
  unfold move_new, a_move. ev get_cache_ev. aev a_get_ev. destruct (junk E) as [n|]; [|simpl; auto].
  rewrite (rp_ttl Px).
  assert (Lc : c < length (aw_caches aw)) by (eapply slot_lt; eauto).
  unfold new_cache, a_newcache. rewrite bind_assoc.
  match goal with |- simr _ _ (bind ?m ?k w) (bind ?am ?ak aw) =>
    assert (E1 : bind m k w = bind (new_cache n (a_ttl a)) (fun d => base_swap d c;;; ret d) w) by
      (unfold new_cache; rewrite bind_assoc; reflexivity) end.
  rewrite E1. clear E1.
  change (a_new (MkA [] false n None no_callbacks (a_ttl a))) with (@a_newcache K V n (a_ttl a)).
  assert (H0 : exists aw0, a_newcache n (a_ttl a) aw = Val (length (aw_caches aw)) aw0 /\
                 slot (aw_caches aw0) c = Some a).
  { eexists; split; [reflexivity|]. simpl. rewrite slot_app_lt; auto. }
  destruct H0 as (aw0 & E0 & Ha0).
  pose proof (new_cache_sim n (a_ttl a) R) as S. rewrite E0 in S.
  rewrite (bind_val _ _ _ E0).
  destruct (new_cache n (a_ttl a) w) as [d w0| | |] eqn:E1; simpl in S; try easy.
  destruct S as (R0 & -> & Hd). rewrite (bind_val _ _ _ E1).
  eapply sim_bind; [eapply base_swap_sim; eauto|]. simpl. auto.
Qed.

(** ** Assignment from ranges *)

Lemma assign_sim w aw c a l body : rel w aw -> slot (aw_caches aw) c = Some a ->
  (forall w aw a, rel w aw -> slot (aw_caches aw) c = Some a ->
     simr E (fun m m' w' aw' => m = m' /\ exists a', slot (aw_caches aw') c = Some a')
       (body c w) (a_insert_range E c l aw)) ->
  simr E (fun _ _ _ _ => True)
    ((clear_and_increase_capacity c (length l);;; body c;;; ret tt) w) (a_assign E c l aw).
Proof.
  intros R Ha S. unfold clear_and_increase_capacity, a_assign. rewrite bind_assoc.
  eapply sim_bind; [eapply clear_sim; eauto|]. cbv beta.
  intros _ _ w' aw' R' (a' & Ha' & Hc).
  destruct (rel_get _ R' Ha') as (x & sx & lx & Ax & Px).
  rewrite bind_assoc. ev get_cache_ev. aev a_get_ev.
  unfold a_setcap. rewrite bind_assoc. aev a_get_ev. aev a_put_ev.
  assert (Q : exists w2, (if c_cap x <? length l
     then put_cache c (MkCache (c_rid x) (c_last x) (length l) (c_stats x) (c_cbs x) (c_ttl x))
     else ret tt) w' = Val tt w2 /\
     rel w2 (awith c (MkA (a_ents a') (a_hot a') (Nat.max (a_cap a') (length l)) (a_stats a') (a_cbs a') (a_ttl a')) aw')).
  { pose proof (rp_len Px) as L. rewrite (rp_cap Px).
    destruct (Nat.ltb_spec (a_cap a') (length l)).
    - eexists; split; [apply put_cache_ev|].
      rewrite Nat.max_r by lia.
      rewrite (rp_stats Px), (rp_cbs Px), (rp_ttl Px). eapply rel_setC; eauto; [lia|].
      intros i; apply (rel_sts_of R' Ha').
    - eexists; split; [reflexivity|]. rewrite Nat.max_l by lia.
      replace (MkA _ _ _ _ _ _) with a' by (destruct a'; auto). rewrite awith_same; auto. }
  destruct Q as (w2 & E2 & R2). ev E2.
  eapply sim_bind; [eapply S; [exact R2|simpl; erewrite slot_upd_same; eauto]|].
  simpl; auto.
Qed.

Lemma assign_range_sim w aw c a l : rel w aw -> slot (aw_caches aw) c = Some a ->
  simr E (fun _ _ _ _ => True) (assign_range E c l w) (a_assign E c l aw).
Proof.
  intros R Ha. apply (@assign_sim _ _ _ a _ (fun c => insert_range E c l)); auto.
  intros. eapply insert_range_sim; eauto.
Qed.
Lemma assign_move_sim w aw c a l : rel w aw -> slot (aw_caches aw) c = Some a ->
  simr E (fun _ _ _ _ => True) (assign_move E c l w) (a_assign E c l aw).
Proof.
  intros R Ha. apply (@assign_sim _ _ _ a _ (fun c => insert_move E c l)); auto.
  intros. eapply insert_move_sim; eauto.
Qed.

End New.
