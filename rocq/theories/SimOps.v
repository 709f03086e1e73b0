(** Simulation of the access, insertion and removal functions. *)
From Coq Require Import List Arith ZArith Bool Permutation Lia.
Import ListNotations.
From Verif Require Import Monad Types Model Api Spec Ref Lists SimBase SimRel.
Set Implicit Arguments.
Unset Strict Implicit.
Local Open Scope cpp_scope.

(** Run one bind of the model (left) or of the reference machine (right). *)
Ltac with_bind m k w tac :=
  let H := fresh in
  eassert (H : m w = Val _ _) by tac;
  rewrite (@bind_val _ _ _ m k w _ _ H); clear H; cbv beta iota.
Tactic Notation "ev" uconstr(L) :=
  match goal with
  | |- simr _ _ (bind ?m ?k ?w) _ => with_bind m k w ltac:(eapply L; first [solve [eauto with sim] | simpl; eauto with sim])
  | |- bind ?m ?k ?w = _ => with_bind m k w ltac:(eapply L; first [solve [eauto with sim] | simpl; eauto with sim])
  end.
Tactic Notation "aev" uconstr(L) :=
  match goal with
  | |- simr _ _ _ (bind ?m ?k ?w) => with_bind m k w ltac:(eapply L; first [solve [eauto with sim] | simpl; eauto with sim])
  end.

Lemma bind_assoc {S A B C} (m : M S A) (f : A -> M S B) (g : B -> M S C) w :
  bind (bind m f) g w = bind m (fun x => bind (f x) g) w.
Proof. unfold bind. destruct (m w); auto. Qed.

Lemma at_slot {K V} (w : world K V) c x s : at_ w c x s -> slot (w_caches w) c = Some x.
Proof. intros H; apply H. Qed.
Lemma at_store {K V} (w : world K V) c x s : at_ w c x s -> slot (w_stores w) (c_rid x) = Some s.
Proof. intros H; apply H. Qed.
Arguments bind : simpl never.
Arguments a_expired : simpl never.
Arguments has_expired_info : simpl never.

Lemma bind_ret {S A B} (a : A) (k : A -> M S B) w : bind (ret a) k w = k a w.
Proof. auto. Qed.

#[export] Hint Resolve at_slot at_store in_mid in_last rp_store at_setS at_setC : sim.

Section Ops.
Context {K V : Type}.
Variable E : env K V.
Hypothesis G : good E.

Notation entry := (entry K V).
Notation world := (world K V).
Notation store := (store K V).
Notation mnode := (mnode K V).
Notation acache := (acache K V).
Notation aworld := (aworld K V).
Notation cell := (@cell K V).
Notation rel := (rel E).
Notation rep := (rep E).
Implicit Types (w : world) (s : store) (aw : aworld).

(** Iterator [i] denotes the most recent element, [e], of cache [c]. *)
Definition at_back (c : nat) (i : miter) (e : entry) w aw : Prop :=
  exists x s a l cl, at_ w c x s /\ slot (aw_caches aw) c = Some a /\
    rep x s a (l ++ [cl]) /\ cl_e cl = e /\ i = ((c_rid x, cl_m cl), s_epoch s).

Lemma rel_stats_ok w aw c a x s l : rel w aw -> slot (aw_caches aw) c = Some a ->
  at_ w c x s -> rep x s a l ->
  forall i, c_stats x = Some i -> slot (w_stats w) i <> None.
Proof.
  intros R Ha A Rp i H. rewrite (rel_stats R). rewrite (rp_stats Rp) in H.
  eapply (rel_sts R); eauto.
Qed.

Lemma rel_sts_of w aw c a : rel w aw -> slot (aw_caches aw) c = Some a ->
  forall i, a_stats a = Some i -> slot (aw_stats aw) i <> None.
Proof. intros R Ha i H. eapply (rel_sts R); eauto. Qed.

Lemma rel_put w w' aw c x s a a' x' s' l' :
  rel w aw -> at_ w c x s -> slot (aw_caches aw) c = Some a ->
  chg c x' s' w w' -> rep x' s' a' l' -> c_rid x' = c_rid x -> a_stats a' = a_stats a ->
  rel w' (awith c a' aw).
Proof.
  intros R A Ha C Rp Hr Hs. eapply rel_chg; eauto.
  intros i H. rewrite Hs in H. eapply (rel_sts R); eauto.
Qed.

Lemma rep_hit x s s' a l1 cl l2 : rep x s a (l1 ++ cl :: l2) ->
  rep_store E (c_rid x) s' (l1 ++ l2 ++ [cl]) ->
  rep (with_last (Some (c_rid x, cl_m cl)) x) s'
      (set_ents (remove_ent E (e_key (cl_e cl)) (a_ents a) ++ [cl_e cl]) true a)
      (l1 ++ l2 ++ [cl]).
Proof.
  intros R R'. pose proof (rs_keys (rp_store R)) as D.
  constructor; simpl; try apply R; auto.
  - rewrite (rp_ents R). unfold ents in *. rewrite !map_app in *. simpl in *.
    rewrite remove_mid; auto; [rewrite <- app_assoc; auto|]. apply (good_refl G).
  - pose proof (rp_len R) as L. rewrite !app_length in *; simpl in *; lia.
  - rewrite app_assoc, last_cell_app; auto.
  - intros _ Q. destruct l1, l2; discriminate.
Qed.

Lemma remove_keq k k' (l : list entry) : key_equal E k k' = true ->
  remove_ent E k l = remove_ent E k' l.
Proof.
  intros H. unfold remove_ent. apply filter_ext. intros e. rewrite (keq_cong G _ _ _ H). auto.
Qed.

Lemma a_ents_put_ev aw c a l h : slot (aw_caches aw) c = Some a ->
  a_ents_put c l h aw = Val tt (awith c (set_ents l h a) aw).
Proof. intros H. unfold a_ents_put, bind. erewrite a_get_ev by eauto. auto. Qed.

Definition ttl_is (c : nat) (t : option Z) aw : Prop :=
  exists a, slot (aw_caches aw) c = Some a /\ a_ttl a = t.

Lemma find_hit_sim w aw c x s a l1 cl l2 k :
  rel w aw -> at_ w c x s -> slot (aw_caches aw) c = Some a ->
  rep x s a (l1 ++ cl :: l2) -> key_equal E k (e_key (cl_e cl)) = true ->
  simr E (fun _ _ w' aw' => at_back c ((c_rid x, cl_m cl), s_epoch s) (cl_e cl) w' aw' /\
                            ttl_is c (a_ttl a) aw')
    (find_hit E c k ((c_rid x, cl_m cl), s_epoch s) w)
    ((a_hit E c k (e_val (cl_e cl));;;
      a_ents_put c (remove_ent E k (a_ents a) ++ [cl_e cl]) true) aw).
Proof.
  intros R A Ha Rp Hk.
  pose proof (rp_store Rp) as RS.
  pose proof (rel_stats_ok R Ha A Rp) as SO.
  unfold find_hit.
  ev deref_it_ev. ev register_hit_ev.
  pose proof (rel_sts_of R Ha) as SA.
  aev a_hit_ev.
  pose proof (rel_noted (c_stats x) (stats_register_hit E k)
               (hit_events (c_cbs x) k (e_val (cl_e cl))) R) as R1.
  rewrite <- (rp_stats Rp), <- (rp_cbs Rp).
  set (w1 := noted _ _ _ w) in *. set (aw1 := anoted _ _ _ aw) in *.
  assert (A1 : at_ w1 c x s) by exact A.
  assert (Ha1 : slot (aw_caches aw1) c = Some a) by exact Ha.
  ev deref_it_ev. simpl n_ord.
  edestruct (move_to_front_ev G) as (s' & w2 & E2 & C2 & R2 & EP & _); [exact A1|exact RS|].
  ev E2.
  assert (A2 : at_ w2 c x s') by (eapply chg_at; eauto).
  rewrite <- EP.
  assert (I2 : In cl (l1 ++ l2 ++ [cl])) by (rewrite app_assoc; apply in_last).
  ev deref_it_ev.
  erewrite set_last_ev by eauto. erewrite a_ents_put_ev by eauto.
  rewrite (remove_keq _ Hk).
  pose proof (rep_hit Rp R2) as R3.
  split; [|split].
  - eapply (rel_put R1 A1 Ha1); [|exact R3|auto|auto].
    eapply chg_trans; [exact C2|eapply chg_setC; eauto|]; auto.
  - eexists (with_last (Some (c_rid x, cl_m cl)) x), s', _, (l1 ++ l2), cl.
    split; [eapply at_setC; eauto|]. simpl. split; [erewrite slot_upd_same; eauto|].
    rewrite <- app_assoc. auto.
  - eexists. split; [simpl; erewrite slot_upd_same; eauto|auto].
Qed.

(** A returned unordered iterator and what it denotes. *)
Definition uit (c : nat) (it : uiter) (r : option entry) w aw : Prop :=
  match r with
  | None => it = unordered_end c
  | Some e => exists i, it = uiter_of c (Some i) /\ at_back c i e w aw
  end.

Lemma has_expired_ev w d n :
  has_expired_info E d n w =
  Val (Z.ltb d (dcast E (clock E (w_reads w) - n_time n))) (tock w).
Proof. auto. Qed.
Lemma a_expired_some aw d e :
  a_expired E (Some d) e aw =
  Val (Z.ltb d (dcast E (clock E (aw_reads aw) - e_time e))) (atock aw).
Proof. auto. Qed.
Lemma a_expired_none aw e : a_expired E None e aw = Val false aw.
Proof. auto. Qed.

Lemma miss_sim w aw c k a (A B : Type) (f : A) (g : B)
  (R : A -> B -> world -> aworld -> Prop) :
  rel w aw -> slot (aw_caches aw) c = Some a ->
  (forall w' aw', aw_caches aw' = aw_caches aw -> R f g w' aw') ->
  simr E R ((register_miss E c k;;; ret f) w) ((a_miss E c k;;; ret g) aw).
Proof.
  intros Rl Ha Q. destruct (rel_get _ Rl Ha) as (x & s & l & At & Rp).
  pose proof (rel_stats_ok Rl Ha At Rp) as SO. pose proof (rel_sts_of Rl Ha) as SA.
  ev register_miss_ev. aev a_miss_ev. split; auto.
  rewrite (rp_stats Rp), (rp_cbs Rp). apply rel_noted; auto.
Qed.

Lemma find_cell_none k l : find_cell E k l = None <-> lookup_ent E k (ents l) = None.
Proof. rewrite find_cell_ents. destruct (find_cell E k l); simpl; split; congruence. Qed.

Lemma find_sim w aw c k a : rel w aw -> slot (aw_caches aw) c = Some a ->
  simr E (fun it r w' aw' => uit c it r w' aw' /\ ttl_is c (a_ttl a) aw' /\
            match r with Some e => key_equal E k (e_key e) = true /\
                                   lookup_ent E k (a_ents a) = Some e | None => True end)
    (find E c k w) (a_find E c k aw).
Proof.
  intros R Ha. destruct (rel_get _ R Ha) as (x & s & l & At & Rp).
  pose proof (rp_store Rp) as RS.
  unfold find, a_find. ev get_cache_ev. aev a_get_ev.
  rewrite (rp_ents Rp), find_cell_ents, (rp_ttl Rp).
  destruct (a_ttl a) as [d|] eqn:T.
  - ev map_find_ev. destruct (find_cell E k l) as [cl|] eqn:F; unfold option_map; cbv iota beta.
    + apply find_cell_split in F as (l1 & l2 & -> & Hk).
      ev deref_it_ev. ev has_expired_ev. simpl n_time. aev a_expired_some.
      rewrite (rel_reads R).
      destruct (Z.ltb _ _).
      * eapply miss_sim; simpl; eauto using rel_tock. intros w' aw' Q.
        split; auto. split; auto. exists a. rewrite Q; auto.
      * rewrite <- bind_assoc, <- (rp_ents Rp).
        eapply sim_bind; [eapply find_hit_sim; eauto using rel_tock|].
        simpl; intros ? ? w' aw' R' (B & Bt). split; auto. split; eauto.
        split; [rewrite <- T; auto|auto].
    + eapply miss_sim; simpl; eauto. intros w' aw' Q.
      split; auto. split; auto. exists a. rewrite Q; auto.
  - ev map_find_ev. destruct (find_cell E k l) as [cl|] eqn:F; unfold option_map; cbv iota beta.
    + apply find_cell_split in F as (l1 & l2 & -> & Hk).
      aev a_expired_none. cbv iota.
      rewrite <- bind_assoc, <- (rp_ents Rp).
      eapply sim_bind; [eapply find_hit_sim; eauto using rel_tock|].
      simpl; intros ? ? w' aw' R' (B & Bt). split; auto. split; eauto.
        split; [rewrite <- T; auto|auto].
    + eapply miss_sim; simpl; eauto. intros w' aw' Q.
      split; auto. split; auto. exists a. rewrite Q; auto.
Qed.


Lemma at_back_ev w aw c i e : at_back c i e w aw ->
  exists n, deref_it i w = Val n w /\ deref (fst i) w = Val n w /\
    n_key n = e_key e /\ n_val n = e_val e /\ n_time n = e_time e.
Proof.
  intros (x & s & a & l & cl & At & _ & Rp & <- & ->). pose proof (rp_store Rp).
  exists (node_of (c_rid x) cl). split; [eapply deref_it_ev; eauto with sim|].
  split; [eapply deref_ev; eauto with sim|auto].
Qed.

Lemma at_back_cache w aw c i e t : at_back c i e w aw -> ttl_is c t aw ->
  exists x, slot (w_caches w) c = Some x /\ c_ttl x = t.
Proof.
  intros (x & s & a & l & cl & At & Ha & Rp & _) (a' & Ha' & <-). exists x; split; [apply At|].
  rewrite (rp_ttl Rp). congruence.
Qed.

Lemma at_back_tock w aw c i e : at_back c i e w aw -> at_back c i e (tock w) (atock aw).
Proof. auto. Qed.

Lemma u_entry_sim w aw c i e t : rel w aw -> at_back c i e w aw -> ttl_is c t aw ->
  simr E (fun p e' w' aw' => p = fst i /\ e' = e /\ at_back c i e w' aw')
    (u_entry E (uiter_of c (Some i)) w)
    ((ex <- a_expired E t e;; if ex then throw KeyExpired else ret e) aw).
Proof.
  intros R B T. destruct (at_back_ev B) as (n & D & D' & N1 & N2 & N3).
  destruct (at_back_cache B T) as (x & Hx & Tx).
  unfold u_entry; simpl. ev D.
  unfold throw_if_invalid_u. rewrite bind_assoc. ev get_cache_ev. simpl. rewrite Tx.
  destruct t as [d|].
  - unfold has_expired_u; simpl. rewrite !bind_assoc. ev D.
    ev has_expired_ev. aev a_expired_some.
    rewrite N3, (rel_reads R). destruct (Z.ltb _ _); simpl; auto using rel_tock.
  - simpl. auto.
Qed.

Lemma denotes_sim w aw c it r : uit c it r w aw -> 
  denotes c it w = Val (option_map pair_of r) w.
Proof.
  destruct r as [e|]; simpl.
  - intros (i & -> & B). destruct (at_back_ev B) as (n & D & D' & N1 & N2 & N3).
    unfold denotes; simpl. unfold u_deref; simpl. rewrite bind_assoc.
    rewrite (bind_val _ _ _ D). rewrite bind_ret.
    unfold read_entry. rewrite bind_assoc.
    rewrite (bind_val _ _ _ D'). rewrite bind_ret. unfold ret, pair_of. congruence.
  - intros ->. unfold denotes; simpl. unfold u_eq; simpl. rewrite Nat.eqb_refl. auto.
Qed.

(** Contains and lookup. *)
Lemma hot_at_back w aw c x s a l k cl : at_ w c x s -> slot (aw_caches aw) c = Some a ->
  rep x s a l -> hot_cell E a l k = Some cl ->
  at_back c ((c_rid x, cl_m cl), s_epoch s) (cl_e cl) w aw.
Proof.
  intros At Ha Rp H. apply hot_cell_some in H as (_ & _ & l' & ->).
  exists x, s, a, l', cl. auto.
Qed.

Lemma hit_sim w aw c k i e : rel w aw -> at_back c i e w aw ->
  simr E (fun _ _ w' aw' => at_back c i e w' aw') (register_hit E c k (fst i) w) (a_hit E c k (e_val e) aw).
Proof.
  intros R (x & s & a & l & cl & At & Ha & Rp & <- & ->).
  pose proof (rel_stats_ok R Ha At Rp) as SO. pose proof (rel_sts_of R Ha) as SA.
  simpl fst. erewrite register_hit_ev; eauto with sim. erewrite a_hit_ev by eauto.
  rewrite <- (rp_stats Rp), <- (rp_cbs Rp). split; [apply rel_noted; auto|].
  exists x, s, a, l, cl. auto.
Qed.

Lemma hit_ttl w aw c k i e t aw' : at_back c i e w aw -> ttl_is c t aw ->
  (exists u, a_hit E c k (e_val e) aw = Val u aw') -> ttl_is c t aw'.
Proof.
  intros (x & s & a & l & cl & At & Ha & Rp & <- & ->) T (u & H).
  unfold a_hit, bind, a_count, bind in H. rewrite (a_get_ev _ _ Ha) in H.
  destruct T as (a' & Ha' & <-).
  destruct (a_stats a).
  - unfold a_getstats in H. destruct (slot (aw_stats aw) n); [|discriminate].
    simpl in H. erewrite a_get_ev in H by (simpl; eauto). inversion H. exists a'. auto.
  - simpl in H. erewrite a_get_ev in H by (simpl; eauto). inversion H. exists a'. auto.
Qed.

Lemma contains_sim w aw c k a : rel w aw -> slot (aw_caches aw) c = Some a ->
  simr E (fun b b' _ _ => b = b') (contains E c k w) (a_contains E c k aw).
Proof.
  intros R Ha. destruct (rel_get _ R Ha) as (x & s & l & At & Rp).
  unfold contains, a_contains. ev last_is_ev. aev a_get_ev.
  rewrite (hot_cell_ent _ Rp). destruct (hot_cell E a l k) as [cl|] eqn:H; simpl.
  - pose proof (hot_at_back At Ha Rp H) as B.
    destruct (at_back_ev B) as (n & D & D' & N1 & N2 & N3).
    unfold last_accessed_is_ok. rewrite bind_assoc. ev get_cache_ev. rewrite (rp_ttl Rp).
    destruct (a_ttl a) as [d|].
    + rewrite bind_assoc. ev last_ptr_ev. rewrite bind_assoc. ev D'.
      rewrite bind_assoc. ev has_expired_ev. rewrite bind_ret. aev a_expired_some.
      rewrite N3, (rel_reads R). destruct (Z.ltb _ _); simpl.
      * split; auto using rel_tock.
      * ev last_ptr_ev. eapply sim_bind.
        -- eapply (@hit_sim _ _ _ _ ((c_rid x, cl_m cl), s_epoch s)); auto using rel_tock.
        -- simpl; auto.
    + aev a_expired_none. rewrite bind_ret. ev last_ptr_ev. eapply sim_bind.
      * eapply (@hit_sim _ _ _ _ ((c_rid x, cl_m cl), s_epoch s)); auto using rel_tock.
      * simpl; auto.
  - eapply sim_bind; [eapply find_sim; eauto|].
    intros it r w' aw' R' (U & _). simpl. split; auto. destruct r as [e|].
    + destruct U as (i & -> & _). auto.
    + rewrite U. unfold u_eq; simpl. rewrite Nat.eqb_refl; auto.
Qed.

Lemma lookup_sim w aw c k a : rel w aw -> slot (aw_caches aw) c = Some a ->
  simr E (fun p e w' aw' => key_equal E k (e_key e) = true /\ 
           exists i, p = fst i /\ at_back c i e w' aw') (lookup E c k w) (a_lookup E c k aw).
Proof.
  intros R Ha. destruct (rel_get _ R Ha) as (x & s & l & At & Rp).
  unfold lookup, a_lookup. ev last_is_ev. aev a_get_ev.
  rewrite (hot_cell_ent _ Rp). destruct (hot_cell E a l k) as [cl|] eqn:H; simpl.
  - pose proof (hot_at_back At Ha Rp H) as B.
    destruct (at_back_ev B) as (n & D & D' & N1 & N2 & N3).
    unfold value_for_last_accessed. rewrite bind_assoc. ev get_cache_ev. rewrite (rp_ttl Rp).
    rewrite bind_assoc. ev last_ptr_ev.
    assert (Hk : key_equal E k (e_key (cl_e cl)) = true) by (apply hot_cell_some in H; tauto).
    destruct (a_ttl a) as [d|].
    + rewrite bind_assoc. ev D'.
      rewrite bind_assoc. ev has_expired_ev. aev a_expired_some.
      rewrite N3, (rel_reads R). destruct (Z.ltb _ _); simpl.
      * split; auto using rel_tock.
      * rewrite bind_ret. eapply sim_bind.
        -- eapply (@hit_sim _ _ _ _ ((c_rid x, cl_m cl), s_epoch s)); auto using rel_tock.
        -- simpl; intros. split; auto. split; auto. eexists; split; [|eauto]. auto.
    + aev a_expired_none. rewrite bind_ret. eapply sim_bind.
      * eapply (@hit_sim _ _ _ _ ((c_rid x, cl_m cl), s_epoch s)); auto using rel_tock.
      * simpl; intros. split; auto. split; auto. eexists; split; [|eauto]. auto.
  - eapply sim_bind; [eapply find_sim; eauto|].
    intros it r w' aw' R' (U & T & Q). simpl. destruct r as [e|].
    + destruct U as (i & -> & B). simpl. eapply sim_weaken; [eapply u_entry_sim; eauto|].
      simpl. intros p e' w'' aw'' _ (-> & -> & B'). split; [apply Q|eauto].
    + rewrite U. unfold u_eq; simpl. rewrite Nat.eqb_refl; simpl; auto.
Qed.

Lemma update_node_ev w r s l1 cl l2 f : slot (w_stores w) r = Some s ->
  rep_store E r s (l1 ++ cl :: l2) ->
  update_node (r, cl_m cl) f w =
  Val tt (setS r (MkStore (alter (cl_m cl) f (s_map s)) (s_ord s) (s_next s) (s_epoch s)) w).
Proof.
  intros H R. unfold update_node; simpl. unfold bind. erewrite get_store_ev by eauto.
  erewrite rep_assoc_m by eauto with sim. auto.
Qed.

Lemma rep_setlast x s s' a a' l cl v : rep x s a (l ++ [cl]) ->
  rep_store E (c_rid x) s' (l ++ [cell_val v cl]) ->
  a' = set_ents (ents l ++ [set_val v (cl_e cl)]) (a_hot a) a ->
  rep x s' a' (l ++ [cell_val v cl]).
Proof.
  intros R R' ->. constructor; simpl; try apply R; auto.
  - rewrite ents_app; auto.
  - pose proof (rp_len R) as L. rewrite !app_length in *; auto.
  - rewrite (rp_last R), !last_cell_app. auto.
  - intros _ Q; destruct l; discriminate.
Qed.

Lemma remove_last k a x s l cl : rep x s a (l ++ [cl]) -> key_equal E k (e_key (cl_e cl)) = true ->
  remove_ent E k (a_ents a) = ents l.
Proof.
  intros R H. rewrite (rp_ents R), ents_app; simpl. rewrite remove_mid; auto.
  - apply app_nil_r.
  - pose proof (rs_keys (rp_store R)) as D. rewrite ents_app in D; auto.
Qed.

Lemma write_sim w aw c k v a : rel w aw -> slot (aw_caches aw) c = Some a ->
  simr E (fun b b' _ _ => b = b') (body E (Write c k v) w) (abody E 0 (Write c k v) aw).
Proof.
  intros R Ha. simpl. unfold subscript. eapply sim_bind; [eapply lookup_sim; eauto|].
  intros p e w' aw' R' (Hk & i & -> & B).
  destruct B as (x & s & a' & l & cl & At & Ha' & Rp & <- & ->). simpl fst.
  aev a_get_ev. aev a_ents_put_ev. ev update_node_ev.
  rewrite (remove_last Rp Hk). split; auto.
  eapply (rel_put R' At Ha'); [eapply chg_setS; eauto| |auto|auto].
  eapply rep_setlast; [eauto| |reflexivity]. eapply rep_setval. apply (rp_store Rp).
Qed.

End Ops.
