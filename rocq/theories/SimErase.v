(** Simulation of removal. *)
From Coq Require Import List Arith ZArith Bool Permutation Lia.
Import ListNotations.
From Verif Require Import Monad Types Model Api Spec Ref Lists SimBase SimRel SimOps SimIns.
Set Implicit Arguments.
Unset Strict Implicit.
Local Open Scope cpp_scope.

Section Erase.
Context {K V : Type}.
Variable E : env K V.
Hypothesis G : good E.

Notation entry := (entry K V).
Notation world := (world K V).
Notation store := (store K V).
Notation mnode := (mnode K V).
Notation acache := (acache K V).
Notation aworld := (aworld K V).
Notation cell := (@cell K V).
Notation rel := (rel E).
Notation rep := (rep E).
Notation at_back := (at_back E).
Notation uit := (uit E).
Implicit Types (w : world) (s : store) (aw : aworld).

Definition hot_after (a : acache) (k : K) : bool :=
  match a_hot_ent E a k with Some _ => false | None => a_hot a end.

Definition erased_cache (a : acache) (k : K) (x : cache) : cache :=
  match a_hot_ent E a k with Some _ => with_last None x | None => x end.

Lemma rep_erased x s s' a l1 cl l2 : rep x s a (l1 ++ cl :: l2) ->
  rep_store E (c_rid x) s' (l1 ++ l2) ->
  rep (erased_cache a (e_key (cl_e cl)) x) s'
      (set_ents (ents (l1 ++ l2)) (hot_after a (e_key (cl_e cl))) a) (l1 ++ l2).
Proof.
  intros R R'. unfold erased_cache, hot_after. rewrite (hot_cell_ent _ R).
  assert (L : length (l1 ++ l2) <= a_cap a).
  { pose proof (rp_len R) as L. rewrite app_length in *; simpl in *; lia. }
  destruct (hot_cell E a (l1 ++ cl :: l2) (e_key (cl_e cl))) as [c'|] eqn:H; simpl.
  - constructor; simpl; try apply R; auto. discriminate.
  - assert (Q : a_hot a = true -> exists l3 d, l2 = l3 ++ [d]).
    { intros Hh. unfold hot_cell in H. rewrite Hh in H.
      destruct l2 as [|d l2 _] using rev_ind; [|eauto].
      rewrite last_cell_app, (good_refl G) in H. discriminate. }
    constructor; simpl; try apply R; auto.
    + rewrite (rp_last R). destruct (a_hot a); auto. destruct (Q eq_refl) as (l3 & d & ->).
      rewrite app_assoc, last_cell_app.
      replace (l1 ++ cl :: l3 ++ [d]) with ((l1 ++ cl :: l3) ++ [d]) by (rewrite <- app_assoc; auto).
      rewrite last_cell_app. auto.
    + intros Hh. destruct (Q Hh) as (l3 & d & ->). destruct l1, l3; discriminate.
Qed.

(** The part common to the two _erase overloads: forget last accessed. *)
Lemma forget_ev w c x s a l k : at_ w c x s -> rep x s a l ->
  exists w1, (same <- last_is E c k;; (if same then invalidate_last c else ret tt)) w = Val tt w1 /\
    chg c (erased_cache a k x) s w w1 /\ at_ w1 c (erased_cache a k x) s.
Proof.
  intros A R. unfold erased_cache. rewrite (hot_cell_ent _ R).
  destruct (hot_cell E a l k) as [c'|] eqn:H; simpl.
  - exists (setC c (with_last None x) w). split.
    + ev last_is_ev. rewrite H. unfold invalidate_last. eapply set_last_ev; eauto.
    + split; [eapply chg_setC; eauto|eapply at_setC; eauto].
  - exists w. split; [|split; [eapply chg_refl; eauto|auto]].
    ev last_is_ev. rewrite H. auto.
Qed.

Lemma erased_rid a k x : c_rid (erased_cache a k x) = c_rid x.
Proof. unfold erased_cache. destruct (a_hot_ent E a k); auto. Qed.

Lemma list_erase_ev w c x s l1 cl l2 : at_ w c x s -> rep_store E (c_rid x) s (l1 ++ cl :: l2) ->
  list_erase c (Some (c_rid x, cl_q cl)) w =
  Val tt (setS (c_rid x) (MkStore (s_map s) (unassoc (cl_q cl) (s_ord s)) (s_next s) (s_epoch s)) w).
Proof.
  intros A R. unfold list_erase. ev own_ev. rewrite Nat.eqb_refl.
  erewrite rep_assoc_q by eauto with sim. auto.
Qed.

Lemma erase_it_ev w c x s a l1 cl l2 : at_ w c x s -> rep x s a (l1 ++ cl :: l2) ->
  exists s' w', erase_it E c ((c_rid x, cl_m cl), s_epoch s) w = Val tt w' /\
    chg c (erased_cache a (e_key (cl_e cl)) x) s' w w' /\
    rep (erased_cache a (e_key (cl_e cl)) x) s'
        (set_ents (ents (l1 ++ l2)) (hot_after a (e_key (cl_e cl))) a) (l1 ++ l2) /\
    s_epoch s' = s_epoch s.
Proof.
  intros A R. pose proof (rp_store R) as RS.
  destruct (forget_ev (e_key (cl_e cl)) A R) as (w1 & E1 & C1 & A1).
  set (x1 := erased_cache a (e_key (cl_e cl)) x) in *.
  assert (Hr : c_rid x1 = c_rid x) by apply erased_rid.
  assert (RS1 : rep_store E (c_rid x1) s (l1 ++ cl :: l2)) by (rewrite Hr; auto).
  eexists _, _. split; [|split; [|split]].
  - unfold erase_it. ev deref_it_ev. rewrite <- bind_assoc. ev E1. rewrite <- Hr.
    ev deref_it_ev. cbn [n_ord node_of]. ev list_erase_ev.
    unfold map_erase_it. ev own_ev. cbn [fst snd]. rewrite Nat.eqb_refl.
    erewrite bind_val with (s' := setS _ _ _); [rewrite put_store_ev, setS_setS; reflexivity|].
    unfold deref_it. cbn [fst snd]. erewrite bind_val by (apply get_store_ev; eapply at_store, at_setS; exact A1).
    cbn [s_epoch]. rewrite Nat.eqb_refl. unfold deref. cbn [fst snd].
    erewrite bind_val by (apply get_store_ev; eapply at_store, at_setS; exact A1). cbn [s_map].
    erewrite rep_assoc_m by eauto with sim. reflexivity.
  - eapply chg_trans; [exact C1| |auto]. eapply chg_setS; eauto.
  - apply rep_erased with (s := s); auto. rewrite <- Hr. apply (rep_erase G) in RS1. exact RS1.
  - auto.
Qed.

Lemma erase_key_info_ev w c x s a l1 cl l2 : at_ w c x s -> rep x s a (l1 ++ cl :: l2) ->
  exists s' w', erase_key_info E c (c_rid x, cl_m cl) w = Val tt w' /\
    chg c (erased_cache a (e_key (cl_e cl)) x) s' w w' /\
    rep (erased_cache a (e_key (cl_e cl)) x) s'
        (set_ents (ents (l1 ++ l2)) (hot_after a (e_key (cl_e cl))) a) (l1 ++ l2) /\
    s_epoch s' = s_epoch s.
Proof.
  intros A R. pose proof (rp_store R) as RS.
  destruct (forget_ev (e_key (cl_e cl)) A R) as (w1 & E1 & C1 & A1).
  set (x1 := erased_cache a (e_key (cl_e cl)) x) in *.
  assert (Hr : c_rid x1 = c_rid x) by apply erased_rid.
  assert (RS1 : rep_store E (c_rid x1) s (l1 ++ cl :: l2)) by (rewrite Hr; auto).
  eexists _, _. split; [|split; [|split]].
  - unfold erase_key_info. ev deref_ev. rewrite <- bind_assoc. ev E1. rewrite <- Hr.
    ev deref_ev. cbn [n_ord node_of]. ev list_erase_ev.
    unfold map_erase_key. ev own_ev. cbn [s_map n_key node_of].
    rewrite (rep_node_with G _ RS1), (find_cell_mid G _ _ _ _ (rs_keys RS1) (good_refl G _)).
    cbn. rewrite put_store_ev, setS_setS; reflexivity.
  - eapply chg_trans; [exact C1| |auto]. eapply chg_setS; eauto.
  - apply rep_erased with (s := s); auto. rewrite <- Hr. apply (rep_erase G) in RS1. exact RS1.
  - auto.
Qed.

(** ... and its counterpart. *)
Lemma a_remove_ev aw c a k : slot (aw_caches aw) c = Some a ->
  a_remove E c k aw = Val tt (awith c (set_ents (remove_ent E k (a_ents a)) (hot_after a k) a) aw).
Proof.
  intros H. unfold a_remove, bind. erewrite a_get_ev by eauto. erewrite a_ents_put_ev by eauto. auto.
Qed.

Lemma hot_after_keq a k k' : key_equal E k k' = true -> hot_after a k = hot_after a k'.
Proof.
  intros H. unfold hot_after, a_hot_ent. destruct (a_hot a); auto.
  destruct (last_ent (a_ents a)) as [e|]; auto. rewrite (keq_cong G _ _ _ H). auto.
Qed.

Lemma erase_it_sim w aw c x s a l1 cl l2 k : rel w aw -> at_ w c x s ->
  slot (aw_caches aw) c = Some a -> rep x s a (l1 ++ cl :: l2) ->
  key_equal E k (e_key (cl_e cl)) = true ->
  simr E (fun _ _ w' aw' => exists x' s' a', at_ w' c x' s' /\ slot (aw_caches aw') c = Some a' /\
            rep x' s' a' (l1 ++ l2))
    (erase_it E c ((c_rid x, cl_m cl), s_epoch s) w) (a_remove E c k aw).
Proof.
  intros R A Ha Rp Hk.
  edestruct erase_it_ev as (s' & w' & E1 & C & R' & _); [exact A|exact Rp|].
  rewrite E1. erewrite a_remove_ev by eauto.
  rewrite (rp_ents Rp), (remove_cell G (rp_store Rp) Hk), (hot_after_keq _ Hk).
  split.
  - eapply (rel_put R A Ha); [exact C|exact R'|apply erased_rid|auto].
  - eexists _, _, _. split; [eapply chg_at; eauto; apply erased_rid|].
    split; [simpl; erewrite slot_upd_same; eauto|exact R'].
Qed.

Lemma erase_key_info_sim w aw c x s a l1 cl l2 k : rel w aw -> at_ w c x s ->
  slot (aw_caches aw) c = Some a -> rep x s a (l1 ++ cl :: l2) ->
  key_equal E k (e_key (cl_e cl)) = true ->
  simr E (fun _ _ _ _ => True)
    (erase_key_info E c (c_rid x, cl_m cl) w) (a_remove E c k aw).
Proof.
  intros R A Ha Rp Hk.
  edestruct erase_key_info_ev as (s' & w' & E1 & C & R' & _); [exact A|exact Rp|].
  rewrite E1. erewrite a_remove_ev by eauto.
  rewrite (rp_ents Rp), (remove_cell G (rp_store Rp) Hk), (hot_after_keq _ Hk).
  split; auto.
  eapply (rel_put R A Ha); [exact C|exact R'|apply erased_rid|auto].
Qed.

Lemma erase_key_sim w aw c k a : rel w aw -> slot (aw_caches aw) c = Some a ->
  simr E (fun b b' _ _ => b = b') (erase_key E c k w) (a_erase E c k aw).
Proof.
  intros R Ha. destruct (rel_get _ R Ha) as (x & s & l & At & Rp).
  pose proof (rp_store Rp) as RS.
  unfold erase_key, a_erase. ev last_is_ev. aev a_get_ev.
  replace (lookup_ent E k (a_ents a)) with (option_map cl_e (find_cell E k l))
    by (rewrite (rp_ents Rp), find_cell_ents; auto).
  destruct (hot_cell E a l k) as [cl|] eqn:H.
  - ev last_ptr_ev. apply hot_cell_some in H as (_ & Hk & l' & ->).
    rewrite (find_cell_mid G _ _ _ _ (rs_keys RS) Hk). cbn [option_map].
    eapply sim_bind; [eapply erase_key_info_sim; eauto|]. simpl; auto.
  - ev map_find_ev. destruct (find_cell E k l) as [cl|] eqn:F; cbn [option_map].
    + apply find_cell_split in F as (l1 & l2 & -> & Hk).
      eapply sim_bind; [eapply erase_it_sim; eauto|]. simpl; auto.
    + simpl; auto.
Qed.

(** Clear. *)
Lemma rep_store_nil r s : rep_store E r (MkStore [] [] (s_next s) (s_epoch s)) [].
Proof. constructor; simpl; auto using NoDup_nil. Qed.

Lemma clear_ev w c x s a l : at_ w c x s -> rep x s a l ->
  exists s' w', clear c w = Val tt w' /\ chg c (with_last None x) s' w w' /\
    rep (with_last None x) s' (set_ents [] false a) [].
Proof.
  intros A R. eexists _, _. split; [|split].
  - unfold clear. ev own_ev. ev put_store_ev. ev own_ev. ev put_store_ev. rewrite setS_setS.
    cbn [s_next s_epoch s_map]. unfold invalidate_last. erewrite set_last_ev by eauto with sim.
    reflexivity.
  - eapply chg_trans with (x1 := x); [eapply chg_setS; eauto|eapply chg_setC; eauto with sim|auto].
  - constructor; simpl; try apply R; auto; try lia; try discriminate. apply rep_store_nil.
Qed.

Lemma a_keep_ev aw c a n : slot (aw_caches aw) c = Some a ->
  a_keep c n aw = Val tt (awith c (set_ents (lastn n (a_ents a)) (if Nat.eqb n 0 then false else a_hot a) a) aw).
Proof.
  intros H. unfold a_keep, bind. erewrite a_get_ev by eauto. erewrite a_ents_put_ev by eauto. auto.
Qed.

Lemma clear_sim w aw c a : rel w aw -> slot (aw_caches aw) c = Some a ->
  simr E (fun _ _ _ aw' => exists a', slot (aw_caches aw') c = Some a' /\ a_cap a' = a_cap a) (clear c w) (a_keep c 0 aw).
Proof.
  intros R Ha. destruct (rel_get _ R Ha) as (x & s & l & At & Rp).
  destruct (clear_ev At Rp) as (s' & w' & E1 & C & R').
  rewrite E1. erewrite a_keep_ev by eauto. cbn [Nat.eqb].
  replace (lastn 0 (a_ents a)) with (@nil entry) by (unfold lastn; rewrite Nat.sub_0_r, skipn_all; auto).
  split.
  - eapply (rel_put R At Ha); [exact C|exact R'|auto|auto].
  - eexists; split; [simpl; erewrite slot_upd_same; eauto|auto].
Qed.

(** Erasure from the least recent end. *)
Lemma erase_lru_ev w c x s a cl l : at_ w c x s -> rep x s a (cl :: l) ->
  exists s' w', erase_lru E c w = Val tt w' /\
    chg c (erased_cache a (e_key (cl_e cl)) x) s' w w' /\
    rep (erased_cache a (e_key (cl_e cl)) x) s' (set_ents (ents l) (hot_after a (e_key (cl_e cl))) a) l.
Proof.
  intros A R. pose proof (rp_store R) as RS.
  destruct (erase_it_ev (l1 := []) A R) as (s' & w' & E1 & C & R' & _).
  exists s', w'; split; auto. unfold erase_lru, list_front. rewrite bind_assoc. ev own_ev.
  rewrite (rs_ord RS). cbn [map qrow]. rewrite bind_ret.
  match goal with |- bind ?m ?k ?w = _ => with_bind m k w ltac:(eapply deref_ev; eauto with sim; left; auto) end.
  ev map_find_ev. cbn [n_key node_of].
  pose proof (find_cell_mid G _ [] _ _ (rs_keys RS) (good_refl G _)) as F. cbn [app] in F.
  rewrite F. cbn [option_map]. exact E1.
Qed.

Lemma hot_after_head a x s cl l : rep x s a (cl :: l) ->
  hot_after a (e_key (cl_e cl)) = match l with [] => false | _ => a_hot a end.
Proof.
  intros R. unfold hot_after. rewrite (hot_cell_ent _ R). destruct l as [|d l _] using rev_ind.
  - unfold hot_cell; simpl. rewrite (good_refl G). destruct (a_hot a); auto.
  - replace (match l ++ [d] with [] => false | _ => a_hot a end) with (a_hot a) by (destruct l; auto).
    unfold hot_cell. rewrite app_comm_cons, last_cell_app.
    pose proof (rs_keys (rp_store R)) as D.
    change (cl :: l ++ [d]) with ([] ++ cl :: (l ++ [d])) in D.
    rewrite ents_app in D; simpl in D. destruct D as (F & _).
    rewrite ents_app in F. apply Forall_app in F as (_ & F). inversion F; subst.
    rewrite H1. destruct (a_hot a); auto.
Qed.

Lemma set_ents_twice (a : acache) e h e' h' : set_ents e h (set_ents e' h' a) = set_ents e h a.
Proof. auto. Qed.

Lemma set_ents_id (a : acache) e h : a_ents a = e -> a_hot a = h -> set_ents e h a = a.
Proof. intros <- <-. destruct a; auto. Qed.

Lemma awith_awith c (a a' : acache) aw : awith c a (awith c a' aw) = awith c a aw.
Proof. unfold awith; simpl. rewrite upd_upd; auto. Qed.

Lemma awith_same c a aw : slot (aw_caches aw) c = Some a -> awith c a aw = aw.
Proof. intros H. unfold awith. rewrite upd_slot by auto. destruct aw; auto. Qed.

Lemma erase_lru_while_ev n l : forall fuel w c x s a, length l <= fuel ->
  at_ w c x s -> rep x s a l ->
  exists x' s' w', erase_lru_while E fuel c n w = Val tt w' /\ chg c x' s' w w' /\
    c_rid x' = c_rid x /\
    rep x' s' (set_ents (lastn n (ents l)) (if Nat.eqb n 0 then false else a_hot a) a) (lastn n l).
Proof.
  induction l as [|cl l IH]; intros fuel w c x s a L A R.
  - exists x, s, w. pose proof (rep_size (rp_store R)) as SZ.
    assert (H0 : a_hot a = false) by (destruct (a_hot a) eqn:H; auto; destruct (rp_hot R H); auto).
    split; [|split; [eapply chg_refl; eauto|split; auto]].
    + destruct fuel; simpl; ev size_ev; rewrite SZ; simpl; destruct n; auto.
    + replace (lastn n (ents [])) with (ents (K := K) (V := V) []) by (unfold lastn; simpl; destruct n; auto).
      replace (lastn n []) with (@nil cell) by (unfold lastn; simpl; destruct n; auto).
      rewrite H0. replace (if n =? 0 then false else false) with (a_hot a) by (destruct (n =? 0); auto).
      rewrite set_ents_id; auto. rewrite (rp_ents R); auto.
  - pose proof (rep_size (rp_store R)) as SZ.
    destruct (Nat.ltb_spec n (length (cl :: l))) as [H|H].
    + destruct fuel as [|fuel]; [simpl in L; lia|].
      destruct (erase_lru_ev A R) as (s1 & w1 & E1 & C1 & R1).
      edestruct (IH fuel) as (x' & s' & w' & E2 & C2 & Hr & R2); [simpl in L; lia| |exact R1|].
      { eapply chg_at; eauto. apply erased_rid. }
      exists x', s', w'. split; [|split; [|split]].
      * cbn [erase_lru_while]. ev size_ev. rewrite SZ. destruct (Nat.ltb_spec n (length (cl :: l))); [|lia].
        ev E1. exact E2.
      * eapply chg_trans; [exact C1|exact C2|auto].
      * rewrite Hr. apply erased_rid.
      * simpl in H. rewrite (lastn_cons (n := n) cl) by (simpl in *; lia).
        unfold ents at 1. simpl map. rewrite lastn_cons by (rewrite map_length; simpl in *; lia).
        fold (ents l). rewrite set_ents_twice in R2.
        replace (if n =? 0 then false else a_hot a) with
                (if n =? 0 then false else a_hot (set_ents (ents l) (hot_after a (e_key (cl_e cl))) a)).
        { exact R2. }
        destruct n; auto. simpl. rewrite (hot_after_head R). destruct l; auto. simpl in H; lia.
    + exists x, s, w. split; [|split; [eapply chg_refl; eauto|split; auto]].
      * destruct fuel; cbn [erase_lru_while]; ev size_ev; rewrite SZ;
        destruct (Nat.ltb_spec n (length (cl :: l))); auto; lia.
      * simpl in H. rewrite !lastn_all by (unfold ents; try rewrite map_length; simpl; lia).
        destruct n; [lia|]. simpl. rewrite set_ents_id; auto. rewrite (rp_ents R); auto.
Qed.

Lemma shrink_sim w aw c n a : rel w aw -> slot (aw_caches aw) c = Some a ->
  simr E (fun _ _ _ aw' => exists a', slot (aw_caches aw') c = Some a') (shrink E c n w) (a_keep c n aw).
Proof.
  intros R Ha. destruct (rel_get _ R Ha) as (x & s & l & At & Rp).
  unfold shrink. ev size_ev. rewrite (rep_size (rp_store Rp)).
  destruct (Nat.leb_spec (length l) n) as [H|H].
  - simpl. erewrite a_keep_ev by eauto. rewrite lastn_all by (rewrite (rp_ents Rp); unfold ents; rewrite map_length; auto).
    assert (Q : set_ents (a_ents a) (if n =? 0 then false else a_hot a) a = a).
    { destruct n.
      - simpl. destruct l; [|simpl in H; lia]. 
        assert (H0 : a_hot a = false) by (destruct (a_hot a) eqn:H0; auto; destruct (rp_hot Rp H0); auto).
        destruct a; simpl in *; subst; auto.
      - destruct a; auto. }
    rewrite Q, awith_same by auto. eauto.
  - destruct n.
    + cbn [Nat.eqb]. eapply sim_weaken; [eapply clear_sim; eauto|]. simpl; firstorder.
    + cbn [Nat.eqb]. edestruct (@erase_lru_while_ev (S n) l (length l)) as (x' & s' & w' & E1 & C & Hr & R');
        [auto|exact At|exact Rp|].
      rewrite E1. erewrite a_keep_ev by eauto. rewrite (rp_ents Rp). split.
      * eapply (rel_put R At Ha); [exact C|exact R'|auto|auto].
      * eexists; simpl; erewrite slot_upd_same; eauto.
Qed.

Lemma set_capacity_sim w aw c n a : rel w aw -> slot (aw_caches aw) c = Some a ->
  simr E (fun _ _ _ _ => True) (set_capacity E c n w) ((a_keep c n;;; a_setcap c n) aw).
Proof.
  intros R Ha. destruct (rel_get _ R Ha) as (x & s & l & At & Rp).
  unfold set_capacity. ev size_ev. rewrite (rep_size (rp_store Rp)).
  edestruct (@erase_lru_while_ev n l (length l)) as (x' & s' & w' & E1 & C & Hr & R');
    [auto|exact At|exact Rp|].
  ev E1. aev a_keep_ev. 
  assert (At' : at_ w' c x' s') by (eapply chg_at; eauto).
  ev get_cache_ev. rewrite put_cache_ev. unfold a_setcap.
  erewrite bind_val by (eapply a_get_ev; simpl; erewrite slot_upd_same; eauto).
  unfold a_put, modify. simpl. split; auto.
  match goal with |- rel ?w2 ?aw2 => change aw2 with
    (awith c (MkA (lastn n (a_ents a)) (if n =? 0 then false else a_hot a) n (a_stats a) (a_cbs a) (a_ttl a))
       (awith c (set_ents (lastn n (a_ents a)) (if n =? 0 then false else a_hot a) a) aw)) end.
  rewrite awith_awith.
  eapply (rel_put R At Ha); [eapply chg_trans; [exact C|eapply chg_setC; eauto|auto]| |auto|auto].
  rewrite (rp_ents Rp). constructor; simpl; try apply R'; auto.
  unfold lastn. rewrite skipn_length. lia.
Qed.

End Erase.
