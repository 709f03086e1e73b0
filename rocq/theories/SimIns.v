(** Simulation of insertion. *)
From Coq Require Import List Arith ZArith Bool Permutation Lia.
Import ListNotations.
From Verif Require Import Monad Types Model Api Spec Ref Lists SimBase SimRel SimOps.
Set Implicit Arguments.
Unset Strict Implicit.
Local Open Scope cpp_scope.

Section Ins.
Context {K V : Type}.
Variable E : env K V.
Hypothesis G : good E.

Notation entry := (entry K V).
Notation world := (world K V).
Notation store := (store K V).
Notation mnode := (mnode K V).
Notation acache := (acache K V).
Notation aworld := (aworld K V).
Notation cell := (@cell K V).
Notation rel := (rel E).
Notation rep := (rep E).
Notation at_back := (at_back E).
Notation uit := (uit E).
Implicit Types (w : world) (s : store) (aw : aworld).

(** The map after emplacing a fresh node. *)
Section Placed.
Variables (r : nat) (s : store) (l : list cell) (k : K) (v : V) (t : Z).
Hypothesis R : rep_store E r s l.
Hypothesis N : find_cell E k l = None.
Let n0 := MkNode k v None t.
Let pm := place E (s_map s) (s_next s, n0).

Lemma placed_perm : Permutation pm ((s_next s, n0) :: map (mrow r) l).
Proof. unfold pm. rewrite (good_place G _ _). apply perm_skip, (rs_map R). Qed.

Lemma next_fresh cl : In cl l -> cl_m cl < s_next s /\ cl_q cl < s_next s.
Proof.
  intros I. pose proof (rs_lt R) as F. rewrite Forall_forall in F. apply F in I. lia.
Qed.

Lemma placed_nodup : NoDup (map fst pm).
Proof.
  eapply Permutation_NoDup; [apply Permutation_sym, Permutation_map, placed_perm|].
  simpl. constructor; [|rewrite mrow_fst; apply (rs_nm R)].
  rewrite mrow_fst. intros I. apply in_map_iff in I as (c & Hc & I).
  apply next_fresh in I. lia.
Qed.

Lemma placed_assoc cl : In cl l -> assoc (cl_m cl) pm = Some (node_of r cl).
Proof.
  intros I. apply in_assoc; [apply placed_nodup|].
  eapply Permutation_in; [apply Permutation_sym, placed_perm|]. right.
  apply (in_map (mrow r)) in I; auto.
Qed.

Lemma placed_assoc_new : assoc (s_next s) pm = Some n0.
Proof.
  apply in_assoc; [apply placed_nodup|].
  eapply Permutation_in; [apply Permutation_sym, placed_perm|]. left; auto.
Qed.

Lemma placed_length : length pm = S (length l).
Proof. rewrite (Permutation_length placed_perm). simpl. rewrite map_length; auto. Qed.

Lemma placed_node_with cl : In cl l ->
  node_with E (e_key (cl_e cl)) pm = Some (mrow r cl).
Proof.
  intros I.
  assert (NK : key_equal E (e_key (cl_e cl)) k = false).
  { rewrite (good_sym G). pose proof (find_none _ _ N cl I); auto. }
  unfold node_with.
  rewrite (find_perm _ (l := pm) (l' := (s_next s, n0) :: map (mrow r) l)).
  - simpl. rewrite NK. rewrite find_map. simpl.
    apply in_split in I as (a & b & ->).
    pose proof (find_cell_mid G (e_key (cl_e cl)) a cl b (rs_keys R) (good_refl G _)) as F.
    unfold find_cell in F. rewrite F. auto.
  - intros x y Ix Iy X Y.
    apply (Permutation_in _ placed_perm) in Ix. apply (Permutation_in _ placed_perm) in Iy.
    destruct Ix as [<-|Ix]; [simpl in X; congruence|].
    destruct Iy as [<-|Iy]; [simpl in Y; congruence|].
    apply in_map_iff in Ix as (c & <- & Ix). apply in_map_iff in Iy as (d & <- & Iy).
    f_equal. eapply dkeys_unique; eauto. apply (rs_keys R).
  - apply placed_perm.
Qed.

Definition placed e : store := MkStore pm (s_ord s) (S (s_next s)) e.

End Placed.

Lemma map_emplace_ev w c x s l k v t : at_ w c x s -> rep_store E (c_rid x) s l ->
  find_cell E k l = None ->
  let e := if rehash E s then S (s_epoch s) else s_epoch s in
  map_emplace E c (MkNode k v None t) w =
  Val (((c_rid x, s_next s), e), true) (setS (c_rid x) (placed s k v t e) (tick w)).
Proof.
  intros A R N. unfold map_emplace. ev own_ev. cbn [n_key].
  rewrite (rep_node_with G k R), N. simpl. ev fallible_tick. ev put_store_ev. auto.
Qed.

(** _insert_new_key below capacity *)
Lemma insert_new_key_room w c x s s1 l k v t e :
  at_ w c x s1 -> s1 = placed s k v t e -> rep_store E (c_rid x) s l ->
  find_cell E k l = None -> length l < c_cap x ->
  insert_new_key E c (c_rid x, s_next s) w =
  Val (c_rid x, S (s_next s))
      (setS (c_rid x) (MkStore (s_map s1) (s_ord s ++ [(S (s_next s), (c_rid x, s_next s))])
                               (S (S (s_next s))) e) (tick w)).
Proof.
  intros A H R N L. unfold insert_new_key.
  unfold is_too_full. rewrite bind_assoc. ev size_ev. rewrite bind_assoc. ev capacity_ev.
  rewrite bind_ret. subst s1. unfold placed at 1; cbn [s_map]. 
  rewrite (placed_length k v t R). destruct (Nat.ltb_spec (c_cap x) (S (length l))); [lia|].
  unfold list_emplace_back. rewrite bind_assoc. ev fallible_tick.
  rewrite bind_assoc.
  assert (A' : at_ (tick w) c x (placed s k v t e)) by exact A.
  ev own_ev. ev put_store_ev. 
  unfold list_prev_end. ev own_ev.
  simpl. rewrite rev_app_distr. simpl. auto.
Qed.


(** _insert_new_key at capacity: the least recent element is evicted and its list
    node reused *)
Lemma insert_new_key_full w c x s s1 c0 l k v t e :
  at_ w c x s1 -> s1 = placed s k v t e -> rep_store E (c_rid x) s (c0 :: l) ->
  find_cell E k (c0 :: l) = None -> length (c0 :: l) = c_cap x ->
  insert_new_key E c (c_rid x, s_next s) w =
  Val (c_rid x, cl_q c0)
    (setS (c_rid x)
      (MkStore (unassoc (cl_m c0) (s_map s1))
               (map (qrow (c_rid x)) l ++ [(cl_q c0, (c_rid x, s_next s))])
               (S (s_next s)) e) w).
Proof.
  intros A H R N L. unfold insert_new_key.
  unfold is_too_full. rewrite bind_assoc. ev size_ev. rewrite bind_assoc. ev capacity_ev.
  rewrite bind_ret. subst s1. unfold placed at 1; cbn [s_map].
  rewrite (placed_length k v t R). destruct (Nat.ltb_spec (c_cap x) (S (length (c0 :: l)))); [|lia].
  unfold evict_lru_for. unfold list_front. rewrite !bind_assoc. ev own_ev.
  unfold placed at 1; cbn [s_ord]. rewrite (rs_ord R). cbn [map qrow].
  rewrite bind_ret. 
  rewrite bind_assoc.
  match goal with |- bind ?m ?k ?w = _ => 
    assert (D : m w = Val (node_of (c_rid x) c0) w) end.
  { unfold deref; cbn [fst snd]. ev get_store_ev. unfold placed; cbn [s_map].
    rewrite (placed_assoc k v t R) by (left; auto). auto. }
  ev D. clear D. rewrite bind_assoc. unfold map_erase_key. rewrite bind_assoc. ev own_ev.
  unfold placed at 1; cbn [s_map]. cbn [n_key node_of].
  rewrite (placed_node_with v t R N) by (left; auto). cbv beta iota.
  unfold mrow; cbv beta iota. ev put_store_ev.
  rewrite bind_assoc. unfold list_set_front. rewrite bind_assoc. ev own_ev.
  cbn [s_map s_ord s_next s_epoch placed]. rewrite (rs_ord R). cbn [map qrow].
  ev put_store_ev. rewrite bind_assoc. unfold list_begin. rewrite bind_assoc. ev own_ev.
  cbn [s_map s_ord s_next s_epoch placed]. rewrite bind_ret.
  assert (UL : length (unassoc (cl_m c0) (place E (s_map s) (s_next s, MkNode k v None t)))
               = S (length l)).
  { apply eq_add_S. erewrite unassoc_length by (apply (placed_assoc k v t R); left; auto).
    rewrite (placed_length k v t R). auto. }
  unfold move_to_front. rewrite bind_assoc. ev size_ev. cbn [s_map]. rewrite UL.
  rewrite !setS_setS.
  destruct (Nat.eqb_spec (S (length l)) 1) as [Q|Q].
  - destruct l; [|discriminate]. rewrite bind_ret. unfold list_prev_end. ev own_ev.
    cbn. auto.
  - unfold list_splice_back. rewrite bind_assoc. ev own_ev. rewrite Nat.eqb_refl.
    cbn [s_ord assoc s_map s_next s_epoch unassoc]. rewrite Nat.eqb_refl. ev put_store_ev.
    rewrite setS_setS. unfold list_prev_end. ev own_ev. cbn [s_ord].
    rewrite rev_app_distr. cbn. auto.
Qed.

Lemma lastn_all {A} n (l : list A) : length l <= n -> lastn n l = l.
Proof. intros H. unfold lastn. replace (length l - n) with 0 by lia. auto. Qed.
Lemma lastn_cons {A} n (a : A) l : length l >= n -> lastn n (a :: l) = lastn n l.
Proof.
  intros H. unfold lastn. simpl length. replace (S (length l) - n) with (S (length l - n)) by lia.
  auto.
Qed.

Lemma alter_length {A} i (f : A -> A) l : length (alter i f l) = length l.
Proof. unfold alter. apply map_length. Qed.

Lemma setS_some w c x s r s' : at_ w c x s -> r = c_rid x ->
  exists s'', slot (upd (w_stores w) r (Some s')) r = Some s''.
Proof. intros (_ & A) ->. exists s'. erewrite slot_upd_same; eauto. Qed.
Lemma get_setS w r s : (exists s', slot (w_stores w) r = Some s') ->
  get_store r (setS r s w) = Val s (setS r s w).
Proof. intros (s' & H). apply get_store_ev. simpl. erewrite slot_upd_same; eauto. Qed.

(** Insertion of an absent key, up to the assignment of last accessed. *)
Lemma ins_new_store w c x s l k v t : at_ w c x s -> rep_store E (c_rid x) s l -> length l <= c_cap x ->
  find_cell E k l = None -> c_cap x <> 0 ->
  exists i w1 q w2 w3 s' l' cl,
    map_emplace E c (MkNode k v None t) w = Val (i, true) w1 /\
    insert_new_key E c (fst i) w1 = Val q w2 /\
    set_node_order (fst i) q w2 = Val tt w3 /\
    chg c x s' w w3 /\ rep_store E (c_rid x) s' (l' ++ [cl]) /\
    i = ((c_rid x, cl_m cl), s_epoch s') /\ cl_e cl = Ent k v t /\
    ents (l' ++ [cl]) = lastn (c_cap x) (ents l ++ [Ent k v t]) /\
    length (l' ++ [cl]) <= c_cap x /\
    (l' = l \/ exists c0, l = c0 :: l' /\ cl_q cl = cl_q c0 /\ cl_m c0 <> cl_m cl).
Proof.
  intros A R L N Z.
  set (e := if rehash E s then S (s_epoch s) else s_epoch s).
  assert (A1 : at_ (setS (c_rid x) (placed s k v t e) (tick w)) c x (placed s k v t e)).
  { eapply at_setS. apply A. }
  assert (N' : lookup_ent E k (ents l) = None) by (apply find_cell_none; auto).
  destruct (Nat.eq_dec (length l) (c_cap x)) as [Q|Q].
  - destruct l as [|c0 l]; [simpl in Q; congruence|].
    exists ((c_rid x, s_next s), e). eexists. exists (c_rid x, cl_q c0). eexists. eexists. eexists.
    exists l, (Cell (cl_q c0) (s_next s) (Ent k v t)).
    split; [eapply map_emplace_ev; eauto|]. fold e.
    split; [eapply insert_new_key_full; eauto|].
    split.
    { unfold set_node_order, update_node. cbn [fst snd]. 
      erewrite bind_val by (eapply get_setS; simpl; eauto using setS_some).
      cbn [s_map placed].
      assert (U : assoc (s_next s) (unassoc (cl_m c0) (place E (s_map s) (s_next s, MkNode k v None t)))
              = Some (MkNode k v None t)).
      { rewrite assoc_unassoc_other; [apply (placed_assoc_new k v t R)|].
        pose proof (next_fresh R (or_introl eq_refl)). lia. }
      rewrite U. rewrite put_store_ev. rewrite !setS_setS. reflexivity. }
    cbn [s_map s_ord s_next s_epoch placed].
    split; [eapply chg_tick, chg_setS; apply A|].
    split; [eapply rep_evict; eauto|].
    split; [auto|]. split; [auto|].
    split.
    { rewrite ents_app. simpl. rewrite lastn_cons, lastn_all; auto;
      unfold ents; rewrite app_length, map_length; simpl in *; lia. }
    split; [rewrite app_length; simpl in *; lia|].
    right. exists c0. split; auto. split; auto. simpl. pose proof (next_fresh R (or_introl eq_refl)). lia.
  - exists ((c_rid x, s_next s), e). eexists. exists (c_rid x, S (s_next s)). eexists. eexists. eexists.
    exists l, (Cell (S (s_next s)) (s_next s) (Ent k v t)).
    split; [eapply map_emplace_ev; eauto|]. fold e.
    split; [eapply insert_new_key_room; eauto; lia|].
    split.
    { unfold set_node_order, update_node. cbn [fst snd]. 
      erewrite bind_val by (eapply get_setS; simpl; eauto using setS_some).
      cbn [s_map placed].
      rewrite (placed_assoc_new k v t R).
      rewrite put_store_ev. reflexivity. }
    cbn [s_map s_ord s_next s_epoch placed].
    split.
    { unfold chg; simpl. rewrite !upd_upd, (upd_slot _ _ (proj1 A)). repeat split. }
    split; [eapply rep_append; eauto|].
    split; [auto|]. split; [auto|].
    split.
    { rewrite ents_app. simpl. rewrite lastn_all; auto;
      unfold ents; rewrite app_length, map_length; simpl in *; lia. }
    split; [rewrite app_length; simpl in *; lia|].
    left. auto.
Qed.

Lemma ins_new_ev w c x s a l k v t : at_ w c x s -> rep x s a l ->
  find_cell E k l = None -> a_cap a <> 0 ->
  exists i w1 q w2 w3 s' l' cl,
    map_emplace E c (MkNode k v None t) w = Val (i, true) w1 /\
    insert_new_key E c (fst i) w1 = Val q w2 /\
    set_node_order (fst i) q w2 = Val tt w3 /\
    chg c x s' w w3 /\ rep_store E (c_rid x) s' (l' ++ [cl]) /\
    i = ((c_rid x, cl_m cl), s_epoch s') /\ cl_e cl = Ent k v t /\
    ents (l' ++ [cl]) = lastn (a_cap a) (a_ents a ++ [Ent k v t]) /\
    length (l' ++ [cl]) <= a_cap a /\
    (l' = l \/ exists c0, l = c0 :: l' /\ cl_q cl = cl_q c0 /\ cl_m c0 <> cl_m cl).
Proof.
  intros A R N Z. rewrite (rp_ents R), <- (rp_cap R) in *.
  apply ins_new_store with (s := s); auto; [apply (rp_store R)|rewrite (rp_cap R); apply (rp_len R)].
Qed.

(** Clock reading for a new element. *)
Lemma timestamp_sim w aw c x s a l : rel w aw -> at_ w c x s ->
  slot (aw_caches aw) c = Some a -> rep x s a l ->
  simr E (fun t t' w' aw' => t = t' /\ at_ w' c x s /\ slot (aw_caches aw') c = Some a)
    (timestamp E c w) (a_timestamp E a aw).
Proof.
  intros R A Ha Rp. unfold timestamp, a_timestamp. ev get_cache_ev. rewrite (rp_ttl Rp).
  destruct (a_ttl a); simpl.
  - split; [apply rel_tock; auto|]. rewrite (rel_reads R). auto.
  - auto.
Qed.

Definition ins c (r : bool * uiter) (ar : bool * option entry) w aw : Prop :=
  fst r = fst ar /\ uit c (snd r) (snd ar) w aw /\ exists a, slot (aw_caches aw) c = Some a.

Lemma rep_new x s s' a l l' cl e : rep x s a l -> rep_store E (c_rid x) s' (l' ++ [cl]) ->
  ents (l' ++ [cl]) = e -> length (l' ++ [cl]) <= a_cap a ->
  rep (with_last (Some (c_rid x, cl_m cl)) x) s' (set_ents e true a) (l' ++ [cl]).
Proof.
  intros R R' <- L. constructor; simpl; try apply R; auto.
  - rewrite last_cell_app; auto.
  - intros _ Q; destruct l'; discriminate.
Qed.

(** From the assignment of last accessed on. *)
Lemma ins_done w w3 aw c x s s' a l l' cl b (e : entry) es :
  rel w aw -> at_ w c x s -> slot (aw_caches aw) c = Some a -> rep x s a l ->
  chg c x s' w w3 -> rep_store E (c_rid x) s' (l' ++ [cl]) ->
  cl_e cl = e -> ents (l' ++ [cl]) = es -> length (l' ++ [cl]) <= a_cap a ->
  simr E (ins c)
    ((deref_it ((c_rid x, cl_m cl), s_epoch s');;;
      set_last c (Some (fst ((c_rid x, cl_m cl), s_epoch s')));;;
      ret (b, uiter_of c (Some ((c_rid x, cl_m cl), s_epoch s')))) w3)
    ((a_ents_put c es true;;; ret (b, Some e)) aw).
Proof.
  intros R A Ha Rp C R' He Hes L.
  assert (A3 : at_ w3 c x s') by (eapply chg_at; eauto).
  ev deref_it_ev. ev set_last_ev. aev a_ents_put_ev. cbn [fst].
  assert (Rn : rep (with_last (Some (c_rid x, cl_m cl)) x) s' (set_ents es true a) (l' ++ [cl])).
  { eapply rep_new; eauto. }
  split; [|split; [auto|]].
  - eapply (rel_put R A Ha); [|exact Rn|auto|auto].
    eapply chg_trans; [exact C|eapply chg_setC; eauto|]; auto.
  - split; [|eexists; simpl; erewrite slot_upd_same; eauto].
    simpl. eexists; split; [reflexivity|].
    eexists (with_last (Some (c_rid x, cl_m cl)) x), s', _, l', cl.
    split; [eapply at_setC; eauto|]. simpl. split; [erewrite slot_upd_same; eauto|].
    split; [eauto|]. auto.
Qed.

Lemma mtf_value_ev w c x s l1 cl l2 v : at_ w c x s ->
  rep_store E (c_rid x) s (l1 ++ cl :: l2) ->
  exists s' w', move_to_front_value E c ((c_rid x, cl_m cl), s_epoch s) v w = Val tt w' /\
    chg c x s' w w' /\ rep_store E (c_rid x) s' ((l1 ++ l2) ++ [cell_val v cl]) /\
    s_epoch s' = s_epoch s.
Proof.
  intros A R. unfold move_to_front_value.
  edestruct (move_to_front_ev G) as (s' & w2 & E2 & C2 & R2 & EP & _); [exact A|exact R|].
  assert (A2 : at_ w2 c x s') by (eapply chg_at; eauto).
  assert (R2' : rep_store E (c_rid x) s' ((l1 ++ l2) ++ [cl])) by (rewrite <- app_assoc; auto).
  eexists; eexists; split; [|split; [|split]].
  - ev deref_it_ev. cbn [n_ord node_of]. ev E2. ev fallible_tick. cbn [fst].
    erewrite update_node_ev by (simpl; eauto; apply A2). reflexivity.
  - eapply chg_trans; [exact C2|eapply chg_tick, (chg_setS (w := tick w2)); apply A2|auto].
  - eapply rep_setval. exact R2'.
  - auto.
Qed.

Lemma remove_cell r s k l1 cl l2 : rep_store E r s (l1 ++ cl :: l2) ->
  key_equal E k (e_key (cl_e cl)) = true ->
  remove_ent E k (ents (l1 ++ cl :: l2)) = ents (l1 ++ l2).
Proof.
  intros R Hk. pose proof (rs_keys R) as D. rewrite !ents_app in *. simpl in *.
  rewrite remove_mid; auto.
Qed.

Lemma insert_sim w aw c k v a : rel w aw -> slot (aw_caches aw) c = Some a ->
  simr E (ins c) (insert E c k v w) (a_insert E c k v aw).
Proof.
  intros R Ha. destruct (rel_get _ R Ha) as (x & s & l & At & Rp).
  pose proof (rp_store Rp) as RS.
  unfold insert, a_insert. ev capacity_ev. aev a_get_ev. rewrite (rp_cap Rp).
  destruct (Nat.eqb_spec (a_cap a) 0) as [Z|Z].
  { simpl. split; auto. split; simpl; eauto. }
  ev map_find_ev. replace (lookup_ent E k (a_ents a)) with (option_map cl_e (find_cell E k l))
    by (rewrite (rp_ents Rp), find_cell_ents; auto).
  destruct (find_cell E k l) as [cl|] eqn:F; unfold option_map; cbv iota beta.
  - apply find_cell_split in F as (l1 & l2 & -> & Hk).
    edestruct mtf_value_ev as (s' & w' & Em & C & R' & EP); [exact At|exact RS|].
    ev Em. rewrite <- EP.
    pose proof (@ins_done w w' aw c x s s' a _ (l1 ++ l2) (cell_val v cl) false _ 
      (remove_ent E k (a_ents a) ++ [set_val v (cl_e cl)]) R At Ha Rp C R' eq_refl) as D.
    apply D.
    + rewrite (rp_ents Rp), (remove_cell RS Hk), (ents_app (l1 ++ l2)). auto.
    + pose proof (rp_len Rp) as L. rewrite !app_length in *; simpl in *; lia.
  - eapply sim_bind; [eapply timestamp_sim; eauto|]. cbv beta.
    clear dependent w. clear dependent aw.
    intros t t' w aw R (<- & At & Ha).
    edestruct ins_new_ev as (i & w1 & q & w2 & w3 & s' & l' & cl & E1 & E2 & E3 & C & R' & -> & He & Hes & L & _);
      [exact At|exact Rp|exact F|exact Z|].
    ev E1. rewrite bind_ret. ev E2. ev E3.
    eapply ins_done; eauto.
Qed.

Lemma emplace_sim w aw c k v a : rel w aw -> slot (aw_caches aw) c = Some a ->
  simr E (ins c) (emplace E c k v w) (a_insert E c k v aw).
Proof.
  intros R Ha. destruct (rel_get _ R Ha) as (x & s & l & At & Rp).
  pose proof (rp_store Rp) as RS.
  unfold emplace, a_insert. ev capacity_ev. aev a_get_ev. rewrite (rp_cap Rp).
  destruct (Nat.eqb_spec (a_cap a) 0) as [Z|Z].
  { simpl. split; auto. split; simpl; eauto. }
  ev fallible_tick.
  apply rel_tick in R. change (at_ (tick w) c x s) in At. generalize dependent (tick w).
  clear w. intros w R At.
  ev map_find_ev. replace (lookup_ent E k (a_ents a)) with (option_map cl_e (find_cell E k l))
    by (rewrite (rp_ents Rp), find_cell_ents; auto).
  destruct (find_cell E k l) as [cl|] eqn:F; unfold option_map; cbv iota beta.
  - ev fallible_tick.
    apply rel_tick in R. change (at_ (tick w) c x s) in At. generalize dependent (tick w).
    clear w. intros w R At.
    apply find_cell_split in F as (l1 & l2 & -> & Hk).
    edestruct mtf_value_ev as (s' & w' & Em & C & R' & EP); [exact At|exact RS|].
    ev Em. rewrite <- EP.
    pose proof (@ins_done w w' aw c x s s' a _ (l1 ++ l2) (cell_val v cl) false _ 
      (remove_ent E k (a_ents a) ++ [set_val v (cl_e cl)]) R At Ha Rp C R' eq_refl) as D.
    apply D.
    + rewrite (rp_ents Rp), (remove_cell RS Hk), (ents_app (l1 ++ l2)). auto.
    + pose proof (rp_len Rp) as L. rewrite !app_length in *; simpl in *; lia.
  - eapply sim_bind; [eapply timestamp_sim; eauto|]. cbv beta.
    clear dependent w. clear dependent aw.
    intros t t' w aw R (<- & At & Ha).
    edestruct ins_new_ev as (i & w1 & q & w2 & w3 & s' & l' & cl & E1 & E2 & E3 & C & R' & -> & He & Hes & L & _);
      [exact At|exact Rp|exact F|exact Z|].
    ev E1. ev E2. ev E3. rewrite bind_ret.
    eapply ins_done; eauto.
Qed.

Lemma insert_range_sim l : forall n w aw c a, rel w aw -> slot (aw_caches aw) c = Some a ->
  simr E (fun m m' w' aw' => m = m' /\ exists a', slot (aw_caches aw') c = Some a')
    (foldM (fun cnt p => r <- insert E c (fst p) (snd p);; ret (if fst r then S cnt else cnt)) l n w)
    (foldM (fun cnt p => r <- a_insert E c (fst p) (snd p);; ret (if fst r then S cnt else cnt)) l n aw).
Proof.
  induction l as [|p l IH]; intros n w aw c a R Ha; simpl.
  - eauto.
  - rewrite !bind_assoc. eapply sim_bind; [eapply insert_sim; eauto|].
    intros r ar w' aw' R' (H & _ & a' & Ha'). rewrite !bind_ret, H. eauto.
Qed.

Lemma insert_move_sim l : forall n w aw c a, rel w aw -> slot (aw_caches aw) c = Some a ->
  simr E (fun m m' w' aw' => m = m' /\ exists a', slot (aw_caches aw') c = Some a')
    (foldM (fun cnt p => r <- emplace E c (fst p) (snd p);; ret (if fst r then S cnt else cnt)) l n w)
    (foldM (fun cnt p => r <- a_insert E c (fst p) (snd p);; ret (if fst r then S cnt else cnt)) l n aw).
Proof.
  induction l as [|p l IH]; intros n w aw c a R Ha; simpl.
  - eauto.
  - rewrite !bind_assoc. eapply sim_bind; [eapply emplace_sim; eauto|].
    intros r ar w' aw' R' (H & _ & a' & Ha'). rewrite !bind_ret, H. eauto.
Qed.

End Ins.
