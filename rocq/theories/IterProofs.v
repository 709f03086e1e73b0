(** Iterators and references to elements: where an element lives does not change
    while it stays in the cache. *)
From Coq Require Import List Arith ZArith Bool Permutation Lia.
Import ListNotations.
From Verif Require Import Monad Types Model Api Spec SpecTimed Ref Lists SimBase SimRel SimOps SimIns SimErase SimIter SimNew SimObs SimExec RefEval SimRun LruProofs CallProofs LruMore Flat Global Safe Frame SpecStats StatProofs TimedTrack NodeTrack SpecIter.
Set Implicit Arguments.
Unset Strict Implicit.

Section Iter.
Context {K V : Type}.
Variable E : env K V.
Hypothesis G : good E.
Notation acache := (acache K V).
Notation aworld := (aworld K V).
Notation world := (world K V).
Notation store := (store K V).
Notation cell := (@cell K V).
Implicit Types (w : world) (aw : aworld) (o : op K V) (s : store) (cl : cell).

(** The element with key [k] of the cache that owns region [r] is in the nodes
    of cell [cl]. *)
Definition lives (k : K) (c : nat) w r s cl : Prop :=
  exists x l, slot (w_caches w) c = Some x /\ c_rid x = r /\ slot (w_stores w) r = Some s /\
    rep_store E r s l /\ In cl l /\ key_equal E k (e_key (cl_e cl)) = true.

Lemma evolves_same J k c w r s cl c' w1 s1 cl1 : lives k c w r s cl -> lives k c' w1 r s1 cl1 ->
  evolves E J s s1 -> (forall j, J j -> key_equal E k j = false) ->
  cl_m cl1 = cl_m cl /\ cl_q cl1 = cl_q cl /\ e_key (cl_e cl1) = e_key (cl_e cl).
Proof.
  intros (x & l & Hx & Rx & Hs & R & I & Q) (x1 & l1 & Hx1 & Rx1 & Hs1 & R1 & I1 & Q1) EV NJ.
  assert (I1' : In (cl_m cl1, node_of r cl1) (s_map s1)).
  { eapply Permutation_in; [apply Permutation_sym, (rs_map R1)|]. apply in_map_iff. exists cl1; auto. }
  destruct (Nat.lt_ge_cases (cl_m cl1) (s_next s)) as [L|L].
  - destruct (ev_old EV I1' L) as (n0 & I0 & K0 & O0).
    eapply Permutation_in in I0; [|apply (rs_map R)]. apply in_map_iff in I0. destruct I0 as (cl0 & Q0 & I0).
    unfold mrow in Q0. inversion Q0 as [[M0 N0]]. subst n0. simpl in K0, O0.
    assert (cl0 = cl).
    { eapply (dkeys_unique G); [exact (rs_keys R)|exact I0|exact I| |exact Q]. rewrite <- K0; auto. }
    subst cl0. inversion O0. auto.
  - pose proof (ev_new EV I1' L) as NK. apply NJ in NK. simpl in NK. congruence.
Qed.

Lemma lives_inv k c w r s cl aw : rel E w aw -> lives k c w r s cl -> forall J, inv E c r s J w.
Proof.
  intros RE (x & l & Hx & Rx & Hs & R & I & Q) J. split; split.
  - exact (slot_lt _ _ Hx).
  - intros d y Hy. split; [|intros ->; congruence].
    intros RR. eapply (rel_inj RE); eauto. congruence.
  - exact (slot_lt _ _ Hs).
  - intros s' Hs'. rewrite Hs in Hs'. inversion Hs'; subst s'. apply evolves_refl.
    pose proof (rs_lt R) as F. rewrite Forall_forall in *. intros (i, n) J'.
    eapply Permutation_in in J'; [|apply (rs_map R)]. apply in_map_iff in J'. destruct J' as (c0 & Q' & J').
    inversion Q'; subst. apply F; auto.
Qed.

Lemma has_false_in k (l : list (K * V)) p : has E k l = false -> In p l -> key_equal E k (fst p) = false.
Proof.
  unfold has. intros H I. destruct (key_equal E k (fst p)) eqn:Q; auto. exfalso.
  assert (X : existsb (fun p => key_equal E k (fst p)) l = true) by (apply existsb_exists; eauto). congruence.
Qed.
Lemma find_cell_in k (l : list cell) cl : dkeys E (ents l) -> In cl l -> key_equal E k (e_key (cl_e cl)) = true ->
  find_cell E k l = Some cl.
Proof. intros D I Q. apply in_split in I. destruct I as (a & b & ->). apply find_cell_mid; auto. Qed.

Lemma follow_homely o oc c : homely o = true -> follow o oc c = c.
Proof. destruct o; simpl; try discriminate; auto. Qed.

Lemma there_step o w oc w1 aw k c r s cl j v : o = Insert c j v \/ o = Emplace c j v ->
  rel E w aw -> call E o w oc w1 -> lives k c w r s cl -> key_equal E k j = true ->
  inv E c r s (fun _ => False) w1.
Proof.
  intros Ho RE C LV KK. pose proof LV as (x & l & Hx & Rx & Hs & R & I & Q).
  assert (MF : map_find E c j w = Val (Some ((r, cl_m cl), s_epoch s)) w).
  { subst r. assert (A : at_ w c x s) by (split; auto).
    rewrite (map_find_ev G j A R).
    rewrite (find_cell_in (rs_keys R) I (k := j)); [reflexivity|].
    rewrite (good_sym G) in KK; eapply (good_trans G); eauto. }
  pose proof (exec_there (E := E) Ho (lives_inv RE LV (fun _ => False)) MF) as H.
  unfold call in C; destruct oc; rewrite C in H; exact H.
Qed.

Ltac sw C := repeat (simpl in C; first [rewrite slot_upd_lt in C by (rewrite ?upd_length; auto)
                                        |rewrite slot_upd_other in C by auto]); simpl in C.

(** One call. *)
Lemma cell_step o w oc w1 aw aw1 k c r s cl c1 r1 s1 cl1 :
  copy_free o = true -> rel E w aw -> rel E w1 aw1 -> call E o w oc w1 ->
  has E k (range_into c o) = false ->
  lives k c w r s cl -> c1 = follow o oc c -> lives k c1 w1 r1 s1 cl1 ->
  r1 = r /\ cl_m cl1 = cl_m cl /\ cl_q cl1 = cl_q cl /\ e_key (cl_e cl1) = e_key (cl_e cl) /\
  (grows E c k o = false \/ (forall t, rehash E t = false) -> s_epoch s1 = s_epoch s).
Proof.
  intros CF RE RE1 C RI LV F LV1.
  pose proof LV as (x & l & Hx & Rx & Hs & R & I & Q).
  pose proof LV1 as (x1 & l1 & Hx1 & Rx1 & Hs1 & R1 & I1 & Q1).
  (* the stores did not change *)
  assert (SAME : r1 = r -> s1 = s -> r1 = r /\ cl_m cl1 = cl_m cl /\ cl_q cl1 = cl_q cl /\
    e_key (cl_e cl1) = e_key (cl_e cl) /\
    (grows E c k o = false \/ (forall t, rehash E t = false) -> s_epoch s1 = s_epoch s)).
  { intros -> ->. split; auto.
    pose proof (proj2 (proj2 (lives_inv RE LV (fun _ => False))) _ Hs) as EV.
    destruct (evolves_same LV LV1 EV) as (A1 & A2 & A3); [easy|]. auto. }
  destruct (homely o) eqn:HO.
  - (* homely *)
    rewrite (follow_homely oc c HO) in F. subst c1.
    assert (HJ : exists J, inv E c r s J w1 /\ (forall j, J j -> key_equal E k j = false) /\
               (grows E c k o = false -> forall j, ~ J j)).
    { assert (STD : (forall j, In j (brings c o) -> key_equal E k j = false) ->
                exists J, inv E c r s J w1 /\ (forall j, J j -> key_equal E k j = false) /\
                  (grows E c k o = false -> forall j, ~ J j)).
      { intros B. exists (fun j => In j (brings c o)). split; [|split]; auto.
        - pose proof (h_apply (h_exec (E := E) (good_place G) (good_cb G) (r := r) (s0 := s)
            (J := fun j => In j (brings c o)) HO (fun j H => H)) (lives_inv RE LV _)) as H.
          unfold call in C. destruct oc; rewrite C in H; auto.
        - intros GR j IJ. pose proof (B j IJ) as KJ. destruct o; simpl in GR, IJ; try easy.
          all: destruct (Nat.eqb c c0); try easy.
          all: destruct IJ as [<-|[]]; rewrite KJ in GR; discriminate. }
      destruct o; cbn [brings range_into] in STD, RI; try discriminate; try (apply STD; easy).
      1-2,5-6: apply STD; intros j IJ; destruct (Nat.eqb c c0); [|easy];
        apply in_map_iff in IJ; destruct IJ as ((j', v') & <- & IJ); exact (has_false_in RI IJ).
      all: destruct (Nat.eqb_spec c c0) as [->|N]; [|apply STD; easy];
        destruct (key_equal E k k0) eqn:KK; [|apply STD; intros j [<-|[]]; auto];
        exists (fun _ => False); split; [|split; auto; easy].
      all: eapply there_step; [|exact RE|exact C|exact LV|exact KK]; auto. }
    destruct HJ as (J & IV & NJ & NN). destruct IV as ((_ & IVc) & (_ & IVs)).
    assert (RR : r1 = r) by (rewrite <- Rx1; apply (IVc c x1 Hx1); auto). rewrite RR in *.
    pose proof (IVs _ Hs1) as EV. split; auto.
    destruct (evolves_same LV LV1 EV NJ) as (A1 & A2 & A3). repeat (split; auto).
    intros [H|H]; apply (ev_epoch EV); [left; auto|right; auto].
  - (* the others *)
    assert (WF : well_formed w o = true \/ (w1 = w /\ c1 = c)).
    { unfold call, exec in C. destruct (well_formed w o); auto. right.
      destruct oc; inversion C; subst; split; auto. destruct o; auto. }
    destruct WF as [WF|(-> & ->)].
    2:{ apply SAME; congruence. }
    destruct o; simpl in HO, CF; try discriminate.
    + (* Move *)
      unfold call, exec in C. rewrite WF in C. cbn [body] in C.
      unfold move_new, bind, get_cache, ret in C.
      destruct (slot (w_caches w) c0) as [y|] eqn:Y; [|destruct oc; discriminate].
      destruct (junk E) as [jn|]; [|destruct oc; discriminate].
      unfold new_cache, bind, alloc_store, alloc_cache in C. simpl in C.
      unfold base_swap, bind, get_cache in C. simpl in C.
      pose proof (slot_lt _ _ Y) as L0. pose proof (slot_lt _ _ Hx) as Lx.
      rewrite slot_app_new in C. simpl in C. rewrite (slot_app_lt _ _ L0), Y in C. simpl in C.
      destruct (Nat.eqb_spec (length (w_caches w)) c0) as [N|N]; [lia|]. simpl in C.
      unfold put_cache, modify, with_caches in C. simpl in C.
      destruct oc as [ov|]; [|discriminate]. inversion C; subst ov w1. clear C. simpl in Hx1, Hs1, F.
      destruct (Nat.eqb_spec c c0) as [->|N0].
      * subst c1. assert (y = x) by congruence. subst y.
        rewrite slot_upd_other in Hx1 by lia. rewrite slot_upd_lt in Hx1 by (rewrite app_length; simpl; lia).
        inversion Hx1; subst x1. simpl in Rx1.
        rewrite slot_app_lt in Hs1 by (rewrite <- Rx1, Rx; exact (slot_lt _ _ Hs)).
        apply SAME; congruence.
      * subst c1. rewrite !slot_upd_other in Hx1 by lia. rewrite slot_app_lt in Hx1 by auto.
        assert (x1 = x) by congruence. subst x1.
        rewrite slot_app_lt in Hs1 by (rewrite <- Rx1, Rx; exact (slot_lt _ _ Hs)).
        apply SAME; congruence.
    + (* CopyAssign c c *)
      apply Nat.eqb_eq in CF. subst d. unfold call, exec in C. rewrite WF in C. cbn [body] in C.
      unfold copy_assign, noexcept, bind in C. rewrite Nat.eqb_refl in C. simpl in C.
      destruct oc; inversion C; subst. simpl in *. apply SAME; congruence.
    + (* MoveAssign *)
      unfold call, exec in C. rewrite WF in C. cbn [body] in C.
      unfold move_assign, base_swap, bind, get_cache, ret in C.
      destruct (slot (w_caches w) c0) as [y|] eqn:Y; [|destruct oc; discriminate].
      destruct (slot (w_caches w) d) as [z|] eqn:Z; [|destruct oc; discriminate].
      destruct (Nat.eqb_spec c0 d) as [->|N].
      * simpl in C. rewrite ?Z in C. simpl in C. rewrite ?Z in C. simpl in C. unfold put_cache, modify in C.
        destruct oc as [ov|]; [|discriminate]. inversion C; subst ov w1. clear C. simpl in Hx1, Hs1, F.
        assert (F' : c1 = c) by (subst c1; destruct (Nat.eqb_spec c d); auto). clear F. subst c1.
        destruct (Nat.eq_dec d c) as [->|N0].
        -- erewrite slot_upd_same in Hx1 by eauto. inversion Hx1; subst x1. simpl in Rx1.
           apply SAME; congruence.
        -- rewrite slot_upd_other in Hx1 by auto. apply SAME; congruence.
      * unfold put_cache, modify, with_caches in C. simpl in C.
        pose proof (slot_lt _ _ Y) as L0. pose proof (slot_lt _ _ Z) as L1.
        sw C. destruct oc as [ov|]; [|discriminate]. inversion C; subst ov w1. clear C. simpl in Hx1, Hs1, F.
        destruct (Nat.eqb_spec c c0) as [->|N0]; [|destruct (Nat.eqb_spec c d) as [->|N1]].
        -- subst c1. rewrite slot_upd_other in Hx1 by auto.
           rewrite slot_upd_lt in Hx1 by (rewrite !upd_length; auto). inversion Hx1; subst x1. simpl in Rx1.
           apply SAME; congruence.
        -- subst c1. rewrite slot_upd_lt in Hx1 by (rewrite !upd_length; auto).
           inversion Hx1; subst x1. simpl in Rx1. apply SAME; congruence.
        -- subst c1. rewrite !slot_upd_other in Hx1 by auto. apply SAME; congruence.
    + (* Swap *)
      unfold call, exec in C. rewrite WF in C. cbn [body] in C.
      unfold swap, base_swap, bind, get_cache, ret in C.
      destruct (slot (w_caches w) c0) as [y|] eqn:Y; [|destruct oc; discriminate].
      destruct (slot (w_caches w) d) as [z|] eqn:Z; [|destruct oc; discriminate].
      destruct (Nat.eqb_spec c0 d) as [->|N].
      * simpl in C. rewrite ?Z in C. simpl in C. rewrite ?Z in C. simpl in C. unfold put_cache, modify, with_caches in C. simpl in C.
        erewrite slot_upd_same in C by eauto.
        destruct oc as [ov|]; [|discriminate]. inversion C; subst ov w1. clear C. simpl in Hx1, Hs1, F.
        assert (F' : c1 = c) by (subst c1; destruct (Nat.eqb_spec c d); auto). clear F. subst c1.
        rewrite upd_upd in Hx1.
        destruct (Nat.eq_dec d c) as [->|N0].
        -- erewrite slot_upd_same in Hx1 by eauto. inversion Hx1; subst x1. simpl in Rx1.
           apply SAME; congruence.
        -- rewrite slot_upd_other in Hx1 by auto. apply SAME; congruence.
      * unfold put_cache, modify, with_caches in C. simpl in C.
        pose proof (slot_lt _ _ Y) as L0. pose proof (slot_lt _ _ Z) as L1.
        sw C. rewrite ?Y in C. sw C. rewrite ?Z in C. sw C. destruct oc as [ov|]; [|discriminate]. inversion C; subst ov w1. clear C. simpl in Hx1, Hs1, F.
        destruct (Nat.eqb_spec c c0) as [->|N0]; [|destruct (Nat.eqb_spec c d) as [->|N1]].
        -- subst c1.
           rewrite slot_upd_lt in Hx1 by (rewrite !upd_length; auto). inversion Hx1; subst x1. simpl in Rx1.
           apply SAME; congruence.
        -- subst c1. rewrite slot_upd_other in Hx1 by auto. rewrite slot_upd_lt in Hx1 by (rewrite !upd_length; auto).
           inversion Hx1; subst x1. simpl in Rx1. apply SAME; congruence.
        -- subst c1. rewrite !slot_upd_other in Hx1 by auto. apply SAME; congruence.
Qed.

(** A store determines its cells. *)
Lemma rep_cells r s l l' cl : rep_store E r s l -> rep_store E r s l' -> In cl l -> In cl l'.
Proof.
  intros R R' I. assert (I' : In (mrow r cl) (map (mrow r) l')).
  { eapply Permutation_in; [apply (rs_map R')|]. eapply Permutation_in; [apply Permutation_sym, (rs_map R)|].
    apply in_map; auto. }
  apply in_map_iff in I'. destruct I' as (cl' & Q & I'). unfold mrow in Q.
  destruct cl' as [q m [k v t]], cl as [q1 m1 [k1 v1 t1]]. inversion Q; subst. auto.
Qed.

Lemma lives_at k c w r s cl aw : rel E w aw -> lives k c w r s cl ->
  exists x a l, at_ w c x s /\ c_rid x = r /\ slot (aw_caches aw) c = Some a /\ rep E x s a l /\ In cl l /\
    key_equal E k (e_key (cl_e cl)) = true /\ contents E c w (map pair_of (ents l)).
Proof.
  intros RE (x & l & Hx & Rx & Hs & R & I & Q).
  destruct (rel_get' _ RE Hx) as (a & s' & l' & Ha & At & Rp).
  assert (s' = s) by (destruct At as (_ & At); rewrite Rx in At; congruence). subst s'.
  exists x, a, l'. split; auto. split; auto. split; auto. split; auto. split; [|split; auto].
  - eapply rep_cells; [exact R|rewrite <- Rx; exact (rp_store Rp)|auto].
  - rewrite <- (rp_ents Rp). eapply (contents_of G); eauto.
Qed.

Lemma lives_of k c w aw l : rel E w aw -> contents E c w l -> has E k l = true ->
  exists r s cl, lives k c w r s cl.
Proof.
  intros RE CT H. destruct (contents_inv G RE CT) as (a & Ha & ->).
  destruct (rel_get _ RE Ha) as (x & s & l' & At & Rp).
  unfold has in H. apply existsb_exists in H. destruct H as (p & I & Q).
  rewrite (rp_ents Rp) in I. unfold ents in I. rewrite map_map in I. apply in_map_iff in I.
  destruct I as (cl & <- & I). exists (c_rid x), s, cl, x, l'. destruct At. split; auto. split; auto. split; auto. split; [apply (rp_store Rp)|auto].
Qed.

Lemma kept_lives k c w ops c' w' : kept E k c w ops c' w' -> forall aw r s cl, rel E w aw -> lives k c w r s cl ->
  exists aw' s' cl', rel E w' aw' /\ lives k c' w' r s' cl' /\
    cl_m cl' = cl_m cl /\ cl_q cl' = cl_q cl /\ e_key (cl_e cl') = e_key (cl_e cl) /\
    (forallb inserts_nothing ops = true \/ (forall t, rehash E t = false) -> s_epoch s' = s_epoch s).
Proof.
  induction 1 as [c w|c w o oc w1 l t c' w' CF C RI CT HK KP IH]; intros aw r s cl R LV.
  - exists aw, s, cl. repeat (split; auto).
  - destruct (call_any G R CF C) as (ch & oc' & aw1 & R1 & _ & _).
    destruct (lives_of R1 CT HK) as (r1 & s1 & cl1 & LV1).
    destruct (cell_step CF R R1 C RI LV eq_refl LV1) as (-> & M1 & Q1 & K1 & E1).
    destruct (IH aw1 r s1 cl1 R1 LV1) as (aw' & s' & cl' & R' & LV' & M' & Q' & K' & E').
    exists aw', s', cl'. split; auto. split; auto. split; [congruence|]. split; [congruence|]. split; [congruence|].
    simpl. intros [H|H].
    + apply andb_true_iff in H. destruct H as (H1 & H2). rewrite E', E1; auto.
      left. destruct o; simpl in *; auto; discriminate.
    + rewrite E', E1; auto.
Qed.

Lemma nth_in_map {A B} (f : A -> B) l n b : nth_error (map f l) n = Some b ->
  exists a, nth_error l n = Some a /\ b = f a.
Proof. intros H. rewrite nth_error_map in H. destruct (nth_error l n); inversion H; eauto. Qed.

(** The cells of a cache, by position. *)
Lemma cells_at c w l aw : rel E w aw -> contents E c w l ->
  exists x s a cs, at_ w c x s /\ slot (aw_caches aw) c = Some a /\ rep E x s a cs /\ l = map pair_of (ents cs).
Proof.
  intros RE CT. destruct (contents_inv G RE CT) as (a & Ha & ->).
  destruct (rel_get _ RE Ha) as (x & s & l' & At & Rp). exists x, s, a, l'. rewrite <- (rp_ents Rp). auto.
Qed.
Lemma cell_nth n (cs : list cell) k v : nth_error (map pair_of (ents cs)) n = Some (k, v) ->
  exists cl, nth_error cs n = Some cl /\ e_key (cl_e cl) = k /\ e_val (cl_e cl) = v.
Proof.
  intros H. unfold ents in H. rewrite map_map in H. apply nth_in_map in H. destruct H as (cl & H & Q).
  inversion Q. eauto.
Qed.
Lemma nth_cell n (cs : list cell) cl : nth_error cs n = Some cl ->
  nth_error (map pair_of (ents cs)) n = Some (e_key (cl_e cl), e_val (cl_e cl)).
Proof. intros H. unfold ents. rewrite map_map, nth_error_map, H. reflexivity. Qed.
Lemma nth_lives n c w x s a cs cl : at_ w c x s -> rep E x s a cs -> nth_error cs n = Some cl ->
  lives (e_key (cl_e cl)) c w (c_rid x) s cl.
Proof.
  intros (A1 & A2) Rp N. exists x, cs. split; auto. split; auto. split; auto. split; [apply (rp_store Rp)|].
  split; [eapply nth_error_In; eauto|apply (good_refl G)].
Qed.

Lemma ordered_nth_at n c w x s a cs cl : at_ w c x s -> rep E x s a cs -> nth_error cs n = Some cl ->
  ordered_nth c n w = Val (MkO c (OAt (c_rid x, cl_q cl)) None) w.
Proof.
  intros At Rp N. rewrite (ordered_nth_ev n At (rp_store Rp)). pose proof (skipn_split n cs) as S.
  rewrite N in S. destruct S as (b & -> & _). reflexivity.
Qed.

Lemma lives_shows k c w r s cl : lives k c w r s cl -> shows (r, cl_m cl) w (e_key (cl_e cl)) (e_val (cl_e cl)).
Proof.
  intros (x & l & Hx & Rx & Hs & R & I & Q). unfold shows. rewrite (read_entry_ev Hs R I). reflexivity.
Qed.
Lemma lives_o_deref k c w r s cl : lives k c w r s cl ->
  o_deref E (MkO c (OAt (r, cl_q cl)) None) w =
  Val ((r, cl_m cl), MkO c (OAt (r, cl_q cl)) (Some (r, cl_m cl))) w.
Proof.
  intros (x & l & Hx & Rx & Hs & R & I & Q). apply in_split in I. destruct I as (l1 & l2 & ->). subst r.
  apply (o_deref_ev G (s := s) (l1 := l1) (l2 := l2)); auto. split; auto.
Qed.

Theorem ordered_follows w c l n k v it it1 ops w' : reachable E w -> contents E c w l ->
  nth_error l n = Some (k, v) -> ordered_nth c n w = Val it w -> o_used E w it it1 ->
  kept E k c w ops c w' ->
  exists l' n' v', contents E c w' l' /\ nth_error l' n' = Some (k, v') /\
    ordered_nth c n' w' = Val it w' /\ o_shows E it1 w' k v'.
Proof.
  intros RC CT N NT US KP. destruct (reach_rel G RC) as (aw & R).
  destruct (cells_at R CT) as (x & s & a & cs & At & Ha & Rp & ->).
  destruct (cell_nth N) as (cl & NC & <- & <-).
  pose proof (nth_lives At Rp NC) as LV. rewrite (ordered_nth_at At Rp NC) in NT. inversion NT; subst it. clear NT.
  destruct (kept_lives KP R LV) as (aw' & s' & cl' & R' & LV' & M' & Q' & K' & _).
  destruct (lives_at R' LV') as (x' & a' & l' & At' & Rx' & Ha' & Rp' & I' & KQ & CT').
  destruct (In_nth_error _ _ I') as (n' & N').
  exists (map pair_of (ents l')), n', (e_val (cl_e cl')). split; auto. split; [rewrite (nth_cell N'), K'; auto|].
  split; [rewrite (ordered_nth_at At' Rp' N'), Rx', Q'; auto|].
  pose proof (lives_shows LV') as SH. rewrite K' in SH.
  pose proof (lives_o_deref LV) as D. pose proof (lives_o_deref LV') as D'.
  destruct US as [->|(p & US)].
  - rewrite <- Q'. eexists _, _. split; [exact D'|exact SH].
  - rewrite D in US. inversion US; subst. rewrite <- M'. eexists _, _. split; [reflexivity|exact SH].
Qed.

Theorem used_follows w c l n k v it p it1 ops c' w' : reachable E w -> contents E c w l ->
  nth_error l n = Some (k, v) -> ordered_nth c n w = Val it w -> o_deref E it w = Val (p, it1) w ->
  kept E k c w ops c' w' ->
  exists l' v', contents E c' w' l' /\ look E k l' = Some (k, v') /\ o_shows E it1 w' k v'.
Proof.
  intros RC CT N NT US KP. destruct (reach_rel G RC) as (aw & R).
  destruct (cells_at R CT) as (x & s & a & cs & At & Ha & Rp & ->).
  destruct (cell_nth N) as (cl & NC & <- & <-).
  pose proof (nth_lives At Rp NC) as LV. rewrite (ordered_nth_at At Rp NC) in NT. inversion NT; subst it. clear NT.
  destruct (kept_lives KP R LV) as (aw' & s' & cl' & R' & LV' & M' & Q' & K' & _).
  destruct (lives_at R' LV') as (x' & a' & l' & At' & Rx' & Ha' & Rp' & I' & KQ & CT').
  exists (map pair_of (ents l')), (e_val (cl_e cl')). split; auto. split.
  - rewrite look_map, (find_cell_ents E), (find_cell_in (rs_keys (rp_store Rp')) I' KQ). simpl.
    unfold pair_of. rewrite K'. auto.
  - pose proof (lives_shows LV') as SH. rewrite K' in SH.
    pose proof (lives_o_deref LV) as D. rewrite D in US. inversion US; subst. rewrite <- M'.
    eexists _, _. split; [reflexivity|exact SH].
Qed.

(** References, however obtained. *)
Lemma reference_follows k c w r s cl aw ops c' w' : rel E w aw -> lives k c w r s cl -> kept E k c w ops c' w' ->
  exists l' v', contents E c' w' l' /\ look E k l' = Some (e_key (cl_e cl), v') /\
    shows (r, cl_m cl) w' (e_key (cl_e cl)) v'.
Proof.
  intros R LV KP. destruct (kept_lives KP R LV) as (aw' & s' & cl' & R' & LV' & M' & Q' & K' & _).
  destruct (lives_at R' LV') as (x' & a' & l' & At' & Rx' & Ha' & Rp' & I' & KQ & CT').
  exists (map pair_of (ents l')), (e_val (cl_e cl')). split; auto. split.
  - rewrite look_map, (find_cell_ents E), (find_cell_in (rs_keys (rp_store Rp')) I' KQ). simpl.
    unfold pair_of. rewrite K'. auto.
  - rewrite <- M', <- K'. exact (lives_shows LV').
Qed.

(** ** Unordered iterators *)
Lemma hash_order_at c w u x s cs : at_ w c x s -> rep_store E (c_rid x) s cs ->
  hash_order E c w u -> u = map (@npair K V) (s_map s).
Proof.
  intros At R H. assert (Q : traverse_unordered c w = Val (map (@npair K V) (s_map s)) w).
  { unfold traverse_unordered, bind. rewrite (size_ev At), (unordered_begin_ev At).
    eapply (u_collect_ev (m1 := [])); eauto. eapply rep_map_nodup; eauto. }
  unfold hash_order, exec in H. destruct At as (At & _). unfold well_formed, alive in H. rewrite At in H.
  cbn [body] in H. unfold bind in H. rewrite Q in H. inversion H. auto.
Qed.
Lemma row_cell r s cs i m n : rep_store E r s cs -> nth_error (s_map s) i = Some (m, n) ->
  exists cl, In cl cs /\ m = cl_m cl /\ n = node_of r cl.
Proof.
  intros R N. apply nth_error_In in N. eapply Permutation_in in N; [|apply (rs_map R)].
  apply in_map_iff in N. destruct N as (cl & Q & I). inversion Q. eauto.
Qed.
Lemma cell_row r s cs cl : rep_store E r s cs -> In cl cs -> exists i, nth_error (s_map s) i = Some (mrow r cl).
Proof.
  intros R I. apply In_nth_error. eapply Permutation_in; [apply Permutation_sym, (rs_map R)|]. apply in_map; auto.
Qed.
Lemma unordered_nth_at c w x s cs i m n : at_ w c x s -> rep_store E (c_rid x) s cs ->
  nth_error (s_map s) i = Some (m, n) ->
  unordered_nth c i w = Val (MkU c (UAt ((c_rid x, m), s_epoch s)) None) w.
Proof.
  intros At R N. rewrite (unordered_nth_ev i At R). pose proof (skipn_split i (s_map s)) as S.
  rewrite N in S. destruct S as (b & -> & _). reflexivity.
Qed.
Lemma unordered_nth_end c w x s cs i : at_ w c x s -> rep_store E (c_rid x) s cs ->
  nth_error (s_map s) i = None -> unordered_nth c i w = Val (unordered_end c) w.
Proof.
  intros At R N. rewrite (unordered_nth_ev i At R). pose proof (skipn_split i (s_map s)) as S.
  rewrite N in S. destruct S as (-> & _). reflexivity.
Qed.
Lemma ordered_nth_end c w x s cs i : at_ w c x s -> rep_store E (c_rid x) s cs ->
  nth_error cs i = None -> ordered_nth c i w = Val (ordered_end c) w.
Proof.
  intros At R N. rewrite (ordered_nth_ev i At R). pose proof (skipn_split i cs) as S.
  rewrite N in S. destruct S as (-> & _). reflexivity.
Qed.

Lemma o_from_u_ev w c r s cs cl en : slot (w_stores w) r = Some s -> rep_store E r s cs -> In cl cs ->
  o_from_u (MkU c (UAt ((r, cl_m cl), s_epoch s)) en) w = Val (MkO c (OAt (r, cl_q cl)) None) w.
Proof.
  intros Hs R I. unfold o_from_u, u_eq. simpl. unfold bind. rewrite (deref_it_ev _ _ Hs R I). reflexivity.
Qed.
Lemma u_deref_ev w c r s cs cl : slot (w_stores w) r = Some s -> rep_store E r s cs -> In cl cs ->
  u_deref (MkU c (UAt ((r, cl_m cl), s_epoch s)) None) w =
  Val ((r, cl_m cl), MkU c (UAt ((r, cl_m cl), s_epoch s)) (Some (r, cl_m cl))) w.
Proof. intros Hs R I. unfold u_deref. simpl. unfold bind. rewrite (deref_it_ev _ _ Hs R I). reflexivity. Qed.

(** Conversion. *)
Theorem convert w c l u i it it1 : reachable E w -> contents E c w l -> hash_order E c w u ->
  unordered_nth c i w = Val it w -> u_used w it it1 ->
  match nth_error u i with
  | Some (k, v) =>
      exists j ot, nth_error l j = Some (k, v) /\ ordered_nth c j w = Val ot w /\
        o_from_u it1 w = Val ot w /\ o_shows E ot w k v /\
        exists ot', o_from_u_move it1 w = Val ot' w /\ o_used E w ot ot'
  | None => o_from_u it1 w = Exc InvalidIteratorConversion w
  end.
Proof.
  intros RC CT HO NT US. destruct (reach_rel G RC) as (aw & R).
  destruct (cells_at R CT) as (x & s & a & cs & At & Ha & Rp & ->). pose proof (rp_store Rp) as RS.
  rewrite (hash_order_at At RS HO). rewrite nth_error_map.
  destruct (nth_error (s_map s) i) as [(m, n)|] eqn:N; simpl.
  - destruct (row_cell RS N) as (cl & I & -> & ->). rewrite (unordered_nth_at At RS N) in NT. inversion NT; subst it.
    destruct (In_nth_error _ _ I) as (j & J). pose proof (nth_lives At Rp J) as LV. simpl.
    pose proof At as (At1 & At2). pose proof (lives_o_deref LV) as D.
    exists j, (MkO c (OAt (c_rid x, cl_q cl)) None). split; [exact (nth_cell J)|].
    split; [exact (ordered_nth_at At Rp J)|].
    destruct US as [->|(p & US)].
    + split; [apply (o_from_u_ev c None At2 RS I)|]. split; [eexists _, _; split; [exact D|exact (lives_shows LV)]|].
      exists (MkO c (OAt (c_rid x, cl_q cl)) None). unfold o_from_u_move, bind.
      rewrite (o_from_u_ev c None At2 RS I). split; [reflexivity|left; auto].
    + rewrite (u_deref_ev c At2 RS I) in US. inversion US; subst.
      split; [apply (o_from_u_ev c _ At2 RS I)|]. split; [eexists _, _; split; [exact D|exact (lives_shows LV)]|].
      eexists. unfold o_from_u_move, bind.
      rewrite (o_from_u_ev c _ At2 RS I). split; [reflexivity|right]. simpl. eexists. exact D.
  - rewrite (unordered_nth_end At RS N) in NT. inversion NT; subst it.
    destruct US as [->|(p & US)]; [|discriminate].
    unfold o_from_u, u_eq. simpl. rewrite Nat.eqb_refl. reflexivity.
Qed.

(** Comparison. *)
Theorem compare w c l u i j it ot it1 ot1 : reachable E w -> contents E c w l -> hash_order E c w u ->
  unordered_nth c i w = Val it w -> u_used w it it1 -> ordered_nth c j w = Val ot w -> o_used E w ot ot1 ->
  exists b, ou_eq ot1 it1 w = Val b w /\ (b = true <-> nth_error l j = nth_error u i).
Proof.
  intros RC CT HO NT US OT OS. destruct (reach_rel G RC) as (aw & R).
  destruct (cells_at R CT) as (x & s & a & cs & At & Ha & Rp & ->). pose proof (rp_store Rp) as RS.
  pose proof At as (At1 & At2).
  rewrite (hash_order_at At RS HO), !nth_error_map. unfold ents. rewrite nth_error_map.
  assert (P1 : oi_pos ot1 = oi_pos ot /\ oi_cache ot1 = c /\ oi_cache ot = c /\
               oi_pos ot = match nth_error cs j with Some cl => OAt (c_rid x, cl_q cl) | None => OEnd c end).
  { destruct (nth_error cs j) as [cl|] eqn:J.
    - rewrite (ordered_nth_at At Rp J) in OT. inversion OT; subst ot.
      destruct OS as [->|(p & OS)]; auto. pose proof (lives_o_deref (nth_lives At Rp J)) as D. rewrite D in OS.
      inversion OS; auto.
    - rewrite (ordered_nth_end At RS J) in OT. inversion OT; subst ot.
      destruct OS as [->|(p & OS)]; auto. discriminate. }
  destruct P1 as (P1 & P2 & _ & P3).
  assert (Q1 : ui_pos it1 = ui_pos it /\ ui_cache it1 = c /\
               ui_pos it = match nth_error (s_map s) i with
                           | Some (m, _) => UAt ((c_rid x, m), s_epoch s) | None => UEnd c end).
  { destruct (nth_error (s_map s) i) as [(m, n)|] eqn:J.
    - rewrite (unordered_nth_at At RS J) in NT. inversion NT; subst it.
      destruct US as [->|(p & US)]; auto. destruct (row_cell RS J) as (cl & I & -> & ->).
      rewrite (u_deref_ev c At2 RS I) in US. inversion US; auto.
    - rewrite (unordered_nth_end At RS J) in NT. inversion NT; subst it.
      destruct US as [->|(p & US)]; auto. discriminate. }
  destruct Q1 as (Q1 & Q2 & Q3). rewrite Q3 in Q1. rewrite P3 in P1. clear P3 Q3.
  destruct it1 as [ci pi ei], ot1 as [co po eo]. simpl in *. subst ci co pi po.
  unfold ou_eq. simpl. rewrite Nat.eqb_refl. simpl.
  destruct (nth_error (s_map s) i) as [(m, n)|] eqn:N; simpl.
  - destruct (row_cell RS N) as (cl & I & -> & ->). 
    unfold noexcept, bind. rewrite (o_from_u_ev c ei At2 RS I). simpl.
    eexists. split; [reflexivity|].
    destruct (nth_error cs j) as [cl'|] eqn:J; simpl; [|split; discriminate].
    unfold o_eq; simpl. unfold mptr_eqb; simpl. rewrite Nat.eqb_refl. simpl. pose proof (nth_error_In _ _ J) as I'.
    rewrite Nat.eqb_eq. split.
    + intros Q. assert (cl' = cl); [|subst; reflexivity].
      pose proof (rs_nq RS) as ND. clear - ND I I' Q. induction cs as [|z t IH]; simpl in *; [easy|].
      inversion ND; subst. destruct I as [->|I], I' as [->|I']; auto.
      * exfalso. apply H1. rewrite <- Q. apply in_map; auto.
      * exfalso. apply H1. rewrite Q. apply in_map; auto.
    + intros Q. inversion Q as [[Q1 Q2]]. f_equal. eapply (dkeys_unique G) with (k := e_key (cl_e cl)); eauto.
      * exact (rs_keys RS).
      * rewrite Q1. apply (good_refl G).
      * apply (good_refl G).
  - unfold u_eq at 1. simpl. rewrite Nat.eqb_refl. simpl. eexists. split; [reflexivity|].
    unfold o_eq. simpl. destruct (nth_error cs j) as [cl'|]; simpl; [split; discriminate|].
    rewrite Nat.eqb_refl. tauto.
Qed.
Lemma ordered_nth_cache c j w ot w' : ordered_nth c j w = Val ot w' -> oi_cache ot = c.
Proof.
  unfold ordered_nth, bind. destruct (ordered_begin c w) as [o w1|? ?|?|?] eqn:B; try discriminate.
  assert (oi_cache o = c).
  { unfold ordered_begin, bind in B. destruct (own c w) as [(r, s) w2|? ?|?|?]; try discriminate.
    destruct (s_ord s) as [|(i, q) t]; inversion B; auto. }
  clear B. revert o w1 H. induction j as [|j IH]; simpl; intros o w1 Ho H; [inversion H; subst; auto|].
  destruct (o_eq o (ordered_end c)); [inversion H; subst; auto|]. unfold bind in H.
  destruct (o_next o w1) as [o2 w2|? ?|?|?] eqn:N; try discriminate. apply IH in H; auto.
  unfold o_next in N. destruct (oi_pos o) as [?|q]; [discriminate|]. unfold bind in N.
  destruct (list_deref q w1) as [? w3|? ?|?|?]; try discriminate.
  destruct (get_store (fst q) w3) as [? w4|? ?|?|?]; try discriminate.
  destruct (next_after _ _); inversion N; auto.
Qed.
Lemma unordered_nth_cache c j w it w' : unordered_nth c j w = Val it w' -> ui_cache it = c.
Proof.
  unfold unordered_nth, bind. destruct (unordered_begin c w) as [o w1|? ?|?|?] eqn:B; try discriminate.
  assert (ui_cache o = c).
  { unfold unordered_begin, bind in B. destruct (own c w) as [(r, s) w2|? ?|?|?]; try discriminate.
    destruct (s_map s) as [|(i, q) t]; inversion B; auto. }
  clear B. revert o w1 H. induction j as [|j IH]; simpl; intros o w1 Ho H; [inversion H; subst; auto|].
  destruct (u_eq o (unordered_end c)); [inversion H; subst; auto|]. unfold bind in H.
  destruct (u_next o w1) as [o2 w2|? ?|?|?] eqn:N; try discriminate. apply IH in H; auto.
  unfold u_next in N. destruct (ui_pos o) as [?|i]; [discriminate|]. unfold bind in N.
  destruct (deref_it i w1) as [? w3|? ?|?|?]; try discriminate.
  destruct (get_store (fst (fst i)) w3) as [? w4|? ?|?|?]; try discriminate.
  destruct (next_after _ _); inversion N; auto.
Qed.
Theorem compare_other w c d i j it ot it1 ot1 : c <> d -> ordered_nth c j w = Val ot w -> o_used E w ot ot1 ->
  unordered_nth d i w = Val it w -> u_used w it it1 -> ou_eq ot1 it1 w = Val false w.
Proof.
  intros N O1 O2 U1 U2. apply ordered_nth_cache in O1. apply unordered_nth_cache in U1.
  assert (oi_cache ot1 = c) as O3.
  { destruct O2 as [->|(p & D)]; auto. unfold o_deref in D. destruct (oi_entry ot); [inversion D; subst; auto|].
    destruct (oi_pos ot) as [?|q]; [discriminate|]. unfold bind in D.
    destruct (list_deref q w) as [? w1|? ?|?|?]; try discriminate.
    destruct (deref a w1) as [n1 w2|? ?|?|?]; try discriminate.
    destruct (map_find E (oi_cache ot) (n_key n1) w2) as [[i1|] w3|? ?|?|?]; try discriminate. inversion D; auto. }
  assert (ui_cache it1 = d) as U3.
  { destruct U2 as [->|(p & D)]; auto. unfold u_deref in D. destruct (ui_entry it); [inversion D; subst; auto|].
    destruct (ui_pos it) as [?|i0]; [discriminate|]. unfold bind in D.
    destruct (deref_it i0 w) as [n1 w1|? ?|?|?]; try discriminate. inversion D; auto. }
  unfold ou_eq. rewrite O3, U3. destruct (Nat.eqb_spec c d); [easy|]. reflexivity.
Qed.

(** Iterators returned by find, insert and emplace. *)
Lemma back_lives k c i e w aw : at_back E c i e w aw -> key_equal E k (e_key e) = true ->
  exists r s cl, i = ((r, cl_m cl), s_epoch s) /\ lives k c w r s cl /\ cl_e cl = e.
Proof.
  intros (x & s & a & l & cl & At & Ha & Rp & HE & HI) Q. exists (c_rid x), s, cl. split; auto. split; auto.
  destruct At. exists x, (l ++ [cl]). split; auto. split; auto. split; auto. split; [apply (rp_store Rp)|].
  split; [apply in_or_app; simpl; auto|]. rewrite HE; auto.
Qed.
Lemma a_insert_key c k v aw b e aw' : a_insert E c k v aw = Val (b, Some e) aw' -> key_equal E k (e_key e) = true.
Proof.
  unfold a_insert, bind. destruct (a_get c aw) as [x aw1|? ?|?|?]; try discriminate.
  destruct (Nat.eqb (a_cap x) 0); [discriminate|]. destruct (lookup_ent E k (a_ents x)) as [e0|] eqn:L.
  - destruct (a_ents_put c _ true aw1) as [? ?|? ?|?|?]; try discriminate. intros H. inversion H; subst. simpl.
    apply find_some in L. tauto.
  - destruct (a_timestamp E x aw1) as [? aw2|? ?|?|?]; try discriminate.
    destruct (a_ents_put c _ true aw2) as [? ?|? ?|?|?]; try discriminate. intros H. inversion H; subst. simpl.
    apply (good_refl G).
Qed.
Lemma iterator_lives c k w it w1 aw : rel E w aw -> iterator_for E c k w it w1 -> not_end c it ->
  exists aw1 r s cl, rel E w1 aw1 /\ lives k c w1 r s cl /\ it = MkU c (UAt ((r, cl_m cl), s_epoch s)) None.
Proof.
  intros R H NE. destruct H as [it w1 A F|v b it w1 A F|v b it w1 A F|u i k' v it HO N Q U].
  - destruct (alive_inv R A) as (a & Ha). pose proof (find_sim G k R Ha) as S. rewrite F in S.
    destruct (a_find E c k aw) as [r aw1|? ?|?|?]; try contradiction. destruct S as (R1 & U & _ & KE).
    destruct r as [e|]; simpl in U; [|subst it; unfold not_end, u_eq in NE; simpl in NE; rewrite Nat.eqb_refl in NE; discriminate].
    destruct U as (i & -> & B). destruct (back_lives B (proj1 KE)) as (r & s & cl & -> & LV & _).
    exists aw1, r, s, cl. auto.
  - destruct (alive_inv R A) as (a & Ha). pose proof (insert_sim G k v R Ha) as S. rewrite F in S.
    destruct (a_insert E c k v aw) as [(b', r) aw1|? ?|?|?] eqn:AI; try contradiction. destruct S as (R1 & _ & U & _).
    simpl in U. destruct r as [e|]; simpl in U; [|subst it; unfold not_end, u_eq in NE; simpl in NE; rewrite Nat.eqb_refl in NE; discriminate].
    destruct U as (i & -> & B). destruct (back_lives B (a_insert_key AI)) as (r & s & cl & -> & LV & _).
    exists aw1, r, s, cl. auto.
  - destruct (alive_inv R A) as (a & Ha). pose proof (emplace_sim G k v R Ha) as S. rewrite F in S.
    destruct (a_insert E c k v aw) as [(b', r) aw1|? ?|?|?] eqn:AI; try contradiction. destruct S as (R1 & _ & U & _).
    simpl in U. destruct r as [e|]; simpl in U; [|subst it; unfold not_end, u_eq in NE; simpl in NE; rewrite Nat.eqb_refl in NE; discriminate].
    destruct U as (i & -> & B). destruct (back_lives B (a_insert_key AI)) as (r & s & cl & -> & LV & _).
    exists aw1, r, s, cl. auto.
  - assert (A : exists x, slot (w_caches w) c = Some x).
    { unfold hash_order, exec, well_formed, alive in HO. destruct (slot (w_caches w) c); [eauto|discriminate]. }
    destruct A as (x & Hx). destruct (rel_get' _ R Hx) as (a & s & l & Ha & At & Rp).
    pose proof (rp_store Rp) as RS. rewrite (hash_order_at At RS HO), nth_error_map in N.
    destruct (nth_error (s_map s) i) as [(m, n)|] eqn:N'; [|discriminate].
    destruct (row_cell RS N') as (cl & I & -> & ->). inversion N; subst k' v.
    rewrite (unordered_nth_at At RS N') in U. inversion U.
    exists aw, (c_rid x), s, cl. split; auto. split; auto. destruct At. exists x, l. auto 10.
Qed.

Lemma lives_u_deref k c d w r s cl : lives k c w r s cl ->
  u_deref (MkU d (UAt ((r, cl_m cl), s_epoch s)) None) w =
  Val ((r, cl_m cl), MkU d (UAt ((r, cl_m cl), s_epoch s)) (Some (r, cl_m cl))) w.
Proof. intros (x & l & Hx & Rx & Hs & R & I & Q). exact (u_deref_ev d Hs R I). Qed.

Theorem returned_iterator c k w it w1 : reachable E w -> iterator_for E c k w it w1 -> not_end c it ->
  reachable E w1 /\ exists i u k' v, unordered_nth c i w1 = Val it w1 /\ hash_order E c w1 u /\
    nth_error u i = Some (k', v) /\ key_equal E k k' = true.
Proof.
  intros RC H NE. destruct (reach_rel G RC) as (aw & R). destruct (iterator_lives R H NE) as (aw1 & r & s & cl & R1 & LV & ->).
  pose proof (lives_u_deref c LV) as D. pose proof (lives_shows LV) as SH. split.
  - destruct H as [it w1 A F|v b it w1 A F|v b it w1 A F|u i k' v it HO N Q U]; auto.
    + eapply (reachable_step (o := Find c k)); [exact RC|reflexivity|]. unfold exec, well_formed. rewrite A. cbn [body].
      unfold bind. rewrite F. unfold denotes. unfold not_end in NE. rewrite NE. unfold bind. rewrite D.
      unfold shows in SH. rewrite SH. reflexivity.
    + eapply (reachable_step (o := Insert c k v)); [exact RC|reflexivity|]. unfold exec, well_formed. rewrite A. cbn [body].
      unfold bind. rewrite F. unfold denotes. unfold not_end in NE. cbn [fst snd]. rewrite NE. unfold bind. rewrite D.
      unfold shows in SH. rewrite SH. reflexivity.
    + eapply (reachable_step (o := Emplace c k v)); [exact RC|reflexivity|]. unfold exec, well_formed. rewrite A. cbn [body].
      unfold bind. rewrite F. unfold denotes. unfold not_end in NE. cbn [fst snd]. rewrite NE. unfold bind. rewrite D.
      unfold shows in SH. rewrite SH. reflexivity.
  - destruct (lives_at R1 LV) as (x & a & l & At & Rx & Ha & Rp & I & KQ & CT). pose proof (rp_store Rp) as RS.
    destruct (cell_row RS I) as (i & N). exists i, (map (@npair K V) (s_map s)), (e_key (cl_e cl)), (e_val (cl_e cl)).
    unfold mrow in N. split; [rewrite (unordered_nth_at At RS N), Rx; auto|]. split.
    + unfold hash_order, exec, well_formed, alive. destruct At as (At1 & At2). rewrite At1. cbn [body]. unfold bind.
      assert (Z : traverse_unordered c w1 = Val (map (@npair K V) (s_map s)) w1).
      { unfold traverse_unordered, bind. rewrite (size_ev (conj At1 At2)), (unordered_begin_ev (conj At1 At2)).
        eapply (u_collect_ev (m1 := [])); eauto; [split; eauto|eapply rep_map_nodup; eauto]. }
      rewrite Z. reflexivity.
    + rewrite nth_error_map, N. auto.
Qed.

(** Unordered iterators follow as long as the hash table was not rebuilt ... *)
Theorem unordered_follows c k w it w1 it1 ops c' w' : reachable E w -> iterator_for E c k w it w1 -> not_end c it ->
  u_used w1 it it1 -> kept E k c w1 ops c' w' ->
  it1 <> it \/ forallb inserts_nothing ops = true \/ (forall t, rehash E t = false) ->
  exists l k' v, contents E c' w' l /\ look E k l = Some (k', v) /\ u_shows it1 w' k' v.
Proof.
  intros RC H NE US KP HR. destruct (reach_rel G RC) as (aw & R).
  destruct (iterator_lives R H NE) as (aw1 & r & s & cl & R1 & LV & ->).
  destruct (kept_lives KP R1 LV) as (aw' & s' & cl' & R' & LV' & M' & Q' & K' & EP).
  destruct (lives_at R' LV') as (x' & a' & l' & At' & Rx' & Ha' & Rp' & I' & KQ & CT').
  exists (map pair_of (ents l')), (e_key (cl_e cl')), (e_val (cl_e cl')). split; auto. split.
  { rewrite look_map, (find_cell_ents E), (find_cell_in (rs_keys (rp_store Rp')) I' KQ). auto. }
  pose proof (lives_shows LV') as SH. pose proof (lives_u_deref c LV) as D. pose proof (lives_u_deref c LV') as D'.
  assert (US' : it1 = MkU c (UAt ((r, cl_m cl), s_epoch s)) None /\
      (forallb inserts_nothing ops = true \/ (forall t, rehash E t = false)) \/ 
      it1 = MkU c (UAt ((r, cl_m cl), s_epoch s)) (Some (r, cl_m cl))).
  { destruct US as [->|(p & US)].
    - destruct HR as [HR|HR]; [congruence|auto].
    - rewrite D in US. inversion US. auto. }
  destruct US' as [(-> & HR')| ->].
  - rewrite <- M', <- (EP HR'). eexists _, _. split; [exact D'|exact SH].
  - rewrite <- M'. eexists _, _. split; [reflexivity|exact SH].
Qed.

(** References returned by lookup. *)
Theorem lookup_follows c k w p w1 ops c' w' : reachable E w -> alive w c = true ->
  lookup E c k w = Val p w1 -> kept E k c w1 ops c' w' ->
  exists l k' v, contents E c' w' l /\ look E k l = Some (k', v) /\ shows p w' k' v.
Proof.
  intros RC A H KP. destruct (reach_rel G RC) as (aw & R). destruct (alive_inv R A) as (a & Ha).
  pose proof (lookup_sim G k R Ha) as S. rewrite H in S.
  destruct (a_lookup E c k aw) as [e aw1|? ?|?|?]; try contradiction. destruct S as (R1 & KE & i & -> & B).
  destruct (back_lives B KE) as (r & s & cl & -> & LV & _). simpl.
  destruct (reference_follows R1 LV KP) as (l & v & CT & L & SH). eauto 10.
Qed.

End Iter.
