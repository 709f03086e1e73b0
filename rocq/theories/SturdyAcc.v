(** The functions of the model keep the invariant of Sturdy.v: access, with
    callbacks that keep it. *)
From Coq Require Import List Arith ZArith Bool Permutation Lia.
Import ListNotations.
From Verif Require Import Monad Types Model Api Spec SpecFault Ref Lists SimBase SimRel SimOps SimIns SimErase SimIter SimNew SimObs Sturdy SturdyOps.
Set Implicit Arguments.
Unset Strict Implicit.
Local Open Scope cpp_scope.

Tactic Notation "wv" uconstr(L) := unfold ok;
  match goal with
  | |- wp _ _ (bind ?m ?k ?w) => with_bind m k w ltac:(eapply L; first [solve [eauto with sim] | simpl; eauto with sim])
  end.

Section Acc.
Context {K V : Type}.
Variable E : env K V.
Hypothesis Fr : fair E.

Notation entry := (entry K V).
Notation world := (world K V).
Notation store := (store K V).
Notation mnode := (mnode K V).
Notation cell := (@cell K V).
Notation rep_store := (rep_store (calm E)).
Notation find_cell := (find_cell (calm E)).
Notation sound := (sound E).
Notation inv := (inv E).
Notation valid_it := (valid_it E).
Notation ok := (ok E).
Implicit Types (w : world) (s : store).

Let G : good (calm E) := calm_good Fr.

Hypothesis Hcb : forall ev w, inv w -> ok w (cb E ev w).

Lemma ok_heap (A : Type) w w' (a : A) : inv w -> same_heap w w' -> ok w (Val a w').
Proof. intros I H. split; [eapply inv_same; eauto|apply stable_heap; auto]. Qed.
Lemma ok_throw (A : Type) w w' e : inv w -> same_heap w w' -> ok w (Exc e w' : res world A).
Proof. intros I H. split; [eapply inv_same; eauto|apply stable_heap; auto]. Qed.
Lemma same_refl w : same_heap w w. Proof. repeat split. Qed.
Lemma same_tock w : same_heap w (tock w). Proof. repeat split. Qed.
Lemma same_tick w : same_heap w (tick w). Proof. repeat split. Qed.
Lemma inv_tock w : inv w -> inv (tock w).
Proof. apply inv_same, same_tock. Qed.
Lemma valid_tock c i w : valid_it c i w -> valid_it c i (tock w).
Proof. auto. Qed.

Lemma ok_more (A : Type) w w1 (r : res world A) : stable w w1 -> ok w1 r -> ok w r.
Proof. intros S H. eapply wp_conseq; [exact H| |]; simpl; intros ? ? (I & S'); split; auto; eapply stab_trans; eauto. Qed.

(* ---------------------------------------------------------------- *)
(** ** Statistics and callbacks *)

Lemma call_each_from_ok sel all c mk ids : forall w, inv w ->
  (exists x, slot (w_caches w) c = Some x /\ sel (c_cbs x) = all) ->
  (forall id w', inv w' -> stable w w' -> exists ev, mk id w' = Val ev w') ->
  ok w (call_each_from E sel all c mk ids w).
Proof.
  induction ids as [|id ids IH]; intros w I (x & Hx & Hs) Mk; simpl.
  - apply (@ok_heap unit w w tt); auto using same_refl.
  - destruct (Mk id w I (stab_refl (b := None) (w := w))) as (ev & Hev). wv Hev.
    eapply wp_bind; [apply Hcb; auto|]. intros ? w1 (I1 & S1).
    destruct (S1 c x ltac:(discriminate) Hx) as (x1 & X1 & _ & X2 & _). wv get_cache_ev.
    rewrite X2, Hs, natlist_eqb_refl. eapply ok_more; [exact S1|]. apply IH; auto.
    + exists x1. split; auto. congruence.
    + intros id' w' I' S'. apply Mk; auto. eapply stab_trans; eauto.
Qed.

Lemma call_each_ok sel c mk w x : inv w -> slot (w_caches w) c = Some x ->
  (forall id w', inv w' -> stable w w' -> exists ev, mk id w' = Val ev w') ->
  ok w (call_each E sel c mk w).
Proof. intros I Hx Mk. unfold call_each. wv get_cache_ev. apply call_each_from_ok; eauto. Qed.

Lemma count_ok w st f : inv w -> (forall i, st = Some i -> slot (w_stats w) i <> None) ->
  inv (noted st f [] w) /\ stable w (noted st f [] w).
Proof.
  intros I H. split; [|apply stab_heap; auto].
  destruct I as [A B C]. constructor; simpl; auto. intros c x i Hx Hi. apply counted_slot. eauto.
Qed.

Lemma register_hit_ok w c i k : inv w -> valid_it c i w -> ok w (register_hit E c k (fst i) w).
Proof.
  intros I Va. pose proof Va as (x & s & l & cl & A & So & In1 & Hi). pose proof (inv_stats I A) as St.
  unfold register_hit. wv get_cache_ev.
  wv (count_ev _ (stats_register_hit E k) St). destruct (count_ok (stats_register_hit E k) I St) as (I1 & S1).
  set (w1 := noted _ _ _ w) in *. eapply ok_more; [exact S1|].
  assert (V1 : valid_it c i w1) by (eapply valid_stable; eauto).
  eapply wp_bind.
  - eapply (@call_each_ok hit_cbs c _ w1 x); auto; [exact (proj1 A)|].
    intros id w' I' S'. destruct (valid_deref (valid_stable I' V1 S')) as (n & _ & D & _).
    eexists. unfold bind. rewrite D. reflexivity.
  - intros ? w2 (I2 & S2). destruct (S2 c x ltac:(discriminate) (proj1 A)) as (x2 & X2 & _).
    eapply ok_more; [exact S2|]. eapply call_each_ok; eauto; intros; eexists; reflexivity.
Qed.

Lemma register_miss_ok w c x s k : inv w -> at_ w c x s -> ok w (register_miss E c k w).
Proof.
  intros I A. pose proof (inv_stats I A) as St.
  unfold register_miss. wv get_cache_ev.
  wv (count_ev _ (stats_register_miss E k) St). destruct (count_ok (stats_register_miss E k) I St) as (I1 & S1).
  set (w1 := noted _ _ _ w) in *. eapply ok_more; [exact S1|].
  eapply wp_bind.
  - eapply (@call_each_ok miss_cbs c _ w1 x); auto; [exact (proj1 A)|]. intros. eexists; reflexivity.
  - intros ? w2 (I2 & S2). destruct (S2 c x ltac:(discriminate) (proj1 A)) as (x2 & X2 & _).
    eapply ok_more; [exact S2|]. eapply call_each_ok; eauto; intros; eexists; reflexivity.
Qed.

(* ---------------------------------------------------------------- *)
(** ** Access *)

Lemma rep_ids r s l s' l' : rep_store r s l -> rep_store r s' l' -> incl (map cl_m l) (map cl_m l') ->
  forall i, assoc i (s_map s) <> None -> assoc i (s_map s') <> None.
Proof.
  intros R R' H i N. apply (rep_in_assoc i R) in N as (cl & I & <-).
  apply (in_map cl_m) in I. apply H in I. apply in_map_iff in I as (cl' & Q & I').
  apply (rep_in_assoc _ R'). eauto.
Qed.

Lemma move_hit w c x s l1 cl l2 : inv w -> at_ w c x s -> sound x s (l1 ++ cl :: l2) ->
  exists s' w', move_to_front c (Some (c_rid x, cl_q cl)) w = Val tt w' /\ chg c x s' w w' /\
    sound x s' (l1 ++ l2 ++ [cl]) /\ s_epoch s' = s_epoch s /\ inv w' /\ stable w w'.
Proof.
  intros I A So. pose proof (so_rep So) as R.
  destruct (move_to_front_ev G _ _ _ A R) as (s' & w' & H & C & R' & Ep & _).
  assert (So' : sound x s' (l1 ++ l2 ++ [cl])).
  { constructor; auto.
    - pose proof (so_len So) as L. rewrite !app_length in *. simpl in *. lia.
    - intros p Hp. destruct (so_last So Hp) as (cl' & I' & ->). exists cl'. split; auto.
      rewrite !in_app_iff in *. simpl in *. tauto. }
  exists s', w'. split; auto. split; auto. split; auto. split; auto. split.
  - eapply inv_kept; [exact I|exact A|apply chg_shift; exact C|apply sbl_refl|exact So'].
  - eapply shift_stable; [exact I|exact A|apply chg_shift; exact C|auto|auto|auto|auto|].
    eapply rep_ids; [exact R|exact R'|]. intros j. rewrite !map_app, !in_app_iff. simpl. tauto.
Qed.

Lemma set_last_w w c x s l cl : inv w -> at_ w c x s -> sound x s l -> In cl l ->
  exists w', set_last c (Some (c_rid x, cl_m cl)) w = Val tt w' /\ chg c (with_last (Some (c_rid x, cl_m cl)) x) s w w' /\
    sound (with_last (Some (c_rid x, cl_m cl)) x) s l /\ inv w' /\ stable w w'.
Proof.
  intros I A So In1. eexists. split; [eapply set_last_ev; eauto|].
  assert (C : chg c (with_last (Some (c_rid x, cl_m cl)) x) s w (setC c (with_last (Some (c_rid x, cl_m cl)) x) w))
    by (eapply chg_setC; eauto).
  assert (So' : sound (with_last (Some (c_rid x, cl_m cl)) x) s l).
  { constructor; simpl; [apply (so_rep So)|apply (so_len So)|]. intros p Hp. inversion Hp; subst. eauto. }
  split; auto. split; auto. split.
  - eapply inv_kept; [exact I|exact A|apply chg_shift; exact C|apply sbl_last|exact So'].
  - eapply shift_stable; [exact I|exact A|apply chg_shift; exact C|auto|auto|auto|auto|auto].
Qed.

Lemma find_hit_ok w c i k : inv w -> valid_it c i w ->
  wp (fun _ w' => (inv w' /\ stable w w') /\ valid_it c i w') (fun _ w' => inv w' /\ stable w w') (find_hit E c k i w).
Proof.
  intros I Va. unfold find_hit. destruct (valid_deref Va) as (n & D & _). wv D. clear n D.
  eapply wp_bind; [apply register_hit_ok; auto|]. intros ? w1 (I1 & S1).
  pose proof (valid_stable I1 Va S1) as V1.
  destruct (valid_deref V1) as (n & D & _ & x & s & l1 & cl & l2 & A & So & Hi & ->). wv D.
  destruct (move_hit I1 A So) as (s' & w2 & H & C & So2 & Ep & I2 & S2). cbn [n_ord node_of]. wv H.
  pose proof (valid_stable I2 V1 S2) as V2. destruct (valid_deref V2) as (n2 & D2 & _). wv D2.
  assert (A2 : at_ w2 c x s') by (eapply chg_at; eauto).
  destruct (@set_last_w w2 c x s' _ cl I2 A2 So2) as (w3 & H3 & C3 & So3 & I3 & S3).
  { rewrite !in_app_iff; simpl; tauto. }
  subst i. cbn [fst].
  match goal with |- wp _ _ ?r => replace r with (Val tt w3 : res world unit) by (symmetry; exact H3) end.
  assert (St : stable w w3) by (eapply stab_trans; [exact S1|eapply stab_trans; eauto]).
  split; auto. eapply valid_stable; eauto.
Qed.

(** An iterator: end or an element. *)
Definition valid_u (c : nat) (it : uiter) w : Prop :=
  it = unordered_end c \/ exists i, it = uiter_of c (Some i) /\ valid_it c i w.

Lemma find_ok w c k : inv w -> alive w c = true ->
  wp (fun it w' => (inv w' /\ stable w w') /\ valid_u c it w') (fun _ w' => inv w' /\ stable w w') (find E c k w).
Proof.
  intros I Al. destruct (inv_here I Al) as (x & s & l & A & So). pose proof (so_rep So) as R.
  assert (Miss : forall w, inv w -> at_ w c x s -> 
     wp (fun it w' => (inv w' /\ stable w w') /\ valid_u c it w') (fun _ w' => inv w' /\ stable w w')
        ((register_miss E c k;;; ret (unordered_end c)) w)).
  { intros v Iv Av. eapply wp_bind; [eapply register_miss_ok; eauto|]. intros ? w' H. split; auto. left; auto. }
  assert (Hit : forall w i, inv w -> valid_it c i w -> 
     wp (fun it w' => (inv w' /\ stable w w') /\ valid_u c it w') (fun _ w' => inv w' /\ stable w w')
        ((find_hit E c k i;;; ret (uiter_of c (Some i))) w)).
  { intros v i Iv Av. eapply wp_bind; [eapply find_hit_ok; eauto|]. intros ? w' (H & H'). split; auto. right; eauto. }
  unfold find. wv get_cache_ev. destruct (c_ttl x) as [d|].
  - wv (f_map_find Fr). destruct (find_cell k l) as [cl|] eqn:Q; cbn [option_map]; cbv beta iota.
    + destruct (find_cell_split _ _ _ Q) as (l1 & l2 & -> & Hk). wv deref_it_ev. wv has_expired_ev.
      pose proof (inv_tock I) as It. 
      destruct (Z.ltb _ _).
      * apply (Miss (tock w)); auto.
      * apply (Hit (tock w)); auto. exists x, s, (l1 ++ cl :: l2), cl. auto using in_mid.
    + apply Miss; auto.
  - wv (f_map_find Fr). destruct (find_cell k l) as [cl|] eqn:Q; cbn [option_map]; cbv beta iota.
    + destruct (find_cell_split _ _ _ Q) as (l1 & l2 & -> & Hk).
      apply Hit; auto. exists x, s, (l1 ++ cl :: l2), cl. auto using in_mid.
    + apply Miss; auto.
Qed.

Lemma valid_alive c i w : valid_it c i w -> alive w c = true.
Proof. intros (x & s & l & cl & (A & _) & _). unfold alive. rewrite A. auto. Qed.

Lemma throw_if_invalid_u_ok w c i en : inv w -> valid_it c i w ->
  wp (fun _ w' => same_heap w w') (fun _ w' => same_heap w w')
     (throw_if_invalid_u E c (MkU c (UAt i) en) w).
Proof.
  intros I Va. pose proof Va as (x & s & l & cl & A & _). unfold throw_if_invalid_u. wv get_cache_ev.
  cbn [u_eq ui_pos unordered_end upos_eqb]. destruct (c_ttl x); [|apply same_refl].
  unfold has_expired_u. cbn [u_eq ui_pos unordered_end upos_eqb].
  destruct (valid_deref Va) as (n & D & _). rewrite bind_assoc. wv D. wv has_expired_ev.
  destruct (Z.ltb _ _); apply same_tock.
Qed.

Lemma u_entry_ok w c i : inv w -> valid_it c i w ->
  wp (fun p w' => same_heap w w' /\ p = fst i) (fun _ w' => same_heap w w') (u_entry E (uiter_of c (Some i)) w).
Proof.
  intros I Va. unfold u_entry. cbn [uiter_of ui_entry ui_pos ui_cache].
  destruct (valid_deref Va) as (n & D & _). wv D. eapply wp_bind; [apply throw_if_invalid_u_ok; auto|].
  intros ? w' H. split; auto.
Qed.

Lemma valid_same c i w w' : same_heap w w' -> valid_it c i w -> valid_it c i w'.
Proof.
  intros (A & B & _) (x & s & l & cl & (Hx & Hs) & R). exists x, s, l, cl. split; auto. split; congruence.
Qed.

Lemma lookup_ok w c k : inv w -> alive w c = true ->
  wp (fun p w' => (inv w' /\ stable w w') /\ exists i, p = fst i /\ valid_it c i w') (fun _ w' => inv w' /\ stable w w')
     (lookup E c k w).
Proof.
  intros I Al. destruct (inv_here I Al) as (x & s & l & A & So). pose proof (so_rep So) as R.
  unfold lookup. destruct (last_is_ev2 k A So) as (b & Hb & T & F). wv Hb. destruct b.
  - destruct (T eq_refl) as (cl & I1 & L & Hk).
    assert (Va : valid_it c ((c_rid x, cl_m cl), s_epoch s) w) by (exists x, s, l, cl; auto).
    assert (Hit : forall w, inv w -> valid_it c ((c_rid x, cl_m cl), s_epoch s) w ->
      wp (fun p w' => (inv w' /\ stable w w') /\ exists i, p = fst i /\ valid_it c i w') (fun _ w' => inv w' /\ stable w w')
         ((register_hit E c k (c_rid x, cl_m cl);;; ret (c_rid x, cl_m cl)) w)).
    { intros v Iv Vv. eapply wp_bind; [eapply (@register_hit_ok v c ((c_rid x, cl_m cl), s_epoch s)); auto|].
      intros ? w' (I' & S'). split; auto. exists ((c_rid x, cl_m cl), s_epoch s). split; auto. eapply valid_stable; eauto. }
    unfold value_for_last_accessed. rewrite bind_assoc. wv get_cache_ev.
    unfold last_ptr. rewrite !bind_assoc. wv get_cache_ev. rewrite L, bind_ret.
    destruct (c_ttl x) as [d|].
    + rewrite bind_assoc. wv deref_ev. rewrite bind_assoc. wv has_expired_ev. destruct (Z.ltb _ _).
      * simpl. split; [apply inv_tock; auto|apply stable_heap, same_tock].
      * rewrite bind_ret. apply (Hit (tock w)); auto. apply inv_tock; auto.
    + rewrite bind_ret. apply Hit; auto.
  - eapply wp_bind; [apply find_ok; auto|]. intros it w1 ((I1 & S1) & [->|(i & -> & V1)]).
    + unfold u_eq. cbn [ui_pos unordered_end upos_eqb]. rewrite Nat.eqb_refl. split; auto.
    + unfold u_eq. cbn [ui_pos uiter_of unordered_end upos_eqb].
      eapply wp_conseq; [apply u_entry_ok; eauto| |].
      * intros p w' (H & ->). split; [|exists i; split; auto; eapply valid_same; eauto].
        split; [eapply inv_same; eauto|eapply stab_trans; [eauto|apply stable_heap; auto]].
      * intros e w' H; cbv beta in H. split; [eapply inv_same; eauto|eapply stab_trans; [eauto|apply stable_heap; auto]].
Qed.

Lemma contains_ok w c k : inv w -> alive w c = true -> ok w (contains E c k w).
Proof.
  intros I Al. destruct (inv_here I Al) as (x & s & l & A & So). pose proof (so_rep So) as R.
  unfold contains. destruct (last_is_ev2 k A So) as (b & Hb & T & F). wv Hb. destruct b.
  - destruct (T eq_refl) as (cl & I1 & L & Hk).
    assert (Va : valid_it c ((c_rid x, cl_m cl), s_epoch s) w) by (exists x, s, l, cl; auto).
    assert (Hit : forall w, inv w -> valid_it c ((c_rid x, cl_m cl), s_epoch s) w ->
      ok w ((register_hit E c k (c_rid x, cl_m cl);;; ret true) w)).
    { intros v Iv Vv. eapply wp_bind; [eapply (@register_hit_ok v c ((c_rid x, cl_m cl), s_epoch s)); auto|].
      intros ? w' H. auto. }
    unfold last_accessed_is_ok. rewrite ?bind_assoc. wv get_cache_ev.
    destruct (c_ttl x) as [d|].
    + unfold last_ptr. rewrite ?bind_assoc. wv get_cache_ev. rewrite L, bind_ret.
      rewrite ?bind_assoc. wv deref_ev. rewrite ?bind_assoc. wv has_expired_ev. rewrite bind_ret.
      destruct (Z.ltb _ _); cbn [negb]; cbv iota.
      * split; [apply inv_tock; auto|apply stable_heap, same_tock].
      * rewrite ?bind_assoc. wv get_cache_ev. rewrite L, bind_ret. apply (Hit (tock w)); auto. apply inv_tock; auto.
    + rewrite bind_ret. unfold last_ptr. rewrite ?bind_assoc. wv get_cache_ev. rewrite L, bind_ret. apply Hit; auto.
  - eapply wp_bind; [apply find_ok; auto|]. intros it w1 (H & _). exact H.
Qed.

Lemma denotes_ok w c it : inv w -> valid_u c it w -> exists e, denotes c it w = Val e w.
Proof.
  intros I [->|(i & -> & Va)]; unfold denotes, u_eq; cbn [ui_pos uiter_of unordered_end upos_eqb].
  - rewrite Nat.eqb_refl. eexists; reflexivity.
  - destruct (valid_deref Va) as (n & D & D' & _). unfold u_deref. cbn [ui_entry ui_pos].
    rewrite ?bind_assoc, (bind_val _ _ _ D), bind_ret. unfold read_entry. rewrite ?bind_assoc, (bind_val _ _ _ D').
    eexists; reflexivity.
Qed.

Lemma write_ok w c i v : inv w -> valid_it c i w ->
  ok w (update_node (fst i) (fun n => MkNode (n_key n) v (n_ord n) (n_time n)) w).
Proof.
  intros I Va. destruct (valid_deref Va) as (n & _ & _ & x & s & l1 & cl & l2 & A & So & -> & _).
  pose proof (so_rep So) as R. cbn [fst]. erewrite update_node_ev; [|exact (proj2 A)|exact R].
  pose proof (rep_setval _ _ _ v R) as R'.
  match goal with |- ok _ (Val _ (setS _ ?s' _)) => set (s1 := s') in * end.
  assert (So' : sound x s1 (l1 ++ cell_val v cl :: l2)).
  { constructor; auto.
    - pose proof (so_len So) as L. rewrite !app_length in *. simpl in *. lia.
    - intros p Hp. destruct (so_last So Hp) as (cl' & I' & ->).
      assert (M : In (cl_m cl') (map cl_m (l1 ++ cell_val v cl :: l2))).
      { apply (in_map cl_m) in I'. rewrite map_app in *. exact I'. }
      apply in_map_iff in M as (cl2 & Q & M). exists cl2. rewrite Q. auto. }
  pose proof (chg_shift (chg_setS s1 A)) as C.
  split.
  - eapply inv_kept; [exact I|exact A|exact C|apply sbl_refl|exact So'].
  - eapply shift_stable; [exact I|exact A|exact C|auto|auto|auto|auto|].
    eapply rep_ids; [exact R|exact R'|]. rewrite !map_app. simpl. apply incl_refl.
Qed.
End Acc.
