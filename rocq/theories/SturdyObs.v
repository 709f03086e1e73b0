(** The functions of the model keep the invariant of Sturdy.v: observation,
    statistics, erasure through iterators. *)
From Coq Require Import List Arith ZArith Bool Permutation Lia.
Import ListNotations.
From Verif Require Import Monad Types Model Api Spec SpecFault Ref Lists SimBase SimRel SimOps SimIns SimErase SimIter SimNew SimObs Sturdy SturdyOps SturdyAcc SturdyIns.
Set Implicit Arguments.
Unset Strict Implicit.
Local Open Scope cpp_scope.

Section Obs.
Context {K V : Type}.
Variable E : env K V.
Hypothesis Fr : fair E.

Notation entry := (entry K V).
Notation world := (world K V).
Notation store := (store K V).
Notation mnode := (mnode K V).
Notation cell := (@cell K V).
Notation rep_store := (rep_store (calm E)).
Notation find_cell := (find_cell (calm E)).
Notation sound := (sound E).
Notation inv := (inv E).
Notation valid_it := (valid_it E).
Notation ok := (ok E).
Notation safe := (safe E).
Implicit Types (w : world) (s : store).

Let G : good (calm E) := calm_good Fr.

(** Nothing but readings of the clock. *)
Definition mild {A} w (r : res world A) : Prop :=
  wp (fun _ w' => same_heap w w') (fun _ w' => same_heap w w') r.
Lemma mild_ok A w (r : res world A) : inv w -> mild w r -> ok w r.
Proof.
  intros I H. eapply wp_conseq; [exact H| |]; simpl; intros ? ? S; (split; [eapply inv_same; eauto|apply stable_heap; auto]).
Qed.
Lemma mild_bind A B w (m : M world A) (k : A -> M world B) :
  mild w (m w) -> (forall a w', same_heap w w' -> mild w' (k a w')) -> mild w (bind m k w).
Proof.
  intros H F. eapply wp_bind; [exact H|]. simpl. intros a w' S. specialize (F a w' S).
  eapply wp_conseq; [exact F| |]; simpl; intros; eapply same_trans; eauto.
Qed.
Lemma mild_wrap A B w (m : M world A) (f : A -> B) : mild w (m w) -> mild w ((a <- m;; ret (f a)) w).
Proof. intros H. apply mild_bind; auto. intros. apply same_refl. Qed.

Lemma at_same w w' c x s : same_heap w w' -> at_ w c x s -> at_ w' c x s.
Proof. intros (A & B & _) (H1 & H2). split; congruence. Qed.

Section At.
Variables (w : world) (c : nat) (x : cache) (s : store) (l : list cell).
Hypothesis A : at_ w c x s.
Hypothesis So : sound x s l.
Let R := so_rep So.

Lemma size_mild : mild w (size c w).
Proof. rewrite (size_ev A). apply same_refl. Qed.
Lemma capacity_mild : mild w (capacity c w).
Proof. erewrite capacity_ev by exact (proj1 A). apply same_refl. Qed.
Lemma space_left_mild : mild w (space_left c w).
Proof. unfold mild, space_left. wv capacity_ev. wv size_ev. apply same_refl. Qed.
Lemma is_empty_mild : mild w (is_empty c w).
Proof. unfold mild, is_empty. wv size_ev. apply same_refl. Qed.
Lemma is_full_mild : mild w (is_full c w).
Proof. unfold mild, is_full. wv size_ev. wv capacity_ev. apply same_refl. Qed.

Lemma ordered_mild : traverse_ordered E c w = Val (map pair_of (ents l)) w.
Proof. exact (traverse_ordered_ev G A R). Qed.
Lemma backward_mild : mild w (traverse_backward E c w).
Proof. pose proof (traverse_backward_ev G A R) as H.
 unfold mild. replace (traverse_backward E c w) with (traverse_backward (calm E) c w) by reflexivity. rewrite H. apply same_refl. Qed.
Lemma unordered_mild : mild w (traverse_unordered c w).
Proof. destruct (traverse_unordered_ev A R) as (m & H & _). rewrite H. apply same_refl. Qed.

Lemma has_expired_key_mild d k : mild w (has_expired_key E c d k w).
Proof.
  unfold mild, has_expired_key. wv (f_map_find Fr). destruct (find_cell k l) as [cl|] eqn:Q; cbn [option_map]; cbv iota.
  - destruct (find_cell_split _ _ _ Q) as (l1 & l2 & -> & Hk). wv deref_it_ev. rewrite has_expired_ev. apply same_tock.
  - apply same_refl.
Qed.

Lemma all_expired_mild d : mild w (all_expired E c d w).
Proof.
  unfold mild, all_expired, is_empty. rewrite bind_assoc. wv size_ev. rewrite bind_ret, (rep_size R).
  destruct l as [|cl l' _] using rev_ind; [apply same_refl|].
  rewrite app_length; simpl length. rewrite Nat.add_1_r. cbn [Nat.eqb].
  unfold list_back. rewrite bind_assoc. wv own_ev. rewrite (rs_ord R), map_app, rev_app_distr.
  cbn [map rev app qrow]. rewrite bind_ret. wv deref_ev. wv (f_map_find Fr). cbn [n_key node_of].
  rewrite (f_mid Fr (rs_keys R) (fair_refl Fr _)). cbn [option_map]. wv deref_it_ev. rewrite has_expired_ev. apply same_tock.
Qed.

Lemma has_expired_o_mild l1 cl l2 d : l = l1 ++ cl :: l2 ->
  mild w (has_expired_o E c d (MkO c (OAt (c_rid x, cl_q cl)) None) w).
Proof.
  intros Q. assert (R' : rep_store (c_rid x) s (l1 ++ cl :: l2)) by (rewrite <- Q; exact R).
  pose proof (@has_expired_o_ev _ _ (calm E) G w c x s l1 cl l2 d A R') as H.
  change (has_expired_o (calm E)) with (has_expired_o E) in H. rewrite H. apply same_tock.
Qed.

Lemma throw_if_invalid_o_mild l1 cl l2 : l = l1 ++ cl :: l2 ->
  mild w (throw_if_invalid_o E c (MkO c (OAt (c_rid x, cl_q cl)) None) w).
Proof.
  intros Q. unfold mild, throw_if_invalid_o. wv get_cache_ev.
  unfold o_eq at 1. cbn [oi_pos ordered_end opos_eqb]. destruct (c_ttl x) as [d|]; [|apply same_refl].
  apply (@mild_bind bool unit w); [eapply has_expired_o_mild; eauto|].
  intros [] w' _; apply same_refl.
Qed.

Lemma entry_at_mild n : mild w ((it <- ordered_nth c n;; p <- o_entry E it;; read_entry p) w).
Proof.
  unfold mild. wv (ordered_nth_ev (E := calm E)). pose proof (skipn_split n l) as SP.
  destruct (nth_error l n) as [cl|].
  - destruct SP as (b & Hsk & Hl). rewrite Hsk. cbn [opos_of]. unfold o_entry. rewrite bind_assoc. cbn [oi_cache].
    apply (@mild_bind unit (K * V) w); [eapply throw_if_invalid_o_mild; eauto|]. intros ? w1 S1.
    pose proof (at_same S1 A) as A1. assert (R' : rep_store (c_rid x) s (firstn n l ++ cl :: b)) by (rewrite <- Hl; exact R).
    rewrite bind_assoc. unfold mild. wv (o_deref_ev (E := calm E)). rewrite bind_ret.
    erewrite (read_entry_ev (E := calm E)) by (eauto using in_mid; apply A1). apply same_refl.
  - destruct SP as (-> & _). cbn [opos_of]. unfold o_entry. rewrite bind_assoc.
    rewrite (bind_exc _ _ _ (throw_end E (proj1 A))). apply same_refl.
Qed.

Lemma valid_at_mild n : mild w ((it <- ordered_nth c n;; is_valid_o E c it) w).
Proof.
  unfold mild. wv (ordered_nth_ev (E := calm E)). pose proof (skipn_split n l) as SP. unfold is_valid_o.
  destruct (nth_error l n) as [cl|].
  - destruct SP as (b & Hsk & Hl). rewrite Hsk. cbn [opos_of]. wv get_cache_ev.
    unfold o_eq at 1. cbn [oi_pos ordered_end opos_eqb]. destruct (c_ttl x) as [d|]; [|apply same_refl].
    apply (@mild_bind bool bool w); [eapply has_expired_o_mild; eauto|]. intros ? ? _. apply same_refl.
  - destruct SP as (-> & _). cbn [opos_of]. wv get_cache_ev. unfold o_eq; simpl. rewrite Nat.eqb_refl. apply same_refl.
Qed.

Lemma front_w : match front c w with Val _ w' => w' = w | Exc _ _ => False | Undef _ => False
  | Term e => e = EmptyCache /\ length l = 0 end.
Proof.
  unfold front.
  assert (EV : (e <- is_empty c;; (if e then throw EmptyCache else p <- list_back c;; n <- deref p;; ret (n_key n))) w
     = match last_cell l with None => Exc EmptyCache w | Some cl => Val (e_key (cl_e cl)) w end).
  { unfold is_empty. rewrite bind_assoc. ev size_ev. rewrite bind_ret, (rep_size R).
    destruct l as [|cl l' _] using rev_ind; auto.
    rewrite app_length; simpl length. rewrite Nat.add_1_r. cbn [Nat.eqb]. rewrite last_cell_app.
    unfold list_back. rewrite bind_assoc. ev own_ev. rewrite (rs_ord R), map_app, rev_app_distr.
    cbn [map rev app qrow]. rewrite bind_ret. ev deref_ev. auto. }
  unfold noexcept. rewrite EV. destruct (last_cell l) eqn:Q; auto. split; auto.
  destruct l as [|cl l' _] using rev_ind; auto. rewrite last_cell_app in Q. discriminate.
Qed.

Lemma back_w : match back c w with Val _ w' => w' = w | Exc _ _ => False | Undef _ => False
  | Term e => e = EmptyCache /\ length l = 0 end.
Proof.
  unfold back.
  assert (EV : (e <- is_empty c;; (if e then throw EmptyCache else p <- list_front c;; n <- deref p;; ret (n_key n))) w
     = match l with [] => Exc EmptyCache w | cl :: _ => Val (e_key (cl_e cl)) w end).
  { unfold is_empty. rewrite bind_assoc. ev size_ev. rewrite bind_ret, (rep_size R).
    destruct l as [|cl l']; auto. cbn [length Nat.eqb].
    unfold list_front. rewrite bind_assoc. ev own_ev. rewrite (rs_ord R).
    cbn [map qrow]. rewrite bind_ret.
    match goal with |- bind ?m ?k ?w = _ => with_bind m k w ltac:(eapply deref_ev; eauto with sim; left; auto) end.
    auto. }
  unfold noexcept. rewrite EV. destruct l; auto.
Qed.
End At.

Lemma equals_mild w c d : inv w -> alive w c = true -> alive w d = true -> exists b, equals E c d w = Val b w.
Proof.
  intros I Ac Ad. destruct (inv_here I Ac) as (x & sx & lx & Ax & Px). destruct (inv_here I Ad) as (y & sy & ly & Ay & Py).
  unfold equals, noexcept.
  match goal with |- exists b, match ?m w with _ => _ end = _ => assert (Q : exists b, m w = Val b w) end.
  { erewrite bind_val by (eapply own_ev; exact Ax). cbv beta iota. erewrite bind_val by (eapply own_ev; exact Ay). cbv beta iota.
    erewrite bind_val by (eapply get_cache_ev; exact (proj1 Ax)). cbv beta iota. destruct (Nat.eqb c d); [eexists; reflexivity|].
    match goal with |- exists b, (if ?b' then _ else _) _ = _ => destruct b' end; [|eexists; reflexivity].
    rewrite (rs_ord (so_rep Px)), (rs_ord (so_rep Py)). eexists.
    eapply (@order_eq_ev _ _ (calm E) lx ly w _ _ sx sy lx ly);
      [apply Ax|apply (so_rep Px)|apply incl_refl|apply Ay|apply (so_rep Py)|apply incl_refl]. }
  destruct Q as (b & Q). exists b. rewrite Q. auto.
Qed.

(* ---------------------------------------------------------------- *)
(** ** Statistics and callbacks *)

Lemma set_stats_ok w c st : inv w -> alive w c = true -> (forall i, st = Some i -> slot (w_stats w) i <> None) ->
  ok w (set_stats c st w).
Proof.
  intros I Al St. destruct (inv_here I Al) as (x & s & l & A & So). unfold set_stats. wv get_cache_ev.
  rewrite put_cache_ev. split.
  - eapply inv_setC; [exact I|exact A|apply sound_graft; exact So|auto|exact St].
  - eapply shift_stable; [exact I|exact A|apply chg_shift; eapply chg_setC; [exact A|reflexivity]|auto..].
Qed.

Lemma set_cbs_safe w c f : inv w -> alive w c = true -> safe (set_cbs c f w).
Proof.
  intros I Al. destruct (inv_here I Al) as (x & s & l & A & So). unfold safe, set_cbs. wv get_cache_ev.
  rewrite put_cache_ev. eapply inv_setC; [exact I|exact A|apply sound_graft; exact So|auto|].
  intros i Q. exact (inv_st I (proj1 A) Q).
Qed.

Lemma stats_w w c : inv w -> alive w c = true ->
  wp (fun i w' => w' = w /\ slot (w_stats w) i <> None) (fun _ w' => w' = w) (stats c w).
Proof.
  intros I Al. destruct (inv_here I Al) as (x & s & l & A & So). unfold stats. wv get_cache_ev.
  destruct (c_stats x) eqn:Q; simpl; auto. split; auto. eapply inv_stats; eauto.
Qed.

Lemma with_stats_ok B w c (f : nat -> statistics K -> M world B) : inv w -> alive w c = true ->
  (forall i y, slot (w_stats w) i <> None -> ok w (f i y w)) ->
  ok w ((i <- stats c;; y <- get_stats i;; f i y) w).
Proof.
  intros I Al F. eapply wp_bind.
  - eapply wp_conseq; [apply stats_w; eauto|intros i w' H; exact H|]. simpl. intros e w' ->. split; auto. apply stab_refl.
  - simpl. intros i w' (-> & H). unfold bind, get_stats. destruct (slot (w_stats w) i) eqn:Q; [|easy].
    apply F; auto. congruence.
Qed.

Lemma put_stats_ok w i y : inv w -> slot (w_stats w) i <> None -> ok w (put_stats i y w).
Proof.
  intros I H. unfold put_stats, modify. split; [|apply stab_heap; auto].
  destruct I as [X Y Z]. constructor; simpl; auto. intros c x j Hx Hj. specialize (Z c x j Hx Hj).
  destruct (Nat.eq_dec i j) as [<-|N]; [|rewrite slot_upd_other; auto].
  destruct (slot (w_stats w) i) eqn:Q; [|easy]. erewrite slot_upd_same by eauto. discriminate.
Qed.

Lemma stats_update_ok w c f : inv w -> alive w c = true -> ok w (stats_update_or c f w : res world (out K V)).
Proof.
  intros I Al. unfold stats_update_or. apply with_stats_ok; auto. intros i y H. destruct (f y).
  - eapply wp_bind; [apply put_stats_ok; auto|]. intros ? w' H'. exact H'.
  - apply ok_throw; auto. apply same_refl.
Qed.

Lemma monitor_new_ok w c ks : inv w -> alive w c = true -> ok w (monitor_new E c ks w).
Proof.
  intros I Al. destruct (inv_here I Al) as (x & s & l & A & So). unfold monitor_new. wv get_cache_ev.
  unfold alloc_stats at 1. unfold bind at 1.
  set (w1 := with_stats _ w).
  assert (I1 : inv w1).
  { destruct I as [X Y Z]. constructor; auto. intros d y i Hy Hi. unfold w1; simpl. intros N. apply (Z d y i Hy Hi).
    destruct (slot (w_stats w) i) eqn:Q; auto. rewrite slot_app_lt in N by (eapply slot_lt; eauto). congruence. }
  assert (S1 : stable w w1) by (apply stab_heap; auto).
  eapply ok_more; [exact S1|]. eapply wp_bind; [apply set_stats_ok; auto|].
  - intros i Q. inversion Q; subst. unfold w1; simpl. rewrite slot_app_new. discriminate.
  - intros ? w' H. exact H.
Qed.

(* ---------------------------------------------------------------- *)
(** ** Erasure through iterators *)

Lemma safe_bind A B w (m : M world A) (k : A -> M world B) (P : A -> world -> Prop) :
  wp P (fun _ w' => inv w') (m w) -> (forall a w', P a w' -> safe (k a w')) -> safe (bind m k w).
Proof. intros H F. eapply wp_bind; eauto. Qed.

Lemma erase_it_safe w c i : inv w -> valid_it c i w -> safe (erase_it E c i w).
Proof.
  intros I Va. destruct (valid_deref Va) as (n & _ & _ & x & s & l1 & cl & l2 & A & So & -> & _).
  destruct (erase_it_w Fr A So) as (x' & s' & w' & H & C & SB & So'). rewrite H. simpl.
  eapply inv_kept; eauto. apply chg_shift; auto.
Qed.

Lemma erase_u_safe w c it : inv w -> valid_u E c it w -> safe (erase_u E c it w).
Proof.
  intros I [->|(i & -> & Va)]; unfold erase_u, u_eq; cbn [ui_pos uiter_of unordered_end upos_eqb].
  - rewrite Nat.eqb_refl. simpl. auto.
  - apply erase_it_safe; auto.
Qed.

Lemma erase_unordered_safe w c n : inv w -> alive w c = true ->
  safe ((it <- unordered_nth c n;; erase_u E c it) w).
Proof.
  intros I Al. destruct (inv_here I Al) as (x & s & l & A & So). pose proof (so_rep So) as R.
  unfold safe. wv (unordered_nth_ev (E := calm E)). pose proof (skipn_split n (s_map s)) as SP.
  destruct (nth_error (s_map s) n) as [[i nd]|] eqn:NE.
  - destruct SP as (b & -> & _). cbn [upos_of]. unfold erase_u, u_eq. cbn [ui_pos unordered_end upos_eqb].
    apply erase_it_safe; auto. apply nth_error_In in NE.
    apply (Permutation_in _ (rs_map R)), in_map_iff in NE as (cl & Hc & In1). inversion Hc; subst.
    exists x, s, l, cl. auto.
  - destruct SP as (-> & _). cbn [upos_of]. unfold erase_u, u_eq. cbn [ui_pos unordered_end upos_eqb].
    rewrite Nat.eqb_refl. simpl. auto.
Qed.

Lemma erase_o_safe w c n : inv w -> alive w c = true ->
  safe ((it <- ordered_nth c n;; erase_o E c it) w).
Proof.
  intros I Al. destruct (inv_here I Al) as (x & s & l & A & So). pose proof (so_rep So) as R.
  unfold safe. wv (ordered_nth_ev (E := calm E)). pose proof (skipn_split n l) as SP.
  destruct (nth_error l n) as [cl|].
  - destruct SP as (b & Hsk & Hl). rewrite Hsk. cbn [opos_of].
    unfold erase_o. unfold o_eq at 1. cbn [oi_pos ordered_end opos_eqb].
    unfold o_key. rewrite bind_assoc. cbn [oi_pos oi_cache].
    eapply safe_bind with (P := fun _ w' => same_heap w w').
    { eapply wp_conseq; [eapply throw_if_invalid_o_mild; eauto|intros ? ? H; exact H|].
      simpl. intros _ w' H. eapply inv_same; eauto. }
    intros _ w1 S1. pose proof (at_same S1 A) as A1.
    assert (R' : rep_store (c_rid x) s (firstn n l ++ cl :: b)) by (rewrite <- Hl; exact R).
    unfold safe. rewrite bind_assoc. wv (list_deref_ev (E := calm E)). rewrite bind_assoc. wv deref_ev. rewrite bind_ret.
    cbn [n_key node_of]. wv (f_map_find Fr). rewrite (f_mid Fr (rs_keys R') (fair_refl Fr _)). cbn [option_map].
    apply erase_it_safe; [eapply inv_same; eauto|]. exists x, s, (firstn n l ++ cl :: b), cl. split; [exact A1|].
    split; [rewrite <- Hl; exact So|]. split; [apply in_mid|reflexivity].
  - destruct SP as (-> & _). cbn [opos_of]. unfold erase_o, o_eq. cbn [oi_pos ordered_end opos_eqb]. rewrite Nat.eqb_refl.
    simpl. auto.
Qed.
End Obs.
