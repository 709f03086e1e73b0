(** Every call keeps the invariant of Sturdy.v or leaves a cache that shows that
    it is damaged. *)
From Coq Require Import List Arith ZArith Bool Permutation Lia.
Import ListNotations.
From Verif Require Import Monad Types Model Api Spec SpecFault Ref Lists SimBase SimRel SimOps SimIns SimErase SimIter SimNew SimObs SimExec Sturdy SturdyOps SturdyAcc SturdyIns SturdyObs.
Set Implicit Arguments.
Unset Strict Implicit.
Local Open Scope cpp_scope.

Section Exec.
Context {K V : Type}.
Variable E : env K V.
Hypothesis Fr : fair E.

Notation entry := (entry K V).
Notation world := (world K V).
Notation store := (store K V).
Notation mnode := (mnode K V).
Notation cell := (@cell K V).
Notation rep_store := (rep_store (calm E)).
Notation find_cell := (find_cell (calm E)).
Notation sound := (sound E).
Notation inv := (inv E).
Notation valid_it := (valid_it E).
Notation ok := (ok E).
Notation safe := (safe E).
Implicit Types (w : world) (s : store).

Let G : good (calm E) := calm_good Fr.

Hypothesis Hcb : forall ev w, inv w -> ok w (cb E ev w).

Lemma ok_wrap A B w (m : M world A) (f : A -> B) : ok w (m w) -> ok w ((a <- m;; ret (f a)) w).
Proof. intros H. eapply wp_bind; [exact H|]. intros a w' H'. exact H'. Qed.
Lemma safe_wrap A B w (m : M world A) (f : A -> B) : safe (m w) -> safe ((a <- m;; ret (f a)) w).
Proof. intros H. eapply wp_bind; [exact H|]. intros a w' H'. exact H'. Qed.

Lemma timed_alive w c : timed w c = true -> alive w c = true.
Proof. unfold timed, alive. destruct (slot (w_caches w) c); auto. Qed.
Lemma kind_alive w c d : same_kind w c d = true -> alive w c = true /\ alive w d = true.
Proof. unfold same_kind. rewrite !andb_true_iff. tauto. Qed.

Lemma new_ok w cap ttl : inv w -> ok w (new_cache cap ttl w).
Proof. intros I. destruct (new_cache_w cap ttl I) as (w' & H & I' & S' & _). rewrite H. split; auto. Qed.


Lemma with_ttl_ok w c f : inv w -> alive w c = true -> (forall d, ok w (f d w)) -> ok w (with_ttl c f w : res world (out K V)).
Proof.
  intros I Al F. destruct (inv_here I Al) as (x & s & l & A & So). unfold with_ttl. wv get_cache_ev.
  destruct (c_ttl x); [apply F|]. apply ok_heap; auto using same_refl.
Qed.

Lemma mild_out A w (m : M world A) (f : A -> out K V) : inv w -> mild w (m w) -> ok w ((a <- m;; ret (f a)) w).
Proof. intros I H. apply ok_wrap, mild_ok; auto. Qed.
Lemma val_out A w (m : M world A) (f : A -> out K V) : inv w -> (exists a, m w = Val a w) -> ok w ((a <- m;; ret (f a)) w).
Proof. intros I (a & H). apply mild_out; auto. rewrite H. apply same_refl. Qed.

(** Calls that neither insert nor remove. *)
Lemma exec_ok o w : inv w -> gentle o = true -> ok w (exec E o w).
Proof.
  intros I Ge. unfold exec. destruct (well_formed w o) eqn:WF; [|apply ok_heap; auto using same_refl].
  assert (Here : forall c, alive w c = true -> exists x s l, at_ w c x s /\ sound x s l) by (intros; eapply inv_here; eauto).
  destruct o; try discriminate Ge; cbn [well_formed] in WF; cbn [body].
  - apply ok_wrap, new_ok; auto.
  - apply ok_wrap, (new_from_ok Fr); auto.
  - apply ok_wrap, (new_from_ok Fr); auto.
  - apply ok_wrap, (new_from_move_ok Fr); auto.
  - apply ok_wrap, (new_from_move_ok Fr); auto.
  - apply ok_wrap, (new_from_ok Fr); auto.
  - (* Find *) eapply wp_bind; [apply (find_ok Fr Hcb); eauto|]. intros it w' ((I' & S') & Vu).
    destruct (denotes_ok I' Vu) as (e & De). wv De. split; auto.
  - apply ok_wrap, (contains_ok Fr Hcb); auto.
  - (* Lookup *) eapply wp_bind; [apply (lookup_ok Fr Hcb); eauto|]. intros p w' ((I' & S') & i & -> & Va).
    destruct (valid_deref Va) as (n & _ & D & _). wv D. split; auto.
  - (* Write *) eapply wp_bind; [apply (lookup_ok Fr Hcb); eauto|]. intros p w' ((I' & S') & i & -> & Va).
    eapply ok_more; [exact S'|]. apply ok_wrap. eapply write_ok; eauto.
  - destruct (Here _ WF) as (x & s & l & A & So). apply mild_out; auto. eapply size_mild; eauto.
  - destruct (Here _ WF) as (x & s & l & A & So). apply mild_out; auto. eapply capacity_mild; eauto.
  - destruct (Here _ WF) as (x & s & l & A & So). apply mild_out; auto. eapply space_left_mild; eauto.
  - destruct (Here _ WF) as (x & s & l & A & So). apply mild_out; auto. eapply is_empty_mild; eauto.
  - destruct (Here _ WF) as (x & s & l & A & So). apply mild_out; auto. eapply is_full_mild; eauto.
  - apply timed_alive in WF. destruct (Here _ WF) as (x & s & l & A & So). apply with_ttl_ok; auto. intros d.
    apply mild_out; auto. eapply (has_expired_key_mild Fr); eauto.
  - apply timed_alive in WF. destruct (Here _ WF) as (x & s & l & A & So). apply with_ttl_ok; auto. intros d'.
    apply mild_out; auto. eapply (all_expired_mild Fr); eauto.
  - apply kind_alive in WF as (Ac & Ad). apply val_out; auto. eapply equals_mild; eauto.
  - destruct (Here _ WF) as (x & s & l & A & So). apply val_out; auto. eexists. eapply (ordered_mild Fr A So).
  - destruct (Here _ WF) as (x & s & l & A & So). apply mild_out; auto. eapply (backward_mild Fr); eauto.
  - destruct (Here _ WF) as (x & s & l & A & So). apply mild_out; auto. eapply unordered_mild; eauto.
  - destruct (Here _ WF) as (x & s & l & A & So).
    match goal with |- ok w (?m w) => assert (Q : m w = ((e <- (it <- ordered_nth c n;; p <- o_entry E it;; read_entry p);; ret (ROpt (Some e))) w)) end.
    { rewrite !bind_assoc. apply bind_ext. intros it w1. rewrite bind_assoc. auto. }
    rewrite Q. apply mild_out; auto. eapply (entry_at_mild Fr); eauto.
  - destruct (Here _ WF) as (x & s & l & A & So).
    match goal with |- ok w (?m w) => assert (Q : m w = ((b <- (it <- ordered_nth c n;; is_valid_o E c it);; ret (RBool b)) w)) end.
    { rewrite !bind_assoc. auto. }
    rewrite Q. apply mild_out; auto. eapply (valid_at_mild Fr); eauto.
  - apply ok_wrap, monitor_new_ok; auto.
  - apply andb_true_iff in WF as (Ac & As). unfold stats_alive in As. apply ok_wrap. unfold monitor_shared, get_stats, bind.
    destruct (slot (w_stats w) s) eqn:Q; [|discriminate]. apply set_stats_ok; auto. intros i H. inversion H; subst. congruence.
  - apply ok_wrap, set_stats_ok; auto. discriminate.
  - destruct (Here _ WF) as (x & s & l & A & So). apply val_out; auto. eexists. unfold is_monitoring.
    erewrite bind_val by (apply get_cache_ev; exact (proj1 A)). reflexivity.
  - apply with_stats_ok; auto. intros. apply ok_heap; auto using same_refl.
  - apply with_stats_ok; auto. intros i y _. destruct (stats_for E y k); [apply ok_heap|apply ok_throw]; auto using same_refl.
  - apply stats_update_ok; auto.
  - apply stats_update_ok; auto.
  - apply stats_update_ok; auto.
  - apply stats_update_ok; auto.
  - apply with_stats_ok; auto. intros. apply ok_heap; auto using same_refl.
  - apply with_stats_ok; auto. intros. apply ok_heap; auto using same_refl.
Qed.

(* ---------------------------------------------------------------- *)
(** ** All calls *)

(** What may come out of call [o]: as [defined] allows; the invariant is kept,
    unless an allocation failed. *)
Definition tame (o : op K V) w (r : res world (out K V)) : Prop :=
  match r with
  | Val _ w' => inv w'
  | Exc e w' => inv w' \/ (e = BadAlloc /\ exists c, In c (mentions o) /\ lopsided E c w')
  | Undef u => (u = PastTheEnd /\ lenient_end E = false /\ exists c k, o = FindEntry c k) \/
               (u = Indeterminate /\ junk E = None /\ exists c, o = Move c)
  | Term e => e = EmptyCache /\ exists c, (o = Front c \/ o = Back c) /\ size_is E c w 0
  end.

Lemma safe_tame o w r : safe r -> tame o w r.
Proof. destruct r; simpl; auto; contradiction. Qed.
Lemma ok_tame o w r : ok w r -> tame o w r.
Proof. intros H. eapply safe_tame, ok_safe, H. Qed.
Lemma val_safe A w (m : M world A) (f : A -> out K V) : (exists a w', m w = Val a w' /\ inv w') -> safe ((a <- m;; ret (f a)) w).
Proof. intros (a & w' & H & I). apply safe_wrap. rewrite H. simpl. auto. Qed.

Lemma tamed_tame o w c A (m : M world A) (f : A -> out K V) P : In c (mentions o) -> tamed E c w P (m w) ->
  tame o w ((a <- m;; ret (f a)) w).
Proof.
  intros Hc T. unfold bind. destruct (m w); simpl in *; try contradiction.
  - apply T.
  - destruct T as ([I|(-> & L)] & _); [left; auto|right; eauto].
Qed.

Lemma put_tame o w c b (m : M world (bool * uiter)) : In c (mentions o) -> 
  tamed E c w (fun p w' => valid_u E c (snd p) w') (m w) ->
  tame o w ((r <- m;; e <- denotes c (snd r);; ret (RIns (b (fst r)) e)) w).
Proof.
  intros Hc T. unfold bind. destruct (m w); simpl in *; try contradiction.
  - destruct T as (I & _ & _ & Vu). destruct (denotes_ok I Vu) as (e & ->). simpl. auto.
  - destruct T as ([I|(-> & L)] & _); [left; auto|right; eauto].
Qed.

Lemma size_zero w c x s l : alive w c = true -> at_ w c x s -> sound x s l -> length l = 0 -> size_is E c w 0.
Proof.
  intros Al A So L. unfold size_is, exec. cbn [well_formed]. rewrite Al. cbn [body].
  rewrite (bind_val _ _ _ (size_ev A)), (rep_size (so_rep So)), L. auto.
Qed.

Lemma exec_tame o w : inv w -> copy_free o = true -> tame o w (exec E o w).
Proof.
  intros I Cf. destruct (gentle o) eqn:Ge; [apply ok_tame, exec_ok; auto|].
  unfold exec. destruct (well_formed w o) eqn:WF; [|simpl; auto].
  assert (Here : forall c, alive w c = true -> exists x s l, at_ w c x s /\ sound x s l) by (intros; eapply inv_here; eauto).
  assert (Kept : forall c x s l A (m : M world A) (f : A -> out K V), at_ w c x s -> sound x s l ->
     (exists a x' s' l' w', m w = Val a w' /\ Sturdy.shift c x' s' w w' /\ same_but_last x x' /\ sound x' s' l') ->
     safe ((a <- m;; ret (f a)) w)).
  { intros c x s l A m f At So (a & x' & s' & l' & w' & H & S & SB & So'). apply val_safe. exists a, w'. split; auto.
    eapply inv_kept; eauto. }
  destruct o; try discriminate Ge; try discriminate Cf; cbn [well_formed] in WF; cbn [body].
  - (* Move *) pose proof (move_new_w I WF) as H. destruct (junk E) eqn:J.
    + destruct H as (d & w' & H & I'). apply safe_tame, val_safe. eauto.
    + unfold bind. rewrite H. simpl. right. eauto.
  - (* Destroy *) destruct (destroy_w (inv_weaken (Some c) I) WF) as (w' & H & I' & _).
    apply safe_tame, val_safe; eexists _, _; split; [exact H|exact I'].
  - (* CopyAssign *) apply Nat.eqb_eq in Cf as <-. unfold copy_assign. rewrite Nat.eqb_refl. simpl. auto.
  - apply kind_alive in WF as (Ac & Ad). destruct (move_assign_w I Ac Ad) as (w' & H & I'). apply safe_tame, val_safe; eexists _, _; split; [exact H|exact I'].
  - apply kind_alive in WF as (Ac & Ad). destruct (swap_w I Ac Ad) as (w' & H & I'). apply safe_tame, val_safe; eexists _, _; split; [exact H|exact I'].
  - eapply (@tamed_tame _ _ c); [left; auto|]. apply (assign_range_tamed Fr); auto.
  - eapply (@tamed_tame _ _ c); [left; auto|]. apply (assign_move_tamed Fr); auto.
  - eapply (@put_tame _ _ c (fun b => b)); [left; auto|]. apply (insert_tamed Fr); auto.
  - eapply (@put_tame _ _ c (fun b => b)); [left; auto|]. apply (emplace_tamed Fr); auto.
  - eapply (@tamed_tame _ _ c); [left; auto|]. apply (insert_range_tamed Fr); auto.
  - eapply (@tamed_tame _ _ c); [left; auto|]. apply (insert_move_tamed Fr); auto.
  - (* FindEntry *) pose proof (@find_ok _ _ E Fr Hcb w c k I WF) as F. unfold bind at 1.
    destruct (find E c k w) as [it w'|e w'|u|e]; simpl in F; try contradiction; [|left; apply F].
    destruct F as ((I' & S') & [->|(i & -> & Va)]).
    + unfold u_entry, unordered_end; cbn [ui_entry ui_pos ui_cache]. unfold bind at 1. destruct (lenient_end E) eqn:Le.
      * destruct (slot (w_caches w) c) as [x|] eqn:Hx; [|unfold alive in WF; rewrite Hx in WF; discriminate].
        destruct (S' c x ltac:(discriminate) Hx) as (x' & X' & _).
        unfold throw_if_invalid_u, bind. erewrite get_cache_ev by exact X'.
        unfold u_eq. cbn [ui_pos unordered_end upos_eqb]. rewrite Nat.eqb_refl. simpl. auto.
      * simpl. left. eauto.
    + apply safe_tame. eapply wp_bind.
      { eapply wp_conseq; [apply (u_entry_ok I' Va)|intros p w2 H; exact H|].
        simpl. intros _ w2 H. eapply inv_same; eauto. }
      simpl. intros p w2 (Sm & ->). destruct (valid_deref (valid_same Sm Va)) as (n & _ & D & _).
      unfold read_entry. rewrite bind_assoc. wv D. simpl. eapply inv_same; eauto.
  - destruct (Here _ WF) as (x & s & l & A & So). apply safe_tame. eapply Kept; eauto.
    destruct (erase_key_w Fr k A So) as (b & x' & s' & l' & w' & H & C & R). exists b, x', s', l', w'. 
    split; auto. split; [apply chg_shift; auto|auto].
  - (* EraseFound *) apply safe_tame. eapply wp_bind.
    { eapply wp_conseq; [apply (@find_ok _ _ E Fr Hcb w c k I WF)|intros it w' H; exact H|simpl; tauto]. }
    simpl. intros it w' ((I' & _) & Vu). apply safe_wrap, (erase_u_safe Fr); auto.
  - apply safe_tame. rewrite <- bind_assoc. apply safe_wrap, (erase_o_safe Fr); auto.
  - apply safe_tame. rewrite <- bind_assoc. apply safe_wrap, (erase_unordered_safe Fr); auto.
  - destruct (Here _ WF) as (x & s & l & A & So). apply safe_tame. eapply Kept; eauto.
    destruct (clear_w A So) as (x' & s' & w' & H & C & R). exists tt, x', s', [], w'. 
    split; auto. split; [apply chg_shift; auto|auto].
  - destruct (Here _ WF) as (x & s & l & A & So). apply safe_tame. eapply Kept; eauto.
    destruct (shrink_w Fr n A So) as (x' & s' & l' & w' & H & C & R). exists tt, x', s', l', w'. 
    split; auto. split; [apply chg_shift; auto|auto].
  - destruct (Here _ WF) as (x & s & l & A & So). apply safe_tame, val_safe.
    destruct (set_capacity_w Fr n A So) as (x' & s' & l' & w' & H & C & Hr & Hs & So'). exists tt, w'. split; auto.
    eapply inv_shift; [exact I|exact A|apply chg_shift; exact C|exact Hr|rewrite Hs; eapply inv_stats; eauto|eauto].
  - apply timed_alive in WF. destruct (Here _ WF) as (x & s & l & A & So). apply safe_tame. unfold safe, with_ttl.
    wv get_cache_ev. destruct (c_ttl x) as [d|]; [|simpl; auto]. eapply Kept; eauto.
    destruct (clear_expired_w Fr d A So) as (m & x' & s' & l' & w' & H & C & R). exists m, x', s', l', w'. auto.
  - (* Front *) apply andb_true_iff in WF as (Al & _). destruct (Here _ Al) as (x & s & l & A & So).
    pose proof (front_w A So) as H. unfold bind. destruct (front c w); simpl in *; try contradiction.
    + subst; auto.
    + destruct H as (-> & H). split; auto. exists c. split; auto. eapply size_zero; eauto.
  - (* Back *) apply andb_true_iff in WF as (Al & _). destruct (Here _ Al) as (x & s & l & A & So).
    pose proof (back_w A So) as H. unfold bind. destruct (back c w); simpl in *; try contradiction.
    + subst; auto.
    + destruct H as (-> & H). split; auto. exists c. split; auto. eapply size_zero; eauto.
  - apply safe_tame, safe_wrap, set_cbs_safe; auto.
  - apply safe_tame, safe_wrap, set_cbs_safe; auto.
  - apply safe_tame, safe_wrap, set_cbs_safe; auto.
  - apply safe_tame, safe_wrap, set_cbs_safe; auto.
  - apply safe_tame, safe_wrap, set_cbs_safe; auto.
  - apply safe_tame, safe_wrap, set_cbs_safe; auto.
  - apply safe_tame, safe_wrap, set_cbs_safe; auto.
Qed.

(* ---------------------------------------------------------------- *)
(** ** Damage shows *)


Lemma bind_val_inv A B (m : M world A) (k : A -> M world B) w b w' : bind m k w = Val b w' ->
  exists a w1, m w = Val a w1 /\ k a w1 = Val b w'.
Proof. unfold bind. destruct (m w); try discriminate. eauto. Qed.

Ltac inv_bind H := apply bind_val_inv in H as (? & ? & ? & H).
Ltac pure H := repeat first
  [ apply bind_val_inv in H as (? & ? & ? & H)
  | match type of H with
    | context [match ?x with _ => _ end] => destruct x eqn:?
    | Val _ _ = Val _ _ => inversion H; subst; clear H
    | _ => discriminate
    end ].

Lemma get_store_pure r w s w' : get_store (K := K) (V := V) r w = Val s w' -> w' = w.
Proof. unfold get_store. destruct (slot _ _); intros H; inversion H; auto. Qed.
Lemma get_cache_pure c w x w' : get_cache (K := K) (V := V) c w = Val x w' -> w' = w.
Proof. unfold get_cache. destruct (slot _ _); intros H; inversion H; auto. Qed.
Lemma own_pure c w x w' : own (K := K) (V := V) c w = Val x w' -> w' = w.
Proof.
  unfold own. intros H. inv_bind H. inv_bind H. apply get_cache_pure in H0. apply get_store_pure in H1.
  inversion H; subst; auto.
Qed.
Lemma list_deref_pure q w p w' : list_deref (K := K) (V := V) q w = Val p w' -> w' = w.
Proof.
  unfold list_deref. intros H. inv_bind H. apply get_store_pure in H0. destruct (assoc _ _); inversion H; subst; auto.
Qed.
Lemma deref_pure p w n w' : deref (K := K) (V := V) p w = Val n w' -> w' = w.
Proof.
  unfold deref. intros H. inv_bind H. apply get_store_pure in H0. destruct (assoc _ _); inversion H; subst; auto.
Qed.
Lemma map_find_pure c k w i w' : map_find E c k w = Val i w' -> w' = w.
Proof.
  unfold map_find. intros H. inv_bind H. apply own_pure in H0. subst. destruct x as (r & s).
  destruct (node_with E k (s_map s)) as [[i' n]|]; inversion H; auto.
Qed.
Lemma o_deref_pure it w p it' w' : o_deref E it w = Val (p, it') w' ->
  w' = w /\ oi_pos it' = oi_pos it /\ oi_cache it' = oi_cache it.
Proof.
  unfold o_deref. intros H. destruct (oi_entry it); [inversion H; subst; auto|]. destruct (oi_pos it) eqn:Q; try discriminate.
  inv_bind H. apply list_deref_pure in H0. inv_bind H. apply deref_pure in H1. inv_bind H. apply map_find_pure in H2.
  subst. match type of H with match ?x with _ => _ end _ = _ => destruct x end; inversion H; subst; simpl; auto.
Qed.
Lemma read_entry_pure p w e w' : read_entry (K := K) (V := V) p w = Val e w' -> w' = w.
Proof. unfold read_entry. intros H. inv_bind H. apply deref_pure in H0. inversion H; subst; auto. Qed.

Definition q_pos (c r : nat) (l : list (nat * mptr)) : opos :=
  match l with [] => OEnd c | (i, _) :: _ => OAt (r, i) end.

Lemma collect_length c x s q2 : forall fuel q1 it w l w', at_ w c x s -> s_ord s = q1 ++ q2 ->
  NoDup (map fst (s_ord s)) -> oi_cache it = c -> oi_pos it = q_pos c (c_rid x) q2 ->
  o_collect E fuel c it w = Val l w' -> length l = length q2.
Proof.
  induction q2 as [|(i & p) q2 IH]; intros fuel q1 it w l w' A Q N Hc Hp H.
  - unfold o_collect in H. destruct fuel; unfold o_eq in H; rewrite Hp in H; cbn [q_pos ordered_end oi_pos opos_eqb] in H;
      rewrite Nat.eqb_refl in H; inversion H; auto.
  - destruct fuel as [|fuel]; cbn [o_collect] in H; unfold o_eq in H; rewrite Hp in H;
      cbn [q_pos ordered_end oi_pos opos_eqb] in H; [discriminate|].
    inv_bind H. destruct x0 as (pe & it1). apply o_deref_pure in H0 as (-> & P1 & P2).
    inv_bind H. apply read_entry_pure in H0 as ->.
    inv_bind H. unfold o_next in H0. rewrite P1, Hp in H0. cbn [q_pos] in H0.
    inv_bind H0. apply list_deref_pure in H1 as ->. cbn [fst snd] in H0.
    erewrite bind_val in H0 by (eapply get_store_ev; exact (at_store A)). rewrite Q, next_after_mid in H0.
    2: { rewrite Q, map_app in N. apply NoDup_remove_2 in N. intro; apply N, in_or_app; auto. }
    inv_bind H. inversion H; subst l. simpl. f_equal.
    assert (D : oi_cache x1 = c /\ oi_pos x1 = q_pos c (c_rid x) q2 /\ x2 = w).
    { destruct q2 as [|(j & p') q2]; inversion H0; subst; simpl; rewrite ?P2; auto. }
    destruct D as (D1 & D2 & ->). eapply (IH fuel (q1 ++ [(i, p)])); eauto. rewrite <- app_assoc. auto.
Qed.

(** The ordered traversal follows the list; a cache whose traversal yields as
    many elements as size() says is not lopsided. *)
Lemma lopsided_shows c w : lopsided E c w -> complete E c w -> False.
Proof.
  intros (_ & x & s & A & N & Ne) (l & Hl & Hn). apply Ne.
  assert (Al : alive w c = true) by (unfold alive; rewrite (proj1 A); auto).
  unfold contents, size_is, exec in *. cbn [well_formed body] in *. rewrite Al in *.
  rewrite (bind_val _ _ _ (size_ev A)) in Hn. inversion Hn as [L]. rewrite L.
  inv_bind Hl. inversion Hl; subst. unfold traverse_ordered in H. rewrite (bind_val _ _ _ (size_ev A)) in H.
  inv_bind H. unfold ordered_begin in H0. rewrite (bind_val _ _ _ (own_ev A)) in H0.
  symmetry. eapply (@collect_length c x s (s_ord s) (length (s_map s)) [] x0); eauto.
  all: destruct (s_ord s) as [|(i & p) q]; inversion H0; subst; eauto.
Qed.

(* ---------------------------------------------------------------- *)
(** ** Histories *)

Lemma survives_inv w : survives E w -> inv w.
Proof.
  induction 1 as [|w o r w' S I Cf C D]; [apply inv_init|].
  pose proof (exec_tame I Cf) as T. unfold call in C. destruct r as [r|e]; rewrite C in T; simpl in T; auto.
  destruct T as [T|(-> & c & Hc & L)]; auto. exfalso. eapply lopsided_shows; eauto.
Qed.

Lemma survives_defined w o : survives E w -> copy_free o = true -> defined E o w.
Proof.
  intros S Cf. pose proof (exec_tame (survives_inv S) Cf) as T. unfold defined. destruct (exec E o w); auto.
Qed.
End Exec.
