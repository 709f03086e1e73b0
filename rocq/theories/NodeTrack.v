(** What no call does to the nodes of a region: change the key or the list node
    of an existing map node, reuse a node number, or move a cache to another
    region (except swap and moves).  A Hoare-style proof over Model.v. *)
From Coq Require Import List Arith ZArith Bool Permutation Lia.
Import ListNotations.
From Verif Require Import Monad Types Model Api Spec Ref Lists SimBase SimRel.
Set Implicit Arguments.
Unset Strict Implicit.
Local Open Scope cpp_scope.

Section Hoare.
Context {S : Type}.
(** [m] keeps [I]; its result satisfies [Q]. *)
Definition hoare {A} (I : S -> Prop) (m : M S A) (Q : A -> Prop) : Prop :=
  forall w, I w -> match m w with
                   | Val a w' => I w' /\ Q a
                   | Exc _ w' => I w'
                   | _ => True
                   end.
Notation top := (fun _ => True).

Lemma h_ret A I (a : A) (Q : A -> Prop) : Q a -> hoare I (ret a) Q.
Proof. intros H w Hw. simpl. auto. Qed.
Lemma h_bind A B I (m : M S A) (k : A -> M S B) Q Q' :
  hoare I m Q -> (forall a, Q a -> hoare I (k a) Q') -> hoare I (bind m k) Q'.
Proof.
  intros H C w Hw. unfold bind. specialize (H w Hw). destruct (m w); auto.
  destruct H as (H1 & H2). apply C; auto.
Qed.
Lemma h_throw A I e Q : hoare (A := A) I (throw e) Q.
Proof. intros w Hw. simpl. auto. Qed.
Lemma h_undef A I u Q : hoare (A := A) I (undef u) Q.
Proof. intros w Hw. simpl. auto. Qed.
Lemma h_noexcept A I (m : M S A) Q : hoare I m Q -> hoare I (noexcept m) Q.
Proof. intros H w Hw. specialize (H w Hw). unfold noexcept. destruct (m w); auto. Qed.
Lemma h_weak A I (m : M S A) (Q Q' : A -> Prop) : hoare I m Q -> (forall a, Q a -> Q' a) -> hoare I m Q'.
Proof. intros H C w Hw. specialize (H w Hw). destruct (m w); auto. destruct H; auto. Qed.
Lemma h_top A I (m : M S A) Q : hoare I m Q -> hoare I m top.
Proof. intros H. eapply h_weak; eauto. Qed.
Lemma h_apply A I (m : M S A) Q w : hoare I m Q -> I w ->
  match m w with Val _ w' | Exc _ w' => I w' | _ => True end.
Proof. intros H Hw. specialize (H w Hw). destruct (m w); auto. destruct H; auto. Qed.
Lemma h_foldM A B I (f : B -> A -> M S B) (l : list A) : (forall b x, In x l -> hoare I (f b x) top) ->
  forall b, hoare I (foldM f l b) top.
Proof.
  induction l as [|x t IH]; simpl; intros H b.
  - apply h_ret; auto.
  - apply h_bind with top; [auto|]. intros b' _. apply IH. auto.
Qed.
End Hoare.

Section Track.
Context {K V : Type}.
Variable E : env K V.
Hypothesis PL : forall l n, Permutation (place E l n) (n :: l).
Hypothesis CB : forall ev w, cb E ev w = Val tt (with_log (fun l => l ++ [ev]) w).

Notation world := (world K V).
Notation store := (store K V).
Notation mnode := (mnode K V).
Notation M := (M world).
Notation top := (fun _ => True).
Implicit Types (w : world) (s : store) (o : op K V).

(** The keys [J] may have been inserted since the store was [s0]. *)
Record evolves (J : K -> Prop) s0 s : Prop := {
  ev_old : forall i n, In (i, n) (s_map s) -> i < s_next s0 ->
           exists n0, In (i, n0) (s_map s0) /\ n_key n = n_key n0 /\ n_ord n = n_ord n0;
  ev_new : forall i n, In (i, n) (s_map s) -> s_next s0 <= i -> J (n_key n);
  ev_next : s_next s0 <= s_next s;
  ev_epoch : (forall k, ~ J k) \/ (forall t, rehash E t = false) -> s_epoch s = s_epoch s0
}.

Lemma evolves_refl J s : Forall (fun p => fst p < s_next s) (s_map s) -> evolves J s s.
Proof.
  intros F. rewrite Forall_forall in F. constructor; auto.
  - intros i n H _. exists n. auto.
  - intros i n H L. apply F in H. simpl in H. lia.
Qed.

Lemma in_alter {A} i (f : A -> A) l j a : In (j, a) (alter i f l) ->
  exists a0, In (j, a0) l /\ (a = a0 \/ (j = i /\ a = f a0)).
Proof.
  unfold alter. rewrite in_map_iff. intros ((j', a1) & Q & H). simpl in Q.
  exists a1. destruct (Nat.eqb_spec i j'); inversion Q; subst; auto.
Qed.
Lemma in_unassoc {A} i (l : list (nat * A)) p : In p (unassoc i l) -> In p l.
Proof.
  induction l as [|(j, a) t IH]; simpl; auto. destruct (Nat.eqb i j); simpl; intuition.
Qed.

Section Inv.
Variables (c r : nat) (s0 : store) (J : K -> Prop).

Definition inv w : Prop :=
  (c < length (w_caches w) /\ forall d x, slot (w_caches w) d = Some x -> (c_rid x = r <-> d = c)) /\
  (r < length (w_stores w) /\ forall s, slot (w_stores w) r = Some s -> evolves J s0 s).

Notation hoare := (hoare inv).

Lemma inv_ctl w w' : w_caches w' = w_caches w -> w_stores w' = w_stores w -> inv w -> inv w'.
Proof. intros A B. unfold inv. rewrite A, B. auto. Qed.

Lemma h_same A (f : M A) :
  (forall w, match f w with
             | Val _ w' | Exc _ w' => w_caches w' = w_caches w /\ w_stores w' = w_stores w
             | _ => True end) -> hoare f top.
Proof.
  intros H w Hw. specialize (H w). destruct (f w); auto; destruct H; [split; auto|];
  eapply inv_ctl; eauto.
Qed.

Lemma h_get_cache d : hoare (get_cache d) (fun x => c_rid x = r <-> d = c).
Proof.
  intros w Hw. unfold get_cache. destruct (slot (w_caches w) d) as [x|] eqn:X; auto.
  split; auto. apply Hw; auto.
Qed.
Lemma h_put_cache d x : (c_rid x = r <-> d = c) -> hoare (put_cache d x) top.
Proof.
  intros H w ((L & Hc) & Hs). split; auto. simpl. split; [|exact Hs]. simpl. split; [rewrite upd_length; auto|].
  intros e y Q. destruct (Nat.eq_dec d e) as [->|N].
  - pose proof (slot_lt _ _ Q) as L'. rewrite upd_length in L'. rewrite slot_upd_lt in Q by auto. inversion Q; subst; auto.
  - rewrite slot_upd_other in Q by auto. auto.
Qed.
Lemma h_drop_cache d : hoare (drop_cache d) top.
Proof.
  intros w ((L & Hc) & Hs). split; auto. simpl. split; [|exact Hs]. simpl. split; [rewrite upd_length; auto|].
  intros e y Q. destruct (Nat.eq_dec d e) as [->|N].
  - pose proof (slot_lt _ _ Q) as L'. rewrite upd_length in L'. rewrite slot_upd_lt in Q by auto. discriminate.
  - rewrite slot_upd_other in Q by auto. auto.
Qed.
Lemma h_drop_store q : hoare (drop_store q) top.
Proof.
  intros w (Hc & L & Hs). split; auto. simpl. split; [exact Hc|]. simpl. split; [rewrite upd_length; auto|].
  intros y. destruct (Nat.eq_dec q r) as [->|N].
  - unfold slot. rewrite nth_upd_same by auto. discriminate.
  - rewrite slot_upd_other by auto. auto.
Qed.
(** What [get_store] returns, seen from region [q]. *)
Definition seen_at (q : nat) s : Prop := q = r -> evolves J s0 s.
Lemma h_get_store q : hoare (get_store q) (seen_at q).
Proof.
  intros w Hw. unfold get_store. destruct (slot (w_stores w) q) as [x|] eqn:X; auto.
  split; auto. intros ->. apply Hw; auto.
Qed.
Lemma h_put_store q s : seen_at q s -> hoare (put_store q s) top.
Proof.
  intros H w (Hc & L & Hs). split; auto. simpl. split; [exact Hc|]. simpl. split; [rewrite upd_length; auto|].
  intros y. destruct (Nat.eq_dec q r) as [->|N].
  - unfold slot. rewrite nth_upd_same by auto. intros Q; inversion Q; subst; auto.
  - rewrite slot_upd_other by auto. auto.
Qed.
Lemma h_alloc_cache x : c_rid x <> r -> hoare (alloc_cache x) (fun d => d <> c).
Proof.
  intros NR w ((L & Hc) & Hs). split; [|lia]. simpl. split; [|exact Hs]. simpl. split; [rewrite app_length; lia|].
  intros e y Q. pose proof (slot_lt _ _ Q) as L'. rewrite app_length in L'. simpl in L'.
  destruct (Nat.eq_dec e (length (w_caches w))) as [->|N].
  - rewrite slot_app_new in Q. inversion Q; subst. lia.
  - rewrite slot_app_lt in Q by lia. auto.
Qed.
Lemma h_alloc_store s : hoare (alloc_store s) (fun q => q <> r).
Proof.
  intros w (Hc & L & Hs). split; [|lia]. simpl. split; [exact Hc|]. simpl. split; [rewrite app_length; lia|].
  intros y. rewrite slot_app_lt by auto. auto.
Qed.
Lemma h_get_stats i : hoare (get_stats (V := V) i) top.
Proof. apply h_same. intros w. unfold get_stats. destruct (slot _ _); auto. Qed.
Lemma h_put_stats i x : hoare (put_stats (V := V) i x) top.
Proof. apply h_same. intros w. simpl. auto. Qed.
Lemma h_alloc_stats x : hoare (alloc_stats (V := V) x) top.
Proof. apply h_same. intros w. simpl. auto. Qed.
Lemma h_now : hoare (now E) top.
Proof. apply h_same. intros w. simpl. auto. Qed.
Lemma h_fallible : hoare (fallible E) top.
Proof. apply h_same. intros w. unfold fallible. destruct (fails E _); simpl; auto. Qed.
Lemma h_cb ev : hoare (cb E ev) top.
Proof. apply h_same. intros w. rewrite CB. simpl. auto. Qed.
Lemma h_own d : hoare (own d) (fun p => seen_at (fst p) (snd p) /\ (fst p = r <-> d = c)).
Proof.
  unfold own. eapply h_bind; [apply h_get_cache|]. intros x Hx.
  eapply h_bind; [apply h_get_store|]. intros s Hs. apply h_ret. simpl. auto.
Qed.

(** Stores that stay within the invariant. *)
Lemma seen_ord q s l n : seen_at q s -> s_next s <= n -> seen_at q (MkStore (s_map s) l n (s_epoch s)).
Proof. intros H L Q. destruct (H Q). constructor; simpl; auto. lia. Qed.
Lemma seen_sub q s m : seen_at q s -> (forall p, In p m -> In p (s_map s)) ->
  seen_at q (MkStore m (s_ord s) (s_next s) (s_epoch s)).
Proof.
  intros H L Q. destruct (H Q). constructor; simpl; auto.
  intros i n I LE. exact (ev_new0 _ _ (L _ I) LE).
Qed.
Lemma seen_alter q s i f : seen_at q s -> (forall n, n_key (f n) = n_key n) ->
  (q = r -> s_next s0 <= i \/ forall n, n_ord (f n) = n_ord n) ->
  seen_at q (MkStore (alter i f (s_map s)) (s_ord s) (s_next s) (s_epoch s)).
Proof.
  intros H Hk Ho Q. specialize (Ho Q). destruct (H Q). constructor; simpl; auto.
  - intros j n I L. apply in_alter in I. destruct I as (n1 & I & [->|(-> & ->)]); auto.
    destruct Ho as [Ho|Ho]; [lia|]. rewrite Hk, Ho. auto.
  - intros j n I L. apply in_alter in I. destruct I as (n1 & I & [->|(-> & ->)]); eauto.
    rewrite Hk. eauto.
Qed.

Create HintDb hh.
Ltac hstep := first
  [ apply (h_ret (Q := fun _ => True)); exact I | apply h_ret; now auto | apply h_undef | apply h_throw | apply h_noexcept
  | solve [eauto with hh]
  | match goal with
    | |- NodeTrack.hoare _ (bind _ _) _ => eapply h_bind; [|intros ? ?]
    | |- NodeTrack.hoare _ (match ?x with _ => _ end) _ => destruct x eqn:?
    | |- NodeTrack.hoare _ (let '(_, _) := ?x in _) _ => destruct x
    | |- NodeTrack.hoare _ _ (fun _ => True) => eapply h_top; solve [eauto with hh]
    end ].
Ltac hh := repeat (cbn beta iota zeta; hstep).
Hint Resolve h_get_cache h_drop_cache h_drop_store h_get_store h_alloc_store h_get_stats
  h_put_stats h_alloc_stats h_now h_fallible h_cb h_own : hh.

Lemma h_deref p : hoare (deref p) top. Proof. unfold deref. hh. Qed.
Lemma h_deref_it i : hoare (deref_it i) top.
Proof. pose proof h_deref. unfold deref_it. hh. Qed.
Hint Resolve h_deref h_deref_it : hh.
Lemma h_update_node p f : (forall n, n_key (f n) = n_key n) ->
  (fst p = r -> s_next s0 <= snd p \/ forall n, n_ord (f n) = n_ord n) -> hoare (update_node p f) top.
Proof. intros. unfold update_node. hh. apply h_put_store, seen_alter; auto. Qed.
Lemma h_map_find d k : hoare (map_find E d k) top. Proof. unfold map_find. hh. Qed.
Lemma h_map_size d : hoare (map_size d) top. Proof. unfold map_size. hh. Qed.
Hint Resolve h_map_find h_map_size : hh.

Lemma seen_place q s n : seen_at q s -> (q = r -> J (n_key n)) ->
  seen_at q (MkStore (place E (s_map s) (s_next s, n)) (s_ord s) (Datatypes.S (s_next s))
                     (if rehash E s then Datatypes.S (s_epoch s) else s_epoch s)).
Proof.
  intros H HJ Q. specialize (HJ Q). destruct (H Q). constructor; simpl; auto.
  - intros i n1 I L. eapply Permutation_in in I; [|apply PL]. destruct I as [Q'|I]; auto.
    inversion Q'; subst. lia.
  - intros i n1 I L. eapply Permutation_in in I; [|apply PL]. destruct I as [Q'|I]; eauto.
    inversion Q'; subst. auto.
  - intros [N|N]; [exfalso; eapply N; eauto|]. rewrite N. auto.
Qed.
(** A fresh node has a new number. *)
Definition fresh_at (p : mptr) : Prop := fst p = r -> s_next s0 <= snd p.
Lemma h_map_emplace d n : (d = c -> J (n_key n)) ->
  hoare (map_emplace E d n) (fun p => snd p = true -> fresh_at (fst (fst p))).
Proof.
  intros HJ. unfold map_emplace. eapply h_bind; [apply h_own|]. intros (q, s) (H & HQ). simpl in H, HQ.
  destruct (node_with E (n_key n) (s_map s)) as [(i, n')|].
  - apply h_ret. discriminate.
  - eapply h_bind; [apply h_fallible|]. intros _ _.
    eapply h_bind; [apply h_put_store, seen_place; [auto|tauto]|]. intros _ _.
    apply h_ret. intros _ Q. simpl in *. apply (ev_next (H Q)).
Qed.
Lemma h_map_erase_it d i : hoare (map_erase_it d i) top.
Proof.
  unfold map_erase_it. eapply h_bind; [apply h_own|]. intros (q, s) (H & _). simpl in H. hh.
  apply h_put_store, seen_sub; auto. intros; eapply in_unassoc; eauto.
Qed.
Lemma h_map_erase_key d k : hoare (map_erase_key E d k) top.
Proof.
  unfold map_erase_key. eapply h_bind; [apply h_own|]. intros (q, s) (H & _). simpl in H. hh.
  apply h_put_store, seen_sub; auto. intros; eapply in_unassoc; eauto.
Qed.
Lemma h_splice d q : hoare (list_splice_back d q) top.
Proof.
  unfold list_splice_back. eapply h_bind; [apply h_own|]. intros (q', s) (H & _). simpl in H. hh.
  apply h_put_store, seen_ord; auto.
Qed.
Lemma h_list_erase d q : hoare (list_erase d q) top.
Proof.
  unfold list_erase. eapply h_bind; [apply h_own|]. intros (q', s) (H & _). simpl in H. hh.
  apply h_put_store, seen_ord; auto.
Qed.
Lemma h_emplace_back d p : hoare (list_emplace_back E d p) top.
Proof.
  unfold list_emplace_back. eapply h_bind; [apply h_fallible|]. intros _ _.
  eapply h_bind; [apply h_own|]. intros (q', s) (H & _). simpl in H.
  apply h_put_store, seen_ord; auto.
Qed.
Lemma h_set_front d p : hoare (list_set_front d p) top.
Proof.
  unfold list_set_front. eapply h_bind; [apply h_own|]. intros (q', s) (H & _). simpl in H. hh.
  apply h_put_store, seen_ord; auto.
Qed.
Lemma h_front_l d : hoare (list_front d) top. Proof. unfold list_front. hh. Qed.
Lemma h_begin d : hoare (list_begin d) top. Proof. unfold list_begin. hh. Qed.
Lemma h_back_l d : hoare (list_back d) top. Proof. unfold list_back. hh. Qed.
Lemma h_prev_end d : hoare (list_prev_end d) top. Proof. unfold list_prev_end. hh. Qed.
Lemma h_list_deref q : hoare (list_deref q) top. Proof. unfold list_deref. hh. Qed.
Hint Resolve h_map_erase_it h_map_erase_key h_splice h_list_erase h_emplace_back h_set_front h_front_l
  h_begin h_back_l h_prev_end h_list_deref : hh.

Ltac keep := eapply h_bind; [apply h_get_cache|intros ? ?]; hh; apply h_put_cache; auto.
Lemma h_set_last d p : hoare (set_last d p) top. Proof. unfold set_last. keep. Qed.
Hint Resolve h_set_last : hh.
Lemma h_invalidate d : hoare (invalidate_last d) top. Proof. unfold invalidate_last. hh. Qed.
Lemma h_last_is d k : hoare (last_is E d k) top. Proof. unfold last_is. hh. Qed.
Lemma h_last_ptr d : hoare (last_ptr d) top. Proof. unfold last_ptr. hh. Qed.
Hint Resolve h_invalidate h_last_is h_last_ptr : hh.
Lemma h_call_each_from sel all d mk ids : (forall i, hoare (mk i) top) ->
  hoare (call_each_from E sel all d mk ids) top.
Proof. intros H. induction ids as [|i t IH]; simpl; hh. Qed.
Lemma h_call_each sel d mk : (forall i, hoare (mk i) top) -> hoare (call_each E sel d mk) top.
Proof. intros H. unfold call_each. hh. apply h_call_each_from; auto. Qed.
Lemma h_register_hit d k p : hoare (register_hit E d k p) top.
Proof. unfold register_hit. hh; apply h_call_each; intros; hh. Qed.
Lemma h_register_miss d k : hoare (register_miss E d k) top.
Proof. unfold register_miss. hh; apply h_call_each; intros; hh. Qed.
Hint Resolve h_register_hit h_register_miss : hh.

Lemma h_size d : hoare (size d) top. Proof. unfold size. hh. Qed.
Lemma h_capacity d : hoare (capacity d) top. Proof. unfold capacity. hh. Qed.
Hint Resolve h_size h_capacity : hh.
Lemma h_mtf d q : hoare (move_to_front d q) top. Proof. unfold move_to_front. hh. Qed.
Hint Resolve h_mtf : hh.
Lemma h_mtfv d i v : hoare (move_to_front_value E d i v) top.
Proof. unfold move_to_front_value. hh. apply h_update_node; auto. Qed.
Lemma h_erase_it d i : hoare (erase_it E d i) top. Proof. unfold erase_it. hh. Qed.
Lemma h_erase_key_info d p : hoare (erase_key_info E d p) top. Proof. unfold erase_key_info. hh. Qed.
Hint Resolve h_mtfv h_erase_it h_erase_key_info : hh.
Lemma h_erase_lru d : hoare (erase_lru E d) top. Proof. unfold erase_lru. hh. Qed.
Lemma h_too_full d : hoare (is_too_full d) top. Proof. unfold is_too_full. hh. Qed.
Lemma h_evict d p : hoare (evict_lru_for E d p) top. Proof. unfold evict_lru_for. hh. Qed.
Hint Resolve h_erase_lru h_too_full h_evict : hh.
Lemma h_insert_new d p : hoare (insert_new_key E d p) top. Proof. unfold insert_new_key. hh. Qed.
Lemma h_clear d : hoare (clear d) top.
Proof.
  unfold clear. eapply h_bind; [apply h_own|]. intros (q', s) (H & _). simpl in H.
  eapply h_bind; [apply h_put_store, seen_sub; auto; now intros|]. intros _ _.
  eapply h_bind; [apply h_own|]. intros (q2, s2) (H2 & _). simpl in H2.
  eapply h_bind; [apply h_put_store, seen_ord; auto|]. intros _ _. hh.
Qed.
Hint Resolve h_insert_new h_clear : hh.
Lemma h_erase_while f d n : hoare (erase_lru_while E f d n) top.
Proof. induction f; simpl; hh. Qed.
Hint Resolve h_erase_while : hh.
Lemma h_shrink d n : hoare (shrink E d n) top. Proof. unfold shrink. hh. Qed.
Lemma h_set_capacity d n : hoare (set_capacity E d n) top.
Proof.
  unfold set_capacity. eapply h_bind; [apply h_size|]. intros ? _.
  eapply h_bind; [apply h_erase_while|]. intros ? _. keep.
Qed.
Lemma h_space_left d : hoare (space_left d) top. Proof. unfold space_left. hh. Qed.
Lemma h_is_empty d : hoare (is_empty d) top. Proof. unfold is_empty. hh. Qed.
Lemma h_is_full d : hoare (is_full d) top. Proof. unfold is_full. hh. Qed.
Lemma h_expired_info z n : hoare (has_expired_info E z n) top. Proof. unfold has_expired_info. hh. Qed.
Lemma h_timestamp d : hoare (timestamp E d) top. Proof. unfold timestamp. hh. Qed.
Lemma h_ubegin d : hoare (unordered_begin d) top. Proof. unfold unordered_begin. hh. Qed.
Lemma h_obegin d : hoare (ordered_begin d) top. Proof. unfold ordered_begin. hh. Qed.
Hint Resolve h_shrink h_set_capacity h_space_left h_is_empty h_is_full h_expired_info h_timestamp
  h_ubegin h_obegin : hh.
Lemma h_u_next i : hoare (u_next i) top. Proof. unfold u_next. hh. Qed.
Lemma h_o_next i : hoare (o_next i) top. Proof. unfold o_next. hh. Qed.
Lemma h_o_prev i : hoare (o_prev i) top. Proof. unfold o_prev. hh. Qed.
Lemma h_u_deref i : hoare (u_deref i) top. Proof. unfold u_deref. hh. Qed.
Lemma h_o_deref i : hoare (o_deref E i) top. Proof. unfold o_deref. hh. Qed.
Hint Resolve h_u_next h_o_next h_o_prev h_u_deref h_o_deref : hh.
Lemma h_has_expired d z k : hoare (has_expired_key E d z k) top. Proof. unfold has_expired_key. hh. Qed.
Lemma h_has_expired_o d z i : hoare (has_expired_o E d z i) top. Proof. unfold has_expired_o. hh. Qed.
Lemma h_has_expired_u d z i : hoare (has_expired_u E d z i) top. Proof. unfold has_expired_u. hh. Qed.
Hint Resolve h_has_expired h_has_expired_o h_has_expired_u : hh.
Lemma h_is_valid_o d i : hoare (is_valid_o E d i) top. Proof. unfold is_valid_o. hh. Qed.
Lemma h_throw_u d i : hoare (throw_if_invalid_u E d i) top. Proof. unfold throw_if_invalid_u. hh. Qed.
Lemma h_throw_o d i : hoare (throw_if_invalid_o E d i) top. Proof. unfold throw_if_invalid_o. hh. Qed.
Hint Resolve h_is_valid_o h_throw_u h_throw_o : hh.
Lemma h_u_entry i : hoare (u_entry E i) top. Proof. unfold u_entry. hh. Qed.
Lemma h_o_entry i : hoare (o_entry E i) top. Proof. unfold o_entry. hh. Qed.
Lemma h_o_key i : hoare (o_key E i) top. Proof. unfold o_key. hh. Qed.
Hint Resolve h_u_entry h_o_entry h_o_key : hh.
Lemma h_find_hit d k i : hoare (find_hit E d k i) top. Proof. unfold find_hit. hh. Qed.
Hint Resolve h_find_hit : hh.
Lemma h_find d k : hoare (find E d k) top. Proof. unfold find. hh. Qed.
Lemma h_last_ok d : hoare (last_accessed_is_ok E d) top. Proof. unfold last_accessed_is_ok. hh. Qed.
Lemma h_value_last d : hoare (value_for_last_accessed E d) top. Proof. unfold value_for_last_accessed. hh. Qed.
Hint Resolve h_find h_last_ok h_value_last : hh.
Lemma h_contains d k : hoare (contains E d k) top. Proof. unfold contains. hh. Qed.
Lemma h_lookup d k : hoare (lookup E d k) top. Proof. unfold lookup. hh. Qed.
Hint Resolve h_contains h_lookup : hh.

Lemma h_set_order p q : fresh_at p -> hoare (set_node_order p q) top.
Proof. intros H. unfold set_node_order. apply h_update_node; auto. Qed.

Lemma map_find_none d k w w' : map_find E d k w = Val None w' ->
  w' = w /\ forall x s, slot (w_caches w) d = Some x -> slot (w_stores w) (c_rid x) = Some s ->
    node_with E k (s_map s) = None.
Proof.
  unfold map_find, own, get_cache, get_store, bind, ret. intros H.
  destruct (slot (w_caches w) d) as [x|] eqn:X; [|discriminate].
  destruct (slot (w_stores w) (c_rid x)) as [s|] eqn:Y; [|discriminate].
  destruct (node_with E k (s_map s)) as [(i, n)|] eqn:N; [discriminate|]. inversion H; subst.
  split; auto. intros x' s' Hx. inversion Hx; subst. rewrite Y. intros Q; inversion Q; subst. auto.
Qed.
Lemma emplace_fresh d n w p w' :
  (forall x s, slot (w_caches w) d = Some x -> slot (w_stores w) (c_rid x) = Some s ->
    node_with E (n_key n) (s_map s) = None) ->
  map_emplace E d n w = Val p w' -> snd p = true.
Proof.
  unfold map_emplace, own, get_cache, get_store, bind, ret. intros N H.
  destruct (slot (w_caches w) d) as [x|] eqn:X; [|discriminate].
  destruct (slot (w_stores w) (c_rid x)) as [s|] eqn:Y; [|discriminate].
  rewrite (N _ _ eq_refl Y) in H. unfold fallible in H. destruct (fails E _); [discriminate|].
  inversion H; auto.
Qed.
Lemma timestamp_same d w : match timestamp E d w with
  | Val _ w' | Exc _ w' => w_caches w' = w_caches w /\ w_stores w' = w_stores w | _ => True end.
Proof.
  unfold timestamp, bind, get_cache, ret, now. destruct (slot (w_caches w) d); auto.
  destruct (c_ttl _); simpl; auto.
Qed.

(** Adding a node after the search for its key failed. *)
Lemma h_add_new A d k v (tl : miter * bool -> M A) : (d = c -> J k) ->
  (forall i, fresh_at (fst i) -> hoare (tl (i, true)) top) ->
  forall w w', inv w -> map_find E d k w = Val None w' ->
  match (t <- timestamp E d;; p <- map_emplace E d (MkNode k v None t);; tl p) w' with
  | Val _ w'' | Exc _ w'' => inv w''
  | _ => True
  end.
Proof.
  intros HJ HT w w' I F. destruct (map_find_none F) as (-> & N).
  unfold bind. pose proof (timestamp_same d w) as TS. pose proof (h_timestamp d I) as HS.
  destruct (timestamp E d w) as [t w1|e w1|u|e]; auto.
  destruct TS as (T1 & T2). destruct HS as (I1 & _).
  set (n := MkNode k v None t).
  pose proof (h_map_emplace (d := d) (n := n) HJ I1) as HE.
  destruct (map_emplace E d n w1) as [[i b] w2|e w2|u|e] eqn:ME; auto.
  destruct HE as (I2 & HF).
  assert (b = true).
  { refine (emplace_fresh (n := n) (p := (i, b)) _ ME). rewrite T1, T2. simpl. auto. }
  subst b. exact (h_apply (HT i (HF eq_refl)) I2).
Qed.

Lemma h_insert d k v : (d = c -> J k) -> hoare (insert E d k v) top.
Proof.
  intros HJ. unfold insert. eapply h_bind; [apply h_capacity|]. intros cap _.
  destruct (Nat.eqb cap 0); [apply h_ret; auto|].
  intros w Hw. unfold bind at 1. pose proof (h_map_find d k Hw) as HF.
  destruct (map_find E d k w) as [[i|] w'|e w'|u|e] eqn:F; auto.
  - destruct HF as (Hw' & _). revert w' Hw' F. intros w' Hw' _. revert w' Hw'.
    match goal with |- forall w', inv w' -> match ?m w' with _ => _ end => change (hoare m top) end. hh.
  - match goal with |- match ?m w' with _ => _ end => assert (X : match m w' with
      | Val _ w'' | Exc _ w'' => inv w'' | _ => True end) end.
    { refine (h_add_new (tl := fun p => let '(i, fresh) := p in _) v HJ _ Hw F).
      intros i FR. cbn beta iota zeta. hh. apply h_set_order; auto. }
    match type of X with match ?r with _ => _ end => destruct r end; auto.
Qed.
Lemma h_emplace d k v : (d = c -> J k) -> hoare (emplace E d k v) top.
Proof.
  intros HJ. unfold emplace. eapply h_bind; [apply h_capacity|]. intros cap _.
  destruct (Nat.eqb cap 0); [apply h_ret; auto|].
  eapply h_bind; [apply h_fallible|]. intros _ _.
  intros w Hw. unfold bind at 1. pose proof (h_map_find d k Hw) as HF.
  destruct (map_find E d k w) as [[i|] w'|e w'|u|e] eqn:F; auto.
  - destruct HF as (Hw' & _). revert w' Hw' F. intros w' Hw' _. revert w' Hw'.
    match goal with |- forall w', inv w' -> match ?m w' with _ => _ end => change (hoare m top) end. hh.
  - match goal with |- match ?m w' with _ => _ end => assert (X : match m w' with
      | Val _ w'' | Exc _ w'' => inv w'' | _ => True end) end.
    { refine (h_add_new (tl := fun p => let '(i, fresh) := p in _) v HJ _ Hw F).
      intros i FR. cbn beta iota zeta. hh. apply h_set_order; auto. }
    match type of X with match ?r with _ => _ end => destruct r end; auto.
Qed.
Lemma h_insert_range d l : (d = c -> forall p, In p l -> J (fst p)) -> hoare (insert_range E d l) top.
Proof.
  intros H. unfold insert_range. apply h_foldM. intros b x I.
  eapply h_bind; [apply h_insert; auto|]. intros ? _. apply h_ret; auto.
Qed.
Lemma h_insert_move d l : (d = c -> forall p, In p l -> J (fst p)) -> hoare (insert_move E d l) top.
Proof.
  intros H. unfold insert_move. apply h_foldM. intros b x I.
  eapply h_bind; [apply h_emplace; auto|]. intros ? _. apply h_ret; auto.
Qed.
Lemma h_erase_key d k : hoare (erase_key E d k) top. Proof. unfold erase_key. hh. Qed.
Lemma h_erase_u d i : hoare (erase_u E d i) top. Proof. unfold erase_u. hh. Qed.
Lemma h_erase_o d i : hoare (erase_o E d i) top. Proof. unfold erase_o. hh. Qed.
Lemma h_new_cache cap ttl : hoare (new_cache (K := K) (V := V) cap ttl) (fun d => d <> c).
Proof.
  unfold new_cache. eapply h_bind; [apply h_alloc_store|]. intros q N. apply h_alloc_cache; auto.
Qed.
Hint Resolve h_insert h_emplace h_insert_range h_insert_move h_erase_key h_erase_u h_erase_o h_new_cache : hh.
Lemma h_destroy d : hoare (destroy d) top. Proof. unfold destroy. hh. Qed.
Lemma h_with_new cap ttl body : (forall d, d <> c -> hoare (body d) top) -> hoare (with_new cap ttl body) top.
Proof.
  intros H. unfold with_new. eapply h_bind; [apply h_new_cache|]. intros d N w Hw.
  specialize (H d N w Hw). destruct (body d w) as [a w'|e w'|u|e]; auto.
  assert (X : NodeTrack.hoare (A := nat) inv (destroy d;;; throw e) top).
  { eapply h_bind; [apply h_destroy|]. intros; apply h_throw. }
  apply X; auto.
Qed.
Lemma h_new_from cap ttl l : hoare (new_from E cap ttl l) top.
Proof. apply h_with_new. intros d N. apply h_insert_range. easy. Qed.
Lemma h_new_move cap ttl l : hoare (new_from_move E cap ttl l) top.
Proof. apply h_with_new. intros d N. apply h_insert_move. easy. Qed.
Lemma h_clear_inc d n : hoare (clear_and_increase_capacity d n) top.
Proof.
  unfold clear_and_increase_capacity. eapply h_bind; [apply h_clear|]. intros _ _.
  eapply h_bind; [apply h_get_cache|]. intros x Hx. hh. apply h_put_cache; auto.
Qed.
Hint Resolve h_destroy h_new_from h_new_move h_clear_inc : hh.
Lemma h_assign_range d l : (d = c -> forall p, In p l -> J (fst p)) -> hoare (assign_range E d l) top.
Proof. intros. unfold assign_range. hh. Qed.
Lemma h_assign_move d l : (d = c -> forall p, In p l -> J (fst p)) -> hoare (assign_move E d l) top.
Proof. intros. unfold assign_move. hh. Qed.
Lemma h_order_eq : forall x y, hoare (order_eq E x y) top.
Proof. induction x as [|(i, p) x IH]; intros [|(j, q) y]; simpl; hh. Qed.
Hint Resolve h_assign_range h_assign_move h_order_eq : hh.
Lemma h_equals d e : hoare (equals E d e) top. Proof. unfold equals. hh. Qed.
Lemma h_front d : hoare (front d) top. Proof. unfold front. hh. Qed.
Lemma h_back d : hoare (back d) top. Proof. unfold back. hh. Qed.
Lemma h_all_expired d z : hoare (all_expired E d z) top. Proof. unfold all_expired. hh. Qed.
Lemma h_clear_loop f d z : forall n, hoare (clear_expired_loop E f d z n) top.
Proof. induction f; intros n; simpl; hh. Qed.
Hint Resolve h_equals h_front h_back h_all_expired h_clear_loop : hh.
Lemma h_clear_expired d z : hoare (clear_expired E d z) top. Proof. unfold clear_expired. hh. Qed.
Lemma h_set_stats d i : hoare (set_stats d i) top. Proof. unfold set_stats. keep. Qed.
Lemma h_set_cbs d f : hoare (set_cbs d f) top. Proof. unfold set_cbs. keep. Qed.
Lemma h_stats d : hoare (stats d) top. Proof. unfold stats. hh. Qed.
Lemma h_read_entry p : hoare (read_entry p) top. Proof. unfold read_entry. hh. Qed.
Hint Resolve h_clear_expired h_set_stats h_set_cbs h_stats h_read_entry : hh.
Lemma h_o_collect f d : forall i, hoare (o_collect E f d i) top.
Proof. induction f; intros i; simpl; hh. Qed.
Lemma h_o_back f d : forall i, hoare (o_collect_back E f d i) top.
Proof. induction f; intros i; simpl; hh. Qed.
Lemma h_u_collect f d : forall i, hoare (u_collect f d i) top.
Proof. induction f; intros i; simpl; hh. Qed.
Lemma h_o_advance f d : forall i, hoare (o_advance f d i) top.
Proof. induction f; intros i; simpl; hh. Qed.
Lemma h_u_advance f d : forall i, hoare (u_advance f d i) top.
Proof. induction f; intros i; simpl; hh. Qed.
Hint Resolve h_o_collect h_o_back h_u_collect h_o_advance h_u_advance : hh.
Lemma h_ordered_nth d n : hoare (ordered_nth d n) top. Proof. unfold ordered_nth. hh. Qed.
Lemma h_unordered_nth d n : hoare (unordered_nth d n) top. Proof. unfold unordered_nth. hh. Qed.
Hint Resolve h_ordered_nth h_unordered_nth : hh.
Lemma h_denotes d i : hoare (denotes d i) top. Proof. unfold denotes. hh. Qed.
Hint Resolve h_denotes : hh.
Lemma h_with_ttl d f : (forall z, hoare (f z) top) -> hoare (with_ttl d f) top.
Proof. intros. unfold with_ttl. hh. Qed.
Lemma h_stats_or d f : hoare (stats_update_or d f) top. Proof. unfold stats_update_or. hh. Qed.
Hint Resolve h_stats_or : hh.

(** Calls that leave every cache in its region. *)
Definition homely o : bool :=
  match o with
  | Copy _ | CopyAssign _ _ | Move _ | MoveAssign _ _ | Swap _ _ => false
  | _ => true
  end.
(** The keys a call may insert into [c]. *)
Definition brings o : list K :=
  match o with
  | Insert d k _ | Emplace d k _ => if Nat.eqb c d then [k] else []
  | AssignRange d l | AssignMove d l | InsertRange d l | InsertMove d l =>
      if Nat.eqb c d then map fst l else []
  | _ => []
  end.

Lemma h_body o : homely o = true -> (forall k, In k (brings o) -> J k) -> hoare (body E o) top.
Proof.
  intros HO HJ.
  destruct o; try discriminate; simpl in *;
    try match goal with l : list (K * V) |- _ =>
      assert (HJl : c0 = c -> forall p, In p l -> J (fst p))
        by (intros -> p I; apply HJ; rewrite Nat.eqb_refl; apply in_map; auto) end;
    try (assert (HJk : c0 = c -> J k) by (intros ->; apply HJ; rewrite Nat.eqb_refl; simpl; auto));
    unfold new_from_iters, new_from_rvalue, new_from_list, subscript, traverse_ordered, traverse_backward,
      traverse_unordered, monitor_new, monitor_shared, stop_monitoring, is_monitoring, add_hit_callback,
      add_miss_callback, add_access_callback, clear_hit_callbacks, clear_miss_callbacks,
      clear_access_callbacks, clear_all_callbacks;
    try (apply h_with_ttl; intros z);
    hh.
  apply h_update_node; auto.
Qed.

Lemma h_exec o : homely o = true -> (forall k, In k (brings o) -> J k) -> hoare (exec E o) top.
Proof.
  intros HO HJ w Hw. unfold exec. destruct (well_formed w o); simpl; auto. apply (h_body HO HJ Hw).
Qed.

(** Insertion of a key that is there adds nothing. *)
Lemma fallible_ev w : match fallible E w with
  | Val _ w' | Exc _ w' => w_caches w' = w_caches w /\ w_stores w' = w_stores w | _ => True end.
Proof. unfold fallible. destruct (fails E _); simpl; auto. Qed.
Lemma map_find_same d k w w' i : w_caches w' = w_caches w -> w_stores w' = w_stores w ->
  map_find E d k w = Val i w -> map_find E d k w' = Val i w'.
Proof.
  intros A B. unfold map_find, own, bind, get_cache, get_store, ret. rewrite A.
  destruct (slot (w_caches w) d) as [x|]; [|discriminate]. rewrite B.
  destruct (slot (w_stores w) (c_rid x)) as [s|]; [|discriminate].
  destruct (node_with E k (s_map s)) as [(?, ?)|]; intros H; inversion H; auto.
Qed.
Lemma insert_there d k v i w : inv w -> map_find E d k w = Val (Some i) w ->
  match insert E d k v w with Val _ w' | Exc _ w' => inv w' | _ => True end.
Proof.
  intros Hw F. unfold insert, bind at 1, capacity, bind at 1, get_cache, ret at 1.
  destruct (slot (w_caches w) d) as [x|] eqn:X; auto. destruct (Nat.eqb (c_cap x) 0); auto.
  unfold bind at 1. rewrite F.
  match goal with |- match ?m w with _ => _ end => assert (H : hoare m top) by hh end.
  exact (h_apply H Hw).
Qed.
Lemma emplace_there d k v i w : inv w -> map_find E d k w = Val (Some i) w ->
  match emplace E d k v w with Val _ w' | Exc _ w' => inv w' | _ => True end.
Proof.
  intros Hw F. unfold emplace, bind at 1, capacity, bind at 1, get_cache, ret at 1.
  destruct (slot (w_caches w) d) as [x|] eqn:X; auto. destruct (Nat.eqb (c_cap x) 0); auto.
  unfold bind at 1. pose proof (fallible_ev w) as FE. destruct (fallible E w) as [u w1|e w1|u|e]; auto.
  2:{ destruct FE. eapply inv_ctl; eauto. }
  destruct FE as (F1 & F2). pose proof (map_find_same F1 F2 F) as F'. pose proof (inv_ctl F1 F2 Hw) as Hw1.
  unfold bind at 1. rewrite F'.
  match goal with |- match ?m w1 with _ => _ end => assert (H : hoare m top) by hh end.
  exact (h_apply H Hw1).
Qed.
Lemma exec_there o d k v i w : (o = Insert d k v \/ o = Emplace d k v) ->
  inv w -> map_find E d k w = Val (Some i) w ->
  match exec E o w with Val _ w' | Exc _ w' => inv w' | _ => True end.
Proof.
  intros Ho Hw F. unfold exec. destruct (well_formed w o); [|exact Hw].
  destruct Ho as [-> | ->]; cbn [body]; unfold bind at 1.
  - pose proof (insert_there v Hw F) as X. destruct (insert E d k v w) as [q w'|e w'|u|e]; auto.
    match goal with |- match ?m w' with _ => _ end => assert (H : hoare m top) by hh end.
    exact (h_apply H X).
  - pose proof (emplace_there v Hw F) as X. destruct (emplace E d k v w) as [q w'|e w'|u|e]; auto.
    match goal with |- match ?m w' with _ => _ end => assert (H : hoare m top) by hh end.
    exact (h_apply H X).
Qed.

End Inv.
End Track.
