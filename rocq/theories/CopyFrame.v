(** The frame property of Model.v: what a call does that never touches cache [d]
    and region [rd] does not depend on them and leaves them alone. *)
From Coq Require Import List Arith ZArith Bool Permutation Lia.
Import ListNotations.
From Verif Require Import Monad Types Model Api Spec Ref Lists SimBase SimRel.
Set Implicit Arguments.
Unset Strict Implicit.
Local Open Scope cpp_scope.

Section Graft.
Context {K V : Type}.
Variable E : env K V.
Hypothesis CB : forall ev w, cb E ev w = Val tt (with_log (fun l => l ++ [ev]) w).

Notation world := (world K V).
Notation store := (store K V).
Notation mnode := (mnode K V).
Notation M := (M world).
Notation top := (fun _ => True).
Implicit Types (w : world) (s : store) (o : op K V).

Variables (d rd : nat) (xd : cache) (sd : store).

(** The world with a cache [xd] put at number [d] and a region [sd] at [rd]. *)
Definition graft w : world :=
  with_stores (fun l => upd l rd (Some sd)) (with_caches (fun l => upd l d (Some xd)) w).
(** These places are free, and no cache lives in region [rd]. *)
Record free w : Prop := {
  fr_d : slot (w_caches w) d = None;
  fr_rd : slot (w_stores w) rd = None;
  fr_dl : d < length (w_caches w);
  fr_rdl : rd < length (w_stores w);
  fr_reg : forall c x, slot (w_caches w) c = Some x -> c_rid x <> rd
}.

(** Undefined behaviour by use of something that is no more. *)
Definition gone (u : ub) : Prop := u = DeadObject \/ u = DanglingNode.
Definition framed {A} (r r' : res world A) (Q : A -> Prop) : Prop :=
  match r with
  | Val a w1 => free w1 /\ Q a /\ r' = Val a (graft w1)
  | Exc e w1 => free w1 /\ r' = Exc e (graft w1)
  | Term e => r' = Term e
  | Undef u => gone u \/ r' = Undef u
  end.
Definition hoare {A} (m : M A) (Q : A -> Prop) : Prop :=
  forall w, free w -> framed (m w) (m (graft w)) Q.

Lemma h_ret A (a : A) (Q : A -> Prop) : Q a -> hoare (ret a) Q.
Proof. intros H w Hw. simpl. auto. Qed.
Lemma h_bind A B (m : M A) (k : A -> M B) Q Q' :
  hoare m Q -> (forall a, Q a -> hoare (k a) Q') -> hoare (bind m k) Q'.
Proof.
  intros H C w Hw. unfold bind. specialize (H w Hw). unfold framed in H. destruct (m w).
  - destruct H as (H1 & H2 & ->). apply C; auto.
  - destruct H as (H1 & ->). simpl. auto.
  - simpl. destruct H as [H| ->]; auto.
  - rewrite H. simpl. auto.
Qed.
Lemma h_throw A e Q : hoare (A := A) (throw e) Q.
Proof. intros w Hw. simpl. auto. Qed.
Lemma h_undef A u Q : hoare (A := A) (undef u) Q.
Proof. intros w Hw. simpl. auto. Qed.
Lemma h_noexcept A (m : M A) Q : hoare m Q -> hoare (noexcept m) Q.
Proof.
  intros H w Hw. specialize (H w Hw). unfold noexcept, framed in *. destruct (m w); auto.
  - destruct H as (H1 & H2 & ->). auto.
  - destruct H as (_ & ->). auto.
  - destruct H as [H| ->]; auto.
  - rewrite H. auto.
Qed.
Lemma h_weak A (m : M A) (Q Q' : A -> Prop) : hoare m Q -> (forall a, Q a -> Q' a) -> hoare m Q'.
Proof. intros H C w Hw. specialize (H w Hw). unfold framed in *. destruct (m w); auto. intuition. Qed.
Lemma h_top A (m : M A) Q : hoare m Q -> hoare m top.
Proof. intros H. eapply h_weak; eauto. Qed.
Lemma h_foldM A B (f : B -> A -> M B) (l : list A) : (forall b x, In x l -> hoare (f b x) top) ->
  forall b, hoare (foldM f l b) top.
Proof.
  induction l as [|x t IH]; simpl; intros H b.
  - apply h_ret; auto.
  - apply h_bind with top; [auto|]. intros b' _. apply IH. auto.
Qed.

Lemma graft_caches w : w_caches (graft w) = upd (w_caches w) d (Some xd). Proof. auto. Qed.
Lemma graft_stores w : w_stores (graft w) = upd (w_stores w) rd (Some sd). Proof. auto. Qed.
Lemma upd_swap {A} (l : list A) i j a b : i <> j -> upd (upd l i a) j b = upd (upd l j b) i a.
Proof.
  revert i j. induction l as [|y t IH]; intros [|i] [|j] N; simpl; auto; try congruence. f_equal. auto.
Qed.
Lemma upd_snoc {A} (l : list A) i a b : i < length l -> upd (l ++ [b]) i a = upd l i a ++ [b].
Proof.
  revert i. induction l as [|y t IH]; intros [|i] L; simpl in *; auto; try lia. f_equal. apply IH. lia.
Qed.

Lemma free_ctl w w' : w_caches w' = w_caches w -> w_stores w' = w_stores w -> free w -> free w'.
Proof. intros A B []. constructor; rewrite ?A, ?B; auto. Qed.

Lemma h_get_cache c : hoare (get_cache c) (fun x => c <> d /\ c_rid x <> rd).
Proof.
  intros w Hw. unfold get_cache. rewrite graft_caches. destruct (slot (w_caches w) c) as [x|] eqn:X; simpl; [|left; left; auto].
  assert (c <> d) by (intros ->; rewrite (fr_d Hw) in X; discriminate).
  rewrite slot_upd_other by auto. rewrite X. split; auto. split; auto. split; auto. apply (fr_reg Hw X).
Qed.
Lemma h_put_cache c x : c <> d -> c_rid x <> rd -> hoare (put_cache c x) top.
Proof.
  intros N R w Hw. simpl. split; [|split; auto; f_equal; unfold graft, with_caches, with_stores; simpl; rewrite upd_swap; auto].
  destruct Hw. constructor; simpl; auto.
  - rewrite slot_upd_other; auto.
  - rewrite upd_length; auto.
  - intros e y Q. destruct (Nat.eq_dec c e) as [->|N'].
    + pose proof (slot_lt _ _ Q) as L'. rewrite upd_length in L'. rewrite slot_upd_lt in Q by auto. inversion Q; subst; auto.
    + rewrite slot_upd_other in Q by auto. eauto.
Qed.
Lemma h_drop_cache c : c <> d -> hoare (drop_cache c) top.
Proof.
  intros N w Hw. simpl. split; [|split; auto; f_equal; unfold graft, with_caches, with_stores; simpl; rewrite upd_swap; auto].
  destruct Hw. constructor; simpl; auto.
  - rewrite slot_upd_other; auto.
  - rewrite upd_length; auto.
  - intros e y Q. destruct (Nat.eq_dec c e) as [->|N'].
    + pose proof (slot_lt _ _ Q) as L'. rewrite upd_length in L'. rewrite slot_upd_lt in Q by auto. discriminate.
    + rewrite slot_upd_other in Q by auto. eauto.
Qed.
Lemma h_drop_store q : q <> rd -> hoare (drop_store q) top.
Proof.
  intros N w Hw. simpl. split; [|split; auto; f_equal; unfold graft, with_caches, with_stores; simpl; rewrite upd_swap; auto].
  destruct Hw. constructor; simpl; auto.
  - rewrite slot_upd_other; auto.
  - rewrite upd_length; auto.
Qed.
Lemma h_get_store q : hoare (get_store q) (fun _ => q <> rd).
Proof.
  intros w Hw. unfold get_store. rewrite graft_stores. destruct (slot (w_stores w) q) as [x|] eqn:X; simpl; [|left; right; auto].
  assert (q <> rd) by (intros ->; rewrite (fr_rd Hw) in X; discriminate).
  rewrite slot_upd_other by auto. rewrite X. auto.
Qed.
Lemma h_put_store q s : q <> rd -> hoare (put_store q s) top.
Proof.
  intros N w Hw. simpl. split; [|split; auto; f_equal; unfold graft, with_caches, with_stores; simpl; rewrite upd_swap; auto].
  destruct Hw. constructor; simpl; auto.
  - rewrite slot_upd_other; auto.
  - rewrite upd_length; auto.
Qed.
Lemma h_alloc_cache x : c_rid x <> rd -> hoare (alloc_cache x) (fun c => c <> d).
Proof.
  intros NR w Hw. unfold alloc_cache, framed. rewrite graft_caches, upd_length. pose proof (fr_dl Hw). pose proof (fr_rdl Hw).
  split; [|split; [lia|f_equal; unfold graft, with_caches, with_stores; simpl; rewrite upd_snoc; auto]].
  destruct Hw. constructor; simpl; auto.
  - rewrite slot_app_lt; auto.
  - rewrite app_length; lia.
  - intros e y Q. pose proof (slot_lt _ _ Q) as L'. rewrite app_length in L'. simpl in L'.
    destruct (Nat.eq_dec e (length (w_caches w))) as [->|N].
    + rewrite slot_app_new in Q. inversion Q; subst. auto.
    + rewrite slot_app_lt in Q by lia. eauto.
Qed.
Lemma h_alloc_store s : hoare (alloc_store s) (fun q => q <> rd).
Proof.
  intros w Hw. unfold alloc_store, framed. rewrite graft_stores, upd_length. pose proof (fr_dl Hw). pose proof (fr_rdl Hw).
  split; [|split; [lia|f_equal; unfold graft, with_caches, with_stores; simpl; rewrite upd_snoc; auto]].
  destruct Hw. constructor; simpl; auto.
  - rewrite slot_app_lt; auto.
  - rewrite app_length; lia.
Qed.
Ltac ctl := split; [eapply free_ctl; [| |eassumption]; reflexivity|auto].
Lemma h_get_stats i : hoare (get_stats (V := V) i) top.
Proof. intros w Hw. unfold get_stats. simpl. destruct (slot _ _); simpl; auto. Qed.
Lemma h_put_stats i x : hoare (put_stats (V := V) i x) top.
Proof. intros w Hw. simpl. ctl. Qed.
Lemma h_alloc_stats x : hoare (alloc_stats (V := V) x) top.
Proof. intros w Hw. simpl. ctl. Qed.
Lemma h_now : hoare (now E) top.
Proof. intros w Hw. simpl. ctl. Qed.
Lemma h_fallible : hoare (fallible E) top.
Proof. intros w Hw. unfold fallible. simpl. destruct (fails E _); simpl; ctl. Qed.
Lemma h_cb ev : hoare (cb E ev) top.
Proof. intros w Hw. rewrite !CB. simpl. ctl. Qed.
Lemma h_own c : hoare (own c) (fun p => fst p <> rd /\ c <> d).
Proof.
  unfold own. eapply h_bind; [apply h_get_cache|]. intros x Hx.
  eapply h_bind; [apply h_get_store|]. intros s Hs. apply h_ret. simpl in *. tauto.
Qed.

Create HintDb hf.
Ltac hstep := first
  [ apply (h_ret (Q := fun _ => True)); exact I | apply h_ret; now auto | apply h_undef | apply h_throw | apply h_noexcept
  | solve [eauto with hf]
  | match goal with
    | H : _ /\ _ |- _ => destruct H
    | |- hoare (bind _ _) _ => eapply h_bind; [|intros ? ?]
    | |- hoare (match ?x with _ => _ end) _ => destruct x eqn:?
    | |- hoare (let '(_, _) := ?x in _) _ => destruct x
    | |- hoare _ (fun _ => True) => eapply h_top; solve [eauto with hf]
    end ].
Ltac hh := repeat (cbn beta iota zeta delta [fst snd c_rid] in *; hstep).
Hint Resolve h_get_cache h_drop_cache h_put_cache h_put_store h_drop_store h_get_store h_alloc_store h_alloc_cache h_get_stats
  h_put_stats h_alloc_stats h_now h_fallible h_cb h_own : hf.

Lemma h_deref p : hoare (deref p) top. Proof. unfold deref. hh. Qed.
Hint Resolve h_deref : hf.
Lemma h_deref_it i : hoare (deref_it i) top. Proof. unfold deref_it. hh. Qed.
Hint Resolve h_deref_it : hf.
Lemma h_update_node p f : hoare (update_node p f) top. Proof. unfold update_node. hh. Qed.
Lemma h_map_find c k : hoare (map_find E c k) top. Proof. unfold map_find. hh. Qed.
Lemma h_map_size c : hoare (map_size c) top. Proof. unfold map_size. hh. Qed.
Lemma h_map_emplace c n : hoare (map_emplace E c n) top. Proof. unfold map_emplace. hh. Qed.
Lemma h_map_erase_it c i : hoare (map_erase_it c i) top. Proof. unfold map_erase_it. hh. Qed.
Lemma h_map_erase_key c k : hoare (map_erase_key E c k) top. Proof. unfold map_erase_key. hh. Qed.
Lemma h_splice c q : hoare (list_splice_back c q) top. Proof. unfold list_splice_back. hh. Qed.
Lemma h_list_erase c q : hoare (list_erase c q) top. Proof. unfold list_erase. hh. Qed.
Lemma h_emplace_back c p : hoare (list_emplace_back E c p) top. Proof. unfold list_emplace_back. hh. Qed.
Lemma h_set_front c p : hoare (list_set_front c p) top. Proof. unfold list_set_front. hh. Qed.
Hint Resolve h_update_node h_map_find h_map_size h_map_emplace : hf.
Lemma h_front_l c : hoare (list_front c) top. Proof. unfold list_front. hh. Qed.
Lemma h_begin c : hoare (list_begin c) top. Proof. unfold list_begin. hh. Qed.
Lemma h_back_l c : hoare (list_back c) top. Proof. unfold list_back. hh. Qed.
Lemma h_prev_end c : hoare (list_prev_end c) top. Proof. unfold list_prev_end. hh. Qed.
Lemma h_list_deref q : hoare (list_deref q) top. Proof. unfold list_deref. hh. Qed.
Hint Resolve h_map_erase_it h_map_erase_key h_splice h_list_erase h_emplace_back h_set_front h_front_l
  h_begin h_back_l h_prev_end h_list_deref : hf.

Ltac keep := hh.
Lemma h_set_last c p : hoare (set_last c p) top. Proof. unfold set_last. keep. Qed.
Hint Resolve h_set_last : hf.
Lemma h_invalidate c : hoare (invalidate_last c) top. Proof. unfold invalidate_last. hh. Qed.
Lemma h_last_is c k : hoare (last_is E c k) top. Proof. unfold last_is. hh. Qed.
Lemma h_last_ptr c : hoare (last_ptr c) top. Proof. unfold last_ptr. hh. Qed.
Hint Resolve h_invalidate h_last_is h_last_ptr : hf.
Lemma h_call_each_from sel all c mk ids : (forall i, hoare (mk i) top) ->
  hoare (call_each_from E sel all c mk ids) top.
Proof. intros H. induction ids as [|i t IH]; simpl; hh. Qed.
Lemma h_call_each sel c mk : (forall i, hoare (mk i) top) -> hoare (call_each E sel c mk) top.
Proof. intros H. unfold call_each. hh. apply h_call_each_from; auto. Qed.
Lemma h_register_hit c k p : hoare (register_hit E c k p) top.
Proof. unfold register_hit. hh; apply h_call_each; intros; hh. Qed.
Lemma h_register_miss c k : hoare (register_miss E c k) top.
Proof. unfold register_miss. hh; apply h_call_each; intros; hh. Qed.
Hint Resolve h_register_hit h_register_miss : hf.

Lemma h_size c : hoare (size c) top. Proof. unfold size. hh. Qed.
Lemma h_capacity c : hoare (capacity c) top. Proof. unfold capacity. hh. Qed.
Hint Resolve h_size h_capacity : hf.
Lemma h_mtf c q : hoare (move_to_front c q) top. Proof. unfold move_to_front. hh. Qed.
Hint Resolve h_mtf : hf.
Lemma h_mtfv c i v : hoare (move_to_front_value E c i v) top.
Proof. unfold move_to_front_value. hh. Qed.
Lemma h_erase_it c i : hoare (erase_it E c i) top. Proof. unfold erase_it. hh. Qed.
Lemma h_erase_key_info c p : hoare (erase_key_info E c p) top. Proof. unfold erase_key_info. hh. Qed.
Hint Resolve h_mtfv h_erase_it h_erase_key_info : hf.
Lemma h_erase_lru c : hoare (erase_lru E c) top. Proof. unfold erase_lru. hh. Qed.
Lemma h_too_full c : hoare (is_too_full c) top. Proof. unfold is_too_full. hh. Qed.
Lemma h_evict c p : hoare (evict_lru_for E c p) top. Proof. unfold evict_lru_for. hh. Qed.
Hint Resolve h_erase_lru h_too_full h_evict : hf.
Lemma h_insert_new c p : hoare (insert_new_key E c p) top. Proof. unfold insert_new_key. hh. Qed.
Lemma h_clear c : hoare (clear c) top. Proof. unfold clear. hh. Qed.
Hint Resolve h_insert_new h_clear : hf.
Lemma h_erase_while f c n : hoare (erase_lru_while E f c n) top.
Proof. induction f; simpl; hh. Qed.
Hint Resolve h_erase_while : hf.
Lemma h_shrink c n : hoare (shrink E c n) top. Proof. unfold shrink. hh. Qed.
Lemma h_set_capacity c n : hoare (set_capacity E c n) top. Proof. unfold set_capacity. hh. Qed.
Lemma h_space_left c : hoare (space_left c) top. Proof. unfold space_left. hh. Qed.
Lemma h_is_empty c : hoare (is_empty c) top. Proof. unfold is_empty. hh. Qed.
Lemma h_is_full c : hoare (is_full c) top. Proof. unfold is_full. hh. Qed.
Lemma h_expired_info z n : hoare (has_expired_info E z n) top. Proof. unfold has_expired_info. hh. Qed.
Lemma h_timestamp c : hoare (timestamp E c) top. Proof. unfold timestamp. hh. Qed.
Lemma h_ubegin c : hoare (unordered_begin c) top. Proof. unfold unordered_begin. hh. Qed.
Lemma h_obegin c : hoare (ordered_begin c) top. Proof. unfold ordered_begin. hh. Qed.
Hint Resolve h_shrink h_set_capacity h_space_left h_is_empty h_is_full h_expired_info h_timestamp
  h_ubegin h_obegin : hf.
Lemma h_u_next i : hoare (u_next i) top. Proof. unfold u_next. hh. Qed.
Lemma h_o_next i : hoare (o_next i) top. Proof. unfold o_next. hh. Qed.
Lemma h_o_prev i : hoare (o_prev i) top. Proof. unfold o_prev. hh. Qed.
Lemma h_u_deref i : hoare (u_deref i) top. Proof. unfold u_deref. hh. Qed.
Lemma h_o_deref i : hoare (o_deref E i) top. Proof. unfold o_deref. hh. Qed.
Hint Resolve h_u_next h_o_next h_o_prev h_u_deref h_o_deref : hf.
Lemma h_has_expired c z k : hoare (has_expired_key E c z k) top. Proof. unfold has_expired_key. hh. Qed.
Lemma h_has_expired_o c z i : hoare (has_expired_o E c z i) top. Proof. unfold has_expired_o. hh. Qed.
Lemma h_has_expired_u c z i : hoare (has_expired_u E c z i) top. Proof. unfold has_expired_u. hh. Qed.
Hint Resolve h_has_expired h_has_expired_o h_has_expired_u : hf.
Lemma h_is_valid_o c i : hoare (is_valid_o E c i) top. Proof. unfold is_valid_o. hh. Qed.
Lemma h_throw_u c i : hoare (throw_if_invalid_u E c i) top. Proof. unfold throw_if_invalid_u. hh. Qed.
Lemma h_throw_o c i : hoare (throw_if_invalid_o E c i) top. Proof. unfold throw_if_invalid_o. hh. Qed.
Hint Resolve h_is_valid_o h_throw_u h_throw_o : hf.
Lemma h_u_entry i : hoare (u_entry E i) top. Proof. unfold u_entry. hh. Qed.
Lemma h_o_entry i : hoare (o_entry E i) top. Proof. unfold o_entry. hh. Qed.
Lemma h_o_key i : hoare (o_key E i) top. Proof. unfold o_key. hh. Qed.
Hint Resolve h_u_entry h_o_entry h_o_key : hf.
Lemma h_find_hit c k i : hoare (find_hit E c k i) top. Proof. unfold find_hit. hh. Qed.
Hint Resolve h_find_hit : hf.
Lemma h_find c k : hoare (find E c k) top. Proof. unfold find. hh. Qed.
Lemma h_last_ok c : hoare (last_accessed_is_ok E c) top. Proof. unfold last_accessed_is_ok. hh. Qed.
Lemma h_value_last c : hoare (value_for_last_accessed E c) top. Proof. unfold value_for_last_accessed. hh. Qed.
Hint Resolve h_find h_last_ok h_value_last : hf.
Lemma h_contains c k : hoare (contains E c k) top. Proof. unfold contains. hh. Qed.
Lemma h_lookup c k : hoare (lookup E c k) top. Proof. unfold lookup. hh. Qed.
Hint Resolve h_contains h_lookup : hf.

Lemma h_set_order p q : hoare (set_node_order p q) top. Proof. unfold set_node_order. hh. Qed.
Hint Resolve h_set_order : hf.
Lemma h_insert c k v : hoare (insert E c k v) top. Proof. unfold insert. hh. Qed.
Lemma h_emplace c k v : hoare (emplace E c k v) top. Proof. unfold emplace. hh. Qed.
Hint Resolve h_insert h_emplace : hf.
Lemma h_insert_range c l : hoare (insert_range E c l) top.
Proof. unfold insert_range. apply h_foldM. intros b x _. hh. Qed.
Lemma h_insert_move c l : hoare (insert_move E c l) top.
Proof. unfold insert_move. apply h_foldM. intros b x _. hh. Qed.
Lemma h_erase_key c k : hoare (erase_key E c k) top. Proof. unfold erase_key. hh. Qed.
Lemma h_erase_u c i : hoare (erase_u E c i) top. Proof. unfold erase_u. hh. Qed.
Lemma h_erase_o c i : hoare (erase_o E c i) top. Proof. unfold erase_o. hh. Qed.
Lemma h_new_cache cap ttl : hoare (new_cache (K := K) (V := V) cap ttl) (fun c => c <> d).
Proof. unfold new_cache. eapply h_bind; [apply h_alloc_store|]. intros q N. apply h_alloc_cache; auto. Qed.
Hint Resolve h_insert_range h_insert_move h_erase_key h_erase_u h_erase_o h_new_cache : hf.
Lemma h_destroy c : hoare (destroy c) top. Proof. unfold destroy. hh. Qed.
Lemma h_with_new cap ttl body : (forall c, hoare (body c) top) -> hoare (with_new cap ttl body) top.
Proof.
  intros H. unfold with_new. eapply h_bind; [apply h_new_cache|]. intros c N w Hw.
  specialize (H c w Hw). unfold framed in H. destruct (body c w) as [a w'|e w'|u|e].
  - destruct H as (H1 & _ & ->). simpl; auto.
  - destruct H as (H1 & ->).
    assert (X : hoare (A := nat) (destroy c;;; throw e) top).
    { eapply h_bind; [apply h_destroy|]. intros; apply h_throw. }
    apply X; auto.
  - simpl. destruct H as [H| ->]; auto.
  - rewrite H. simpl. auto.
Qed.
Lemma h_new_from cap ttl l : hoare (new_from E cap ttl l) top.
Proof. apply h_with_new. intros. apply h_insert_range. Qed.
Lemma h_new_move cap ttl l : hoare (new_from_move E cap ttl l) top.
Proof. apply h_with_new. intros. apply h_insert_move. Qed.
Lemma h_clear_inc c n : hoare (clear_and_increase_capacity c n) top.
Proof. unfold clear_and_increase_capacity. hh. Qed.
Hint Resolve h_destroy h_new_from h_new_move h_clear_inc : hf.
Lemma h_assign_range c l : hoare (assign_range E c l) top.
Proof. unfold assign_range. hh. Qed.
Lemma h_assign_move c l : hoare (assign_move E c l) top.
Proof. unfold assign_move. hh. Qed.
Lemma h_order_eq : forall x y, hoare (order_eq E x y) top.
Proof. induction x as [|(i, p) x IH]; intros [|(j, q) y]; simpl; hh. Qed.
Hint Resolve h_assign_range h_assign_move h_order_eq : hf.
Lemma h_equals c e : hoare (equals E c e) top. Proof. unfold equals. hh. Qed.
Lemma h_front c : hoare (front c) top. Proof. unfold front. hh. Qed.
Lemma h_back c : hoare (back c) top. Proof. unfold back. hh. Qed.
Lemma h_all_expired c z : hoare (all_expired E c z) top. Proof. unfold all_expired. hh. Qed.
Lemma h_clear_loop f c z : forall n, hoare (clear_expired_loop E f c z n) top.
Proof. induction f; intros n; simpl; hh. Qed.
Hint Resolve h_equals h_front h_back h_all_expired h_clear_loop : hf.
Lemma h_clear_expired c z : hoare (clear_expired E c z) top. Proof. unfold clear_expired. hh. Qed.
Lemma h_set_stats c i : hoare (set_stats c i) top. Proof. unfold set_stats. keep. Qed.
Lemma h_set_cbs c f : hoare (set_cbs c f) top. Proof. unfold set_cbs. keep. Qed.
Lemma h_stats c : hoare (stats c) top. Proof. unfold stats. hh. Qed.
Lemma h_read_entry p : hoare (read_entry p) top. Proof. unfold read_entry. hh. Qed.
Hint Resolve h_clear_expired h_set_stats h_set_cbs h_stats h_read_entry : hf.
Lemma h_o_collect f c : forall i, hoare (o_collect E f c i) top.
Proof. induction f; intros i; simpl; hh. Qed.
Lemma h_o_back f c : forall i, hoare (o_collect_back E f c i) top.
Proof. induction f; intros i; simpl; hh. Qed.
Lemma h_u_collect f c : forall i, hoare (u_collect f c i) top.
Proof. induction f; intros i; simpl; hh. Qed.
Lemma h_o_advance f c : forall i, hoare (o_advance f c i) top.
Proof. induction f; intros i; simpl; hh. Qed.
Lemma h_u_advance f c : forall i, hoare (u_advance f c i) top.
Proof. induction f; intros i; simpl; hh. Qed.
Hint Resolve h_o_collect h_o_back h_u_collect h_o_advance h_u_advance : hf.
Lemma h_ordered_nth c n : hoare (ordered_nth c n) top. Proof. unfold ordered_nth. hh. Qed.
Lemma h_unordered_nth c n : hoare (unordered_nth c n) top. Proof. unfold unordered_nth. hh. Qed.
Hint Resolve h_ordered_nth h_unordered_nth : hf.
Lemma h_denotes c i : hoare (denotes c i) top. Proof. unfold denotes. hh. Qed.
Hint Resolve h_denotes : hf.
Lemma h_with_ttl c f : (forall z, hoare (f z) top) -> hoare (with_ttl c f) top.
Proof. intros. unfold with_ttl. hh. Qed.
Lemma h_stats_or c f : hoare (stats_update_or c f) top. Proof. unfold stats_update_or. hh. Qed.
Hint Resolve h_stats_or : hf.


Lemma h_reassign c ids : hoare (reassign E c ids) top.
Proof. induction ids as [|i t IH]; simpl; hh. Qed.
Hint Resolve h_reassign : hf.
Lemma h_reassign_references c : hoare (reassign_references E c) top.
Proof. unfold reassign_references. hh. Qed.
Hint Resolve h_reassign_references : hf.
Lemma h_copy_new c : hoare (copy_new E c) top. Proof. unfold copy_new. hh. Qed.
Lemma h_copy_assign c e : hoare (copy_assign E c e) top. Proof. unfold copy_assign. hh. Qed.
Lemma h_base_swap c e : hoare (base_swap (K := K) (V := V) c e) top. Proof. unfold base_swap. hh. Qed.
Hint Resolve h_copy_new h_copy_assign h_base_swap : hf.
Lemma h_swap c e : hoare (swap (K := K) (V := V) c e) top. Proof. unfold swap. hh. Qed.
Lemma h_move_new c : hoare (move_new E c) top. Proof. unfold move_new. hh. Qed.
Lemma h_move_assign c e : hoare (move_assign (K := K) (V := V) c e) top. Proof. unfold move_assign. hh. Qed.
Hint Resolve h_swap h_move_new h_move_assign : hf.

Lemma h_body o : hoare (body E o) top.
Proof.
  destruct o; simpl;
    unfold new_from_iters, new_from_rvalue, new_from_list, subscript, traverse_ordered, traverse_backward,
      traverse_unordered, monitor_new, monitor_shared, stop_monitoring, is_monitoring, add_hit_callback,
      add_miss_callback, add_access_callback, clear_hit_callbacks, clear_miss_callbacks,
      clear_access_callbacks, clear_all_callbacks;
    try (apply h_with_ttl; intros z);
    hh.
Qed.

Lemma graft_slot w c : c <> d -> slot (w_caches (graft w)) c = slot (w_caches w) c.
Proof. intros. rewrite graft_caches, slot_upd_other; auto. Qed.
Lemma graft_well_formed w o : existsb (Nat.eqb d) (mentions o) = false -> well_formed (graft w) o = well_formed w o.
Proof.
  assert (X : forall c e, Nat.eqb e c || false = false -> c <> e).
  { intros c e H. rewrite orb_false_r in H. apply Nat.eqb_neq in H. auto. }
  intros H. destruct o; simpl in H; unfold well_formed, same_kind, alive, timed, stats_alive;
    try solve [apply X in H; rewrite ?graft_slot by auto; auto | auto];
    apply orb_false_iff in H; destruct H as (H1 & H2); apply X in H2; apply Nat.eqb_neq in H1;
    rewrite !graft_slot by auto; auto.
Qed.
Theorem exec_frame o w : existsb (Nat.eqb d) (mentions o) = false -> free w -> framed (exec E o w) (exec E o (graft w)) top.
Proof.
  intros H Hw. unfold exec. rewrite graft_well_formed by auto. destruct (well_formed w o); simpl; auto.
  apply h_body; auto.
Qed.
End Graft.
