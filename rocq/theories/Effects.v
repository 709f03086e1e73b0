(** Which parts of the world a call can change, read off the text of the model
    for all worlds and environments.  [within P m]: every normal or exceptional
    end of [m] is related by [P] to its start. *)
From Coq Require Import List Arith ZArith Bool Lia.
Import ListNotations.
From Verif Require Import Monad Types Model Api Spec.
Set Implicit Arguments.
Unset Strict Implicit.
Local Open Scope cpp_scope.

Definition within {S A} (P : S -> S -> Prop) (m : M S A) : Prop :=
  forall s, match m s with Val _ s' | Exc _ s' => P s s' | _ => True end.

Section Within.
Context {S : Type}.
Variable P : S -> S -> Prop.
Hypothesis Refl : forall s, P s s.
Hypothesis Trans : forall a b c, P a b -> P b c -> P a c.

Lemma w_ret A (a : A) : within P (ret a).
Proof. intros s; simpl; auto. Qed.
Lemma w_throw A e : within P (@throw S A e).
Proof. intros s; simpl; auto. Qed.
Lemma w_undef A u : within P (@undef S A u).
Proof. intros s; simpl; auto. Qed.
Lemma w_bind A B (m : M S A) (k : A -> M S B) :
  within P m -> (forall a, within P (k a)) -> within P (bind m k).
Proof.
  intros Hm Hk s. unfold bind. specialize (Hm s). destruct (m s) as [a s'|e s'|u|e]; auto.
  specialize (Hk a s'). destruct (k a s'); eauto.
Qed.
Lemma w_noexcept A (m : M S A) : within P m -> within P (noexcept m).
Proof. intros Hm s. unfold noexcept. specialize (Hm s). destruct (m s); auto. Qed.
Lemma w_foldM A B (f : B -> A -> M S B) l : (forall b x, within P (f b x)) -> forall b, within P (foldM f l b).
Proof.
  intros Hf. induction l as [|x l IH]; intros b; simpl; [apply w_ret|]. apply w_bind; auto.
Qed.
End Within.

Lemma w_weaken {S A} (P Q : S -> S -> Prop) (m : M S A) : (forall a b, P a b -> Q a b) -> within P m -> within Q m.
Proof. intros H Hm s. specialize (Hm s). destruct (m s); auto. Qed.

Section Effects.
Context {K V : Type}.
Variable E : env K V.
Notation world := (world K V).

(** ** Nothing changes *)
Notation same := (@eq world).

Ltac wb := apply w_bind; [congruence| |intros].
Ltac w1 :=
  match goal with
  | |- within _ (ret _) => apply w_ret; auto
  | |- within _ (throw _) => apply w_throw; auto
  | |- within _ (undef _) => apply w_undef; auto
  | |- within _ (noexcept _) => apply w_noexcept
  | |- within _ (bind _ _) => apply w_bind; [congruence| |intros]
  | |- within _ (let '(_, _) := ?x in _) => destruct x
  | |- within _ (match ?x with _ => _ end) => destruct x
  | |- within _ (if ?b then _ else _) => destruct b
  end.
Ltac ws := repeat (w1; eauto with eff); eauto with eff.

Lemma e_get_cache c : within same (get_cache c).
Proof. intros w. unfold get_cache. destruct (slot (w_caches w) c); auto. Qed.
Lemma e_get_store r : within same (get_store r).
Proof. intros w. unfold get_store. destruct (slot (w_stores w) r); auto. Qed.
Lemma e_get_stats r : within same (get_stats r).
Proof. intros w. unfold get_stats. destruct (slot (w_stats w) r); auto. Qed.
Hint Resolve e_get_cache e_get_store e_get_stats : eff.

Lemma e_deref p : within same (deref p).
Proof. unfold deref. ws. Qed.
Hint Resolve e_deref : eff.
Lemma e_deref_it i : within same (deref_it i).
Proof. unfold deref_it. ws. Qed.
Lemma e_own c : within same (own c).
Proof. unfold own. ws. Qed.
Hint Resolve e_deref_it e_own : eff.
Lemma e_map_find c k : within same (map_find E c k).
Proof. unfold map_find. ws. Qed.
Lemma e_map_size c : within same (map_size c).
Proof. unfold map_size. ws. Qed.
Lemma e_list_front c : within same (list_front c).
Proof. unfold list_front. ws. Qed.
Lemma e_list_back c : within same (list_back c).
Proof. unfold list_back. ws. Qed.
Lemma e_list_begin c : within same (list_begin c).
Proof. unfold list_begin. ws. Qed.
Lemma e_list_prev_end c : within same (list_prev_end c).
Proof. unfold list_prev_end. ws. Qed.
Lemma e_list_deref q : within same (list_deref q).
Proof. unfold list_deref. ws. Qed.
Hint Resolve e_map_find e_map_size e_list_front e_list_back e_list_begin e_list_prev_end e_list_deref : eff.
Lemma e_last_is c k : within same (last_is E c k).
Proof. unfold last_is. ws. Qed.
Lemma e_last_ptr c : within same (last_ptr c).
Proof. unfold last_ptr. ws. Qed.
Lemma e_size c : within same (size c).
Proof. unfold size. ws. Qed.
Lemma e_capacity c : within same (capacity c).
Proof. unfold capacity. ws. Qed.
Hint Resolve e_last_is e_last_ptr e_size e_capacity : eff.
Lemma e_is_too_full c : within same (is_too_full c).
Proof. unfold is_too_full. ws. Qed.
Lemma e_space_left c : within same (space_left c).
Proof. unfold space_left. ws. Qed.
Lemma e_is_empty c : within same (is_empty c).
Proof. unfold is_empty. ws. Qed.
Lemma e_is_full c : within same (is_full c).
Proof. unfold is_full. ws. Qed.
Hint Resolve e_is_too_full e_space_left e_is_empty e_is_full : eff.
Lemma e_unordered_begin c : within same (unordered_begin c).
Proof. unfold unordered_begin. ws. Qed.
Lemma e_ordered_begin c : within same (ordered_begin c).
Proof. unfold ordered_begin. ws. Qed.
Hint Resolve e_unordered_begin e_ordered_begin : eff.
Lemma e_u_next it : within same (u_next it).
Proof. unfold u_next. ws. Qed.
Lemma e_o_next it : within same (o_next it).
Proof. unfold o_next. ws. Qed.
Lemma e_o_prev it : within same (o_prev it).
Proof. unfold o_prev. ws. Qed.
Lemma e_u_deref it : within same (u_deref it).
Proof. unfold u_deref. ws. Qed.
Lemma e_o_deref it : within same (o_deref E it).
Proof. unfold o_deref. ws. Qed.
Lemma e_read_entry p : within same (read_entry p).
Proof. unfold read_entry. ws. Qed.
Hint Resolve e_u_next e_o_next e_o_prev e_u_deref e_o_deref e_read_entry : eff.
Lemma e_o_from_u it : within same (o_from_u it).
Proof. unfold o_from_u. ws. Qed.
Hint Resolve e_o_from_u : eff.
Lemma e_ou_eq a b : within same (ou_eq a b).
Proof. unfold ou_eq. ws. Qed.
Lemma e_front c : within same (front c).
Proof. unfold front. ws. Qed.
Lemma e_back c : within same (back c).
Proof. unfold back. ws. Qed.
Hint Resolve e_ou_eq e_front e_back : eff.
Lemma e_order_eq a : forall b, within same (order_eq E a b).
Proof.
  induction a as [|[i p] a IH]; intros [|[j q] b]; simpl; ws.
Qed.
Hint Resolve e_order_eq : eff.
Lemma e_equals c d : within same (equals E c d).
Proof. unfold equals. ws. Qed.
Lemma e_stats c : within same (stats c).
Proof. unfold stats. ws. Qed.
Lemma e_is_monitoring c : within same (is_monitoring c).
Proof. unfold is_monitoring. ws. Qed.
Hint Resolve e_equals e_stats e_is_monitoring : eff.
Lemma e_o_collect n : forall c it, within same (o_collect E n c it).
Proof. induction n; intros; simpl; ws. Qed.
Lemma e_o_collect_back n : forall c it, within same (o_collect_back E n c it).
Proof. induction n; intros; simpl; ws. Qed.
Lemma e_u_collect n : forall c it, within same (u_collect n c it).
Proof. induction n; intros; simpl; ws. Qed.
Hint Resolve e_o_collect e_o_collect_back e_u_collect : eff.
Lemma e_traverse_ordered c : within same (traverse_ordered E c).
Proof. unfold traverse_ordered. ws. Qed.
Lemma e_traverse_backward c : within same (traverse_backward E c).
Proof. unfold traverse_backward. ws. Qed.
Lemma e_traverse_unordered c : within same (traverse_unordered c).
Proof. unfold traverse_unordered. ws. Qed.
Hint Resolve e_traverse_ordered e_traverse_backward e_traverse_unordered : eff.
Lemma e_o_advance n : forall c it, within same (o_advance n c it).
Proof. induction n; intros; simpl; ws. Qed.
Lemma e_u_advance n : forall c it, within same (u_advance n c it).
Proof. induction n; intros; simpl; ws. Qed.
Hint Resolve e_o_advance e_u_advance : eff.
Lemma e_ordered_nth c n : within same (ordered_nth c n).
Proof. unfold ordered_nth. ws. Qed.
Lemma e_unordered_nth c n : within same (unordered_nth c n).
Proof. unfold unordered_nth. ws. Qed.
Hint Resolve e_ordered_nth e_unordered_nth : eff.

(** Calls that change nothing at all. *)
Lemma pure_observer_same o : pure_observer o = true -> within same (exec E o).
Proof.
  intros H w. unfold exec. destruct (well_formed w o); [|reflexivity].
  revert w. change (within same (body E o)).
  destruct o; try discriminate; simpl; ws.
Qed.

(** ** Only the number of clock readings changes *)
Definition ticked (w w' : world) : Prop :=
  w_caches w' = w_caches w /\ w_stores w' = w_stores w /\ w_stats w' = w_stats w /\
  w_log w' = w_log w /\ w_steps w' = w_steps w.
Lemma ticked_refl w : ticked w w.
Proof. repeat split. Qed.
Lemma ticked_trans a b c : ticked a b -> ticked b c -> ticked a c.
Proof. unfold ticked. intuition congruence. Qed.
Lemma same_ticked A (m : M world A) : within same m -> within ticked m.
Proof. apply w_weaken. intros a b ->. apply ticked_refl. Qed.
Hint Resolve same_ticked ticked_refl : eff.
Ltac t1 :=
  match goal with
  | |- within _ (ret _) => apply w_ret; auto with eff
  | |- within _ (throw _) => apply w_throw; auto with eff
  | |- within _ (undef _) => apply w_undef; auto with eff
  | |- within _ (noexcept _) => apply w_noexcept
  | |- within _ (bind _ _) => apply w_bind; [exact ticked_trans| |intros]
  | |- within _ (let '(_, _) := ?x in _) => destruct x
  | |- within _ (match ?x with _ => _ end) => destruct x
  | |- within _ (if ?b then _ else _) => destruct b
  end.
Ltac ts := repeat (t1; eauto with eff); eauto with eff.

Lemma e_now : within ticked (now E).
Proof. intros w. simpl. repeat split. Qed.
Hint Resolve e_now : eff.
Lemma e_has_expired_info d n : within ticked (has_expired_info E d n).
Proof. unfold has_expired_info. ts. Qed.
Hint Resolve e_has_expired_info : eff.
Lemma e_has_expired_key c d k : within ticked (has_expired_key E c d k).
Proof. unfold has_expired_key. ts. Qed.
Lemma e_has_expired_o c d it : within ticked (has_expired_o E c d it).
Proof. unfold has_expired_o. ts. Qed.
Lemma e_has_expired_u c d it : within ticked (has_expired_u E c d it).
Proof. unfold has_expired_u. ts. Qed.
Lemma e_all_expired c d : within ticked (all_expired E c d).
Proof. unfold all_expired. ts. Qed.
Hint Resolve e_has_expired_key e_has_expired_o e_has_expired_u e_all_expired : eff.
Lemma e_is_valid_o c it : within ticked (is_valid_o E c it).
Proof. unfold is_valid_o. ts. Qed.
Lemma e_is_valid_u c it : within ticked (is_valid_u E c it).
Proof. unfold is_valid_u. ts. Qed.
Lemma e_throw_o c it : within ticked (throw_if_invalid_o E c it).
Proof. unfold throw_if_invalid_o. ts. Qed.
Lemma e_throw_u c it : within ticked (throw_if_invalid_u E c it).
Proof. unfold throw_if_invalid_u. ts. Qed.
Hint Resolve e_is_valid_o e_is_valid_u e_throw_o e_throw_u : eff.
Lemma e_u_entry it : within ticked (u_entry E it).
Proof. unfold u_entry. ts. Qed.
Lemma e_o_entry it : within ticked (o_entry E it).
Proof. unfold o_entry. ts. Qed.
Lemma e_o_key it : within ticked (o_key E it).
Proof. unfold o_key. ts. Qed.
Hint Resolve e_u_entry e_o_entry e_o_key : eff.
Lemma e_timestamp c : within ticked (timestamp E c).
Proof. unfold timestamp. ts. Qed.
Hint Resolve e_timestamp : eff.

Lemma observer_ticked o : observer o = true -> within ticked (exec E o).
Proof.
  intros H w. unfold exec. destruct (well_formed w o); [|apply ticked_refl].
  revert w. change (within ticked (body E o)).
  destruct o; try discriminate; simpl; unfold with_ttl; ts.
Qed.
Lemma observer_effect o : observer o = true -> forall w,
  match exec E o w with Val _ w' | Exc _ w' => ticked w w' | _ => True end.
Proof. intros H. exact (observer_ticked H). Qed.

(** ** Statistics and callbacks are left alone *)
Definition silent (w w' : world) : Prop :=
  w_log w' = w_log w /\ forall i x, slot (w_stats w) i = Some x -> slot (w_stats w') i = Some x.
Lemma silent_refl w : silent w w.
Proof. split; auto. Qed.
Lemma silent_trans a b c : silent a b -> silent b c -> silent a c.
Proof. unfold silent. intros (A & A') (B & B'). split; [congruence|auto]. Qed.
Lemma ticked_silent A (m : M world A) : within ticked m -> within silent m.
Proof. apply w_weaken. intros a b (_ & _ & H & L & _). unfold silent. rewrite H, L. auto. Qed.
Hint Resolve ticked_silent silent_refl : eff.
Ltac s1 :=
  match goal with
  | |- within _ (ret _) => apply w_ret; auto with eff
  | |- within _ (throw _) => apply w_throw; auto with eff
  | |- within _ (undef _) => apply w_undef; auto with eff
  | |- within _ (noexcept _) => apply w_noexcept
  | |- within _ (bind _ _) => apply w_bind; [exact silent_trans| |intros]
  | |- within _ (let '(_, _) := ?x in _) => destruct x
  | |- within _ (match ?x with _ => _ end) => destruct x
  | |- within _ (if ?b then _ else _) => destruct b
  end.
Ltac ss := repeat (s1; eauto with eff); eauto with eff.

Lemma e_put_cache c x : within silent (@put_cache K V c x).
Proof. intros w. simpl. split; auto. Qed.
Lemma e_drop_cache c : within silent (@drop_cache K V c).
Proof. intros w. simpl. split; auto. Qed.
Lemma e_put_store c x : within silent (@put_store K V c x).
Proof. intros w. simpl. split; auto. Qed.
Lemma e_drop_store c : within silent (@drop_store K V c).
Proof. intros w. simpl. split; auto. Qed.
Lemma e_alloc_cache x : within silent (@alloc_cache K V x).
Proof. intros w. simpl. split; auto. Qed.
Lemma e_alloc_store x : within silent (@alloc_store K V x).
Proof. intros w. simpl. split; auto. Qed.
Lemma e_alloc_stats x : within silent (@alloc_stats K V x).
Proof.
  intros w. simpl. split; auto. simpl. intros i y H. unfold slot in *.
  destruct (le_lt_dec (length (w_stats w)) i).
  - rewrite nth_overflow in H by auto. discriminate.
  - rewrite app_nth1; auto.
Qed.
Lemma e_fallible : within silent (fallible E).
Proof. intros w. unfold fallible. destruct (fails E (w_steps w)); split; auto. Qed.
Hint Resolve e_put_cache e_drop_cache e_put_store e_drop_store e_alloc_cache e_alloc_store e_alloc_stats e_fallible : eff.
Lemma e_update_node p f : within silent (@update_node K V p f).
Proof. unfold update_node. ss. Qed.
Lemma e_map_emplace c n : within silent (map_emplace E c n).
Proof. unfold map_emplace. ss. Qed.
Lemma e_map_erase_it c i : within silent (@map_erase_it K V c i).
Proof. unfold map_erase_it. ss. Qed.
Lemma e_map_erase_key c k : within silent (map_erase_key E c k).
Proof. unfold map_erase_key. ss. Qed.
Lemma e_splice c q : within silent (@list_splice_back K V c q).
Proof. unfold list_splice_back. ss. Qed.
Lemma e_list_erase c q : within silent (@list_erase K V c q).
Proof. unfold list_erase. ss. Qed.
Lemma e_emplace_back c p : within silent (list_emplace_back E c p).
Proof. unfold list_emplace_back. ss. Qed.
Lemma e_set_front c p : within silent (@list_set_front K V c p).
Proof. unfold list_set_front. ss. Qed.
Lemma e_set_last c p : within silent (@set_last K V c p).
Proof. unfold set_last. ss. Qed.
Hint Resolve e_update_node e_map_emplace e_map_erase_it e_map_erase_key e_splice e_list_erase e_emplace_back e_set_front e_set_last : eff.
Lemma e_invalidate c : within silent (@invalidate_last K V c).
Proof. unfold invalidate_last. ss. Qed.
Lemma e_move_to_front c q : within silent (@move_to_front K V c q).
Proof. unfold move_to_front. ss. Qed.
Hint Resolve e_invalidate e_move_to_front : eff.
Lemma e_move_to_front_value c i v : within silent (move_to_front_value E c i v).
Proof. unfold move_to_front_value. ss. Qed.
Lemma e_erase_it c i : within silent (erase_it E c i).
Proof. unfold erase_it. ss. Qed.
Lemma e_erase_key_info c i : within silent (erase_key_info E c i).
Proof. unfold erase_key_info. ss. Qed.
Hint Resolve e_move_to_front_value e_erase_it e_erase_key_info : eff.
Lemma e_erase_lru c : within silent (erase_lru E c).
Proof. unfold erase_lru. ss. Qed.
Lemma e_evict c p : within silent (evict_lru_for E c p).
Proof. unfold evict_lru_for. ss. Qed.
Hint Resolve e_erase_lru e_evict : eff.
Lemma e_insert_new_key c p : within silent (insert_new_key E c p).
Proof. unfold insert_new_key. ss. Qed.
Lemma e_clear c : within silent (@clear K V c).
Proof. unfold clear. ss. Qed.
Lemma e_erase_lru_while f : forall c n, within silent (erase_lru_while E f c n).
Proof. induction f; intros; simpl; ss. Qed.
Hint Resolve e_insert_new_key e_clear e_erase_lru_while : eff.
Lemma e_shrink c n : within silent (shrink E c n).
Proof. unfold shrink. ss. Qed.
Lemma e_set_capacity c n : within silent (set_capacity E c n).
Proof. unfold set_capacity. ss. Qed.
Lemma e_set_node_order p q : within silent (@set_node_order K V p q).
Proof. unfold set_node_order. ss. Qed.
Hint Resolve e_shrink e_set_capacity e_set_node_order : eff.
Lemma e_insert c k v : within silent (insert E c k v).
Proof. unfold insert. ss. Qed.
Lemma e_emplace c k v : within silent (emplace E c k v).
Proof. unfold emplace. ss. Qed.
Hint Resolve e_insert e_emplace : eff.
Lemma e_insert_range c l : within silent (insert_range E c l).
Proof. apply w_foldM; [exact silent_refl|exact silent_trans|intros; ss]. Qed.
Lemma e_insert_move c l : within silent (insert_move E c l).
Proof. apply w_foldM; [exact silent_refl|exact silent_trans|intros; ss]. Qed.
Lemma e_erase_key c k : within silent (erase_key E c k).
Proof. unfold erase_key. ss. Qed.
Lemma e_erase_u c it : within silent (erase_u E c it).
Proof. unfold erase_u. ss. Qed.
Lemma e_erase_o c it : within silent (erase_o E c it).
Proof. unfold erase_o. ss. Qed.
Lemma e_new_cache n t : within silent (@new_cache K V n t).
Proof. unfold new_cache. ss. Qed.
Lemma e_destroy c : within silent (@destroy K V c).
Proof. unfold destroy. ss. Qed.
Hint Resolve e_insert_range e_insert_move e_erase_key e_erase_u e_erase_o e_new_cache e_destroy : eff.
Lemma e_with_new n t (b : nat -> M world nat) : (forall c, within silent (b c)) -> within silent (with_new n t b).
Proof.
  intros Hb. unfold with_new. apply w_bind; [exact silent_trans|ss|]. intros c w.
  specialize (Hb c w). destruct (b c w) as [a w'|e w'|u|e]; auto.
  assert (H : within silent (destroy c;;; @throw world nat e)) by ss.
  specialize (H w'). destruct ((destroy c;;; @throw world nat e) w'); auto; eapply silent_trans; eauto.
Qed.
Lemma e_new_from n t l : within silent (new_from E n t l).
Proof. apply e_with_new. ss. Qed.
Lemma e_new_from_move n t l : within silent (new_from_move E n t l).
Proof. apply e_with_new. ss. Qed.
Hint Resolve e_new_from e_new_from_move : eff.
Lemma e_new_from_iters t l : within silent (new_from_iters E t l).
Proof. unfold new_from_iters. ss. Qed.
Lemma e_new_from_rvalue t l : within silent (new_from_rvalue E t l).
Proof. unfold new_from_rvalue. ss. Qed.
Lemma e_new_from_list t l : within silent (new_from_list E t l).
Proof. unfold new_from_list. ss. Qed.
Lemma e_reassign ids : forall c, within silent (reassign E c ids).
Proof. induction ids; intros; simpl; ss. Qed.
Hint Resolve e_new_from_iters e_new_from_rvalue e_new_from_list e_reassign : eff.
Lemma e_reassign_references c : within silent (reassign_references E c).
Proof. unfold reassign_references. ss. Qed.
Hint Resolve e_reassign_references : eff.
Lemma e_copy_new c : within silent (copy_new E c).
Proof. unfold copy_new. ss. Qed.
Lemma e_copy_assign c d : within silent (copy_assign E c d).
Proof. unfold copy_assign. ss. Qed.
Lemma e_base_swap c d : within silent (@base_swap K V c d).
Proof. unfold base_swap. ss. Qed.
Hint Resolve e_copy_new e_copy_assign e_base_swap : eff.
Lemma e_swap c d : within silent (@swap K V c d).
Proof. unfold swap. ss. Qed.
Lemma e_move_new c : within silent (move_new E c).
Proof. unfold move_new. ss. Qed.
Lemma e_move_assign c d : within silent (@move_assign K V c d).
Proof. unfold move_assign. ss. Qed.
Lemma e_cic c n : within silent (@clear_and_increase_capacity K V c n).
Proof. unfold clear_and_increase_capacity. ss. Qed.
Hint Resolve e_swap e_move_new e_move_assign e_cic : eff.
Lemma e_assign_range c l : within silent (assign_range E c l).
Proof. unfold assign_range. ss. Qed.
Lemma e_assign_move c l : within silent (assign_move E c l).
Proof. unfold assign_move. ss. Qed.
Lemma e_clear_expired_loop f : forall c d n, within silent (clear_expired_loop E f c d n).
Proof. induction f; intros; simpl; ss. Qed.
Hint Resolve e_assign_range e_assign_move e_clear_expired_loop : eff.
Lemma e_clear_expired c d : within silent (clear_expired E c d).
Proof. unfold clear_expired. ss. Qed.
Lemma e_set_stats c s : within silent (@set_stats K V c s).
Proof. unfold set_stats. ss. Qed.
Lemma e_set_cbs c f : within silent (@set_cbs K V c f).
Proof. unfold set_cbs. ss. Qed.
Hint Resolve e_clear_expired e_set_stats e_set_cbs : eff.
Lemma e_monitor_new c ks : within silent (monitor_new E c ks).
Proof. unfold monitor_new. ss. Qed.
Lemma e_monitor_shared c s : within silent (@monitor_shared K V c s).
Proof. unfold monitor_shared. ss. Qed.
Lemma e_stop c : within silent (@stop_monitoring K V c).
Proof. unfold stop_monitoring. ss. Qed.
Lemma e_denotes c it : within silent (@denotes K V c it).
Proof. unfold denotes. ss. Qed.
Hint Resolve e_monitor_new e_monitor_shared e_stop e_denotes : eff.

Lemma unregistered_silent o : registers o = false -> within silent (exec E o).
Proof.
  intros H w. unfold exec. destruct (well_formed w o); [|apply silent_refl].
  revert w. change (within silent (body E o)).
  destruct o; try discriminate; simpl; unfold with_ttl, add_hit_callback, add_miss_callback,
    add_access_callback, clear_hit_callbacks, clear_miss_callbacks, clear_access_callbacks,
    clear_all_callbacks; ss.
Qed.
Lemma unregistered_effect o : registers o = false -> forall w,
  match exec E o w with Val _ w' | Exc _ w' => silent w w' | _ => True end.
Proof. intros H. exact (unregistered_silent H). Qed.

End Effects.
