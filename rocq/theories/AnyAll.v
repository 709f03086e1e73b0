(** The invariant of [AnyKeep] holds in every world a history reaches, copies
    included. *)
From Coq Require Import List Arith ZArith Bool Permutation Lia.
Import ListNotations.
From Verif Require Import Monad Types Model Api Spec Ref Lists SimBase SimRel Effects CopyEval AnyWorld AnyKeep AnyInsert AnyRun AnyCopy.
Set Implicit Arguments.
Unset Strict Implicit.
Local Open Scope cpp_scope.

Section All.
Context {K V : Type}.
Variable E : env K V.
Hypothesis G : good E.

Notation world := (world K V).
Notation M := (M world).
Notation W := (W E).
Notation kw := (kw E).
Implicit Types (w : world).

Hint Resolve same_kw ticked_kw kw_refl : core.
Hint Resolve e_get_cache e_get_store e_get_stats e_deref e_deref_it e_own e_map_find e_map_size e_list_front e_list_back e_list_begin e_list_prev_end e_list_deref e_last_is e_last_ptr e_size e_capacity e_is_too_full e_space_left e_is_empty e_is_full e_unordered_begin e_ordered_begin e_u_next e_o_next e_o_prev e_u_deref e_o_deref e_read_entry e_o_from_u e_ou_eq e_front e_back e_order_eq e_equals e_stats e_is_monitoring e_o_collect e_o_collect_back e_u_collect e_traverse_ordered e_traverse_backward e_traverse_unordered e_o_advance e_u_advance e_ordered_nth e_unordered_nth : core.
Hint Resolve e_now e_has_expired_info e_has_expired_key e_has_expired_o e_has_expired_u e_all_expired e_is_valid_o e_is_valid_u e_throw_o e_throw_u e_u_entry e_o_entry e_o_key e_timestamp : core.
Hint Resolve k_put_stats k_alloc_stats k_fallible k_register_hit k_register_miss k_write k_invalidate k_set_stats k_set_cbs k_move_to_front k_erase_it k_erase_key k_erase_u k_erase_o k_erase_lru k_erase_lru_while k_clear_expired k_clear k_shrink k_set_capacity k_cic : core.
Hint Resolve k_insert k_emplace k_insert_range k_insert_move k_find k_contains k_lookup k_subscript k_denotes k_new_cache k_destroy k_new_from k_new_from_move k_new_from_iters k_new_from_rvalue k_new_from_list k_swap k_move_new k_move_assign k_assign_range k_assign_move k_copy_new k_copy_assign : core.
Ltac k1 :=
  match goal with
  | |- within _ (ret _) => apply w_ret; auto
  | |- within _ (throw _) => apply w_throw; auto
  | |- within _ (undef _) => apply w_undef; auto
  | |- within _ (noexcept _) => apply w_noexcept
  | |- within _ (bind _ _) => apply w_bind; [exact (@kw_trans K V E)| |intros]
  | |- within _ (let '(_, _) := ?x in _) => destruct x
  | |- within _ (match ?x with _ => _ end) => destruct x
  | |- within _ (if ?b then _ else _) => destruct b
  end.
Ltac ks := repeat (k1; eauto); eauto.

Lemma k_body o : within kw (body E o).
Proof.
  destruct o; cbn [body]; unfold with_ttl, stats_update_or, monitor_new, monitor_shared, stop_monitoring, add_hit_callback, add_miss_callback, add_access_callback, clear_hit_callbacks, clear_miss_callbacks, clear_access_callbacks, clear_all_callbacks; ks.
Qed.
Lemma k_exec o : within kw (exec E o).
Proof. intros w. unfold exec. destruct (well_formed w o); [apply k_body|apply kw_refl]. Qed.
Lemma W_init : W init_world.
Proof. constructor; simpl; intros; try (destruct c; discriminate); try (destruct r; discriminate). Qed.
Lemma run_W ops : forall w outs w', W w -> run E ops w = Finished outs w' -> W w'.
Proof.
  induction ops as [|o t IH]; simpl; intros w outs w' Hw H.
  - injection H as _ <-. auto.
  - pose proof (k_exec o w) as Q. destruct (exec E o w) as [r w1|e w1|u|e]; try discriminate; simpl in Q; specialize (Q Hw);
      destruct (run E t w1) as [l w2|l u|l e2] eqn:R; simpl in H; try discriminate; injection H as _ <-; eapply IH; eauto.
Qed.
Theorem any_W ops outs w : run E ops init_world = Finished outs w -> W w.
Proof. apply run_W, W_init. Qed.
End All.
