(** Which calls leave the statistics objects alone, and which leave every cache
    attached to the statistics object it feeds, for all worlds. *)
From Coq Require Import List Arith ZArith Bool Lia.
Import ListNotations.
From Verif Require Import Monad Types Model Api Spec SpecSettings Lists Effects.
Set Implicit Arguments.
Unset Strict Implicit.
Local Open Scope cpp_scope.

Section TallyEff.
Context {K V : Type}.
Variable E : env K V.
Hypothesis Cb : passive E.
Notation world := (world K V).
Variable strict : bool.

(** What a cache feeds, if it lives. *)
Definition fed (w : world) (c : nat) : option (option nat) := option_map (@c_stats) (slot (w_caches w) c).
Definition all_untimed (w : world) : Prop := forall c x, slot (w_caches w) c = Some x -> c_ttl x = None.
(** Every cache feeds what it fed before; no cache is made or destroyed; the
    statistics objects are the same (if [strict]). *)
Definition calm (w w' : world) : Prop :=
  (strict = true -> w_stats w' = w_stats w) /\ (forall c, fed w' c = fed w c) /\ (all_untimed w -> all_untimed w').
Lemma calm_refl w : calm w w.
Proof. split; [|split]; auto. Qed.
Lemma calm_trans a b c : calm a b -> calm b c -> calm a c.
Proof. intros (A & B & C) (A' & B' & C'). split; [|split]; auto; intros; [rewrite A', A; auto|rewrite B', B; auto]. Qed.
Lemma same_calm B (m : M world B) : within eq m -> within calm m.
Proof. apply w_weaken. intros a b ->. apply calm_refl. Qed.
Lemma ticked_calm B (m : M world B) : within (@ticked K V) m -> within calm m.
Proof. apply w_weaken. intros a b (H & _ & S & _). split; [|split]; auto; [intros; unfold fed; rewrite H; auto|unfold all_untimed; rewrite H; auto]. Qed.
Hint Resolve same_calm ticked_calm calm_refl : core.
Hint Resolve e_get_cache e_get_store e_get_stats e_deref e_deref_it e_own e_map_find e_map_size e_list_front e_list_back e_list_begin e_list_prev_end e_list_deref e_last_is e_last_ptr e_size e_capacity e_is_too_full e_space_left e_is_empty e_is_full e_unordered_begin e_ordered_begin e_u_next e_o_next e_o_prev e_u_deref e_o_deref e_read_entry e_o_from_u e_ou_eq e_front e_back e_order_eq e_equals e_stats e_is_monitoring e_o_collect e_o_collect_back e_u_collect e_traverse_ordered e_traverse_backward e_traverse_unordered e_o_advance e_u_advance e_ordered_nth e_unordered_nth e_now e_has_expired_info e_has_expired_key e_has_expired_o e_has_expired_u e_all_expired e_is_valid_o e_is_valid_u e_throw_o e_throw_u e_u_entry e_o_entry e_o_key e_timestamp : core.
Ltac k1 :=
  match goal with
  | |- within _ (ret _) => apply w_ret; auto
  | |- within _ (throw _) => apply w_throw; auto
  | |- within _ (undef _) => apply w_undef; auto
  | |- within _ (noexcept _) => apply w_noexcept
  | |- within _ (bind _ _) => apply w_bind; [exact calm_trans| |intros]
  | |- within _ (let '(_, _) := ?x in _) => destruct x
  | |- within _ (match ?x with _ => _ end) => destruct x
  | |- within _ (if ?b then _ else _) => destruct b
  end.
Ltac ks := repeat (k1; eauto); eauto.

Lemma c_caches B (m : M world B) : within (fun w w' : world => w_caches w' = w_caches w /\ w_stats w' = w_stats w) m -> within calm m.
Proof. apply w_weaken. intros a b (H & S). split; [|split]; auto; [intros; unfold fed; rewrite H; auto|unfold all_untimed; rewrite H; auto]. Qed.
Lemma c_put_store c s : within calm (@put_store K V c s).
Proof. apply c_caches. intros w. split; reflexivity. Qed.
Lemma c_drop_store c : within calm (@drop_store K V c).
Proof. apply c_caches. intros w. split; reflexivity. Qed.
Lemma c_alloc_store s : within calm (@alloc_store K V s).
Proof. apply c_caches. intros w. split; reflexivity. Qed.
Lemma c_fallible : within calm (fallible E).
Proof. apply c_caches. intros w. unfold fallible. destruct (fails E (w_steps w)); split; reflexivity. Qed.
Lemma c_cb ev : within calm (cb E ev).
Proof. apply c_caches. intros w. rewrite Cb. split; reflexivity. Qed.
(** Replacing a cache object by one that feeds the same statistics. *)
Lemma c_put w c x y : slot (w_caches w) c = Some x -> c_stats y = c_stats x -> (all_untimed w -> c_ttl y = None) ->
  calm w (with_caches (fun l => upd l c (Some y)) w).
Proof.
  intros H S T. split; [|split]; [reflexivity| |].
  - intros d. unfold fed. simpl. destruct (Nat.eq_dec c d) as [->|D].
    + erewrite slot_upd_same by eassumption. rewrite H. simpl. congruence.
    + rewrite slot_upd_other by auto. reflexivity.
  - intros U d z Hd. simpl in Hd. destruct (Nat.eq_dec c d) as [->|D].
    + erewrite slot_upd_same in Hd by eassumption. injection Hd as <-. auto.
    + rewrite slot_upd_other in Hd by auto. apply (U _ _ Hd).
Qed.
Lemma c_modify c (f : cache -> cache) : (forall x, c_stats (f x) = c_stats x) -> (forall x, c_ttl (f x) = c_ttl x) ->
  within calm (x <- get_cache c;; put_cache c (f x) : M world unit).
Proof.
  intros S T w. unfold bind, get_cache. destruct (slot (w_caches w) c) as [x|] eqn:H; auto.
  apply c_put with x; auto. intros U. rewrite T. apply (U _ _ H).
Qed.
Lemma c_set_last c p : within calm (@set_last K V c p).
Proof. apply c_modify with (f := fun x => MkCache (c_rid x) p (c_cap x) (c_stats x) (c_cbs x) (c_ttl x)); auto. Qed.
Lemma c_set_cbs c f : within calm (@set_cbs K V c f).
Proof. apply c_modify with (f := fun x => MkCache (c_rid x) (c_last x) (c_cap x) (c_stats x) (f (c_cbs x)) (c_ttl x)); auto. Qed.
Hint Resolve c_put_store c_drop_store c_alloc_store c_fallible c_cb c_set_last c_set_cbs : core.
Lemma c_update_node p f : within calm (@update_node K V p f).
Proof. unfold update_node. ks. Qed.
Hint Resolve c_update_node : core.
Lemma c_map_emplace c n : within calm (map_emplace E c n).
Proof. unfold map_emplace. ks. Qed.
Hint Resolve c_map_emplace : core.
Lemma c_map_erase_it c i : within calm (@map_erase_it K V c i).
Proof. unfold map_erase_it. ks. Qed.
Hint Resolve c_map_erase_it : core.
Lemma c_map_erase_key c k : within calm (map_erase_key E c k).
Proof. unfold map_erase_key. ks. Qed.
Hint Resolve c_map_erase_key : core.
Lemma c_splice c q : within calm (@list_splice_back K V c q).
Proof. unfold list_splice_back. ks. Qed.
Hint Resolve c_splice : core.
Lemma c_list_erase c q : within calm (@list_erase K V c q).
Proof. unfold list_erase. ks. Qed.
Hint Resolve c_list_erase : core.
Lemma c_emplace_back c p : within calm (list_emplace_back E c p).
Proof. unfold list_emplace_back. ks. Qed.
Hint Resolve c_emplace_back : core.
Lemma c_set_front c p : within calm (@list_set_front K V c p).
Proof. unfold list_set_front. ks. Qed.
Hint Resolve c_set_front : core.
Lemma c_invalidate c : within calm (@invalidate_last K V c).
Proof. unfold invalidate_last. ks. Qed.
Hint Resolve c_invalidate : core.
Lemma c_move_to_front c q : within calm (@move_to_front K V c q).
Proof. unfold move_to_front. ks. Qed.
Hint Resolve c_move_to_front : core.
Lemma c_move_to_front_value c i v : within calm (move_to_front_value E c i v).
Proof. unfold move_to_front_value. ks. Qed.
Hint Resolve c_move_to_front_value : core.
Lemma c_erase_it c i : within calm (erase_it E c i).
Proof. unfold erase_it. ks. Qed.
Hint Resolve c_erase_it : core.
Lemma c_erase_key_info c i : within calm (erase_key_info E c i).
Proof. unfold erase_key_info. ks. Qed.
Hint Resolve c_erase_key_info : core.
Lemma c_erase_lru c : within calm (erase_lru E c).
Proof. unfold erase_lru. ks. Qed.
Hint Resolve c_erase_lru : core.
Lemma c_evict c p : within calm (evict_lru_for E c p).
Proof. unfold evict_lru_for. ks. Qed.
Hint Resolve c_evict : core.
Lemma c_insert_new_key c p : within calm (insert_new_key E c p).
Proof. unfold insert_new_key. ks. Qed.
Hint Resolve c_insert_new_key : core.
Lemma c_clear c : within calm (@clear K V c).
Proof. unfold clear. ks. Qed.
Hint Resolve c_clear : core.
Lemma c_erase_lru_while f : forall c n, within calm (erase_lru_while E f c n).
Proof. induction f; intros; simpl; ks. Qed.
Hint Resolve c_erase_lru_while : core.
Lemma c_shrink c n : within calm (shrink E c n).
Proof. unfold shrink. ks. Qed.
Hint Resolve c_shrink : core.
Lemma c_set_node_order p q : within calm (@set_node_order K V p q).
Proof. unfold set_node_order. ks. Qed.
Hint Resolve c_set_node_order : core.
Lemma c_insert c k v : within calm (insert E c k v).
Proof. unfold insert. ks. Qed.
Hint Resolve c_insert : core.
Lemma c_emplace c k v : within calm (emplace E c k v).
Proof. unfold emplace. ks. Qed.
Hint Resolve c_emplace : core.
Lemma c_insert_range c l : within calm (insert_range E c l).
Proof. apply w_foldM; [exact calm_refl|exact calm_trans|intros; ks]. Qed.
Hint Resolve c_insert_range : core.
Lemma c_insert_move c l : within calm (insert_move E c l).
Proof. apply w_foldM; [exact calm_refl|exact calm_trans|intros; ks]. Qed.
Hint Resolve c_insert_move : core.
Lemma c_erase_key c k : within calm (erase_key E c k).
Proof. unfold erase_key. ks. Qed.
Hint Resolve c_erase_key : core.
Lemma c_erase_u c it : within calm (erase_u E c it).
Proof. unfold erase_u. ks. Qed.
Hint Resolve c_erase_u : core.
Lemma c_erase_o c it : within calm (erase_o E c it).
Proof. unfold erase_o. ks. Qed.
Hint Resolve c_erase_o : core.
Lemma c_reassign ids : forall c, within calm (reassign E c ids).
Proof. induction ids; intros; simpl; ks. Qed.
Hint Resolve c_reassign : core.
Lemma c_reassign_references c : within calm (reassign_references E c).
Proof. unfold reassign_references. ks. Qed.
Hint Resolve c_reassign_references : core.
Lemma c_set_capacity c n : within calm (set_capacity E c n).
Proof.
  unfold set_capacity. do 2 (k1; [now eauto|]).
  apply c_modify with (f := fun x => MkCache (c_rid x) (c_last x) n (c_stats x) (c_cbs x) (c_ttl x)); auto.
Qed.
Lemma c_cic c n : within calm (@clear_and_increase_capacity K V c n).
Proof.
  unfold clear_and_increase_capacity. k1; [now eauto|]. intros w. unfold bind, get_cache.
  destruct (slot (w_caches w) c) as [x|] eqn:Q; auto. destruct (Nat.ltb (c_cap x) n); [|apply calm_refl].
  apply c_put with x; auto. intros U. apply (U _ _ Q).
Qed.
Hint Resolve c_set_capacity c_cic : core.
Lemma c_assign_range c l : within calm (assign_range E c l).
Proof. unfold assign_range. ks. Qed.
Hint Resolve c_assign_range : core.
Lemma c_assign_move c l : within calm (assign_move E c l).
Proof. unfold assign_move. ks. Qed.
Hint Resolve c_assign_move : core.
Lemma c_clear_expired_loop f : forall c d n, within calm (clear_expired_loop E f c d n).
Proof. induction f; intros; simpl; ks. Qed.
Hint Resolve c_clear_expired_loop : core.
Lemma c_clear_expired c d : within calm (clear_expired E c d).
Proof. unfold clear_expired. ks. Qed.
Hint Resolve c_clear_expired : core.
Lemma c_denotes c it : within calm (@denotes K V c it).
Proof. unfold denotes. ks. Qed.
Hint Resolve c_denotes : core.

(** ** Swapping and assigning from a temporary *)
Lemma c_base_swap c d : within calm (@base_swap K V c d).
Proof.
  intros w. unfold base_swap, bind, get_cache.
  destruct (slot (w_caches w) c) as [x|] eqn:Qc; auto. destruct (slot (w_caches w) d) as [y|] eqn:Qd; auto.
  destruct (Nat.eqb_spec c d) as [->|N]; [apply calm_refl|]. simpl.
  eapply calm_trans; [apply c_put with (x := x) (y := MkCache (c_rid y) (c_last y) (c_cap y) (c_stats x) (c_cbs x) (c_ttl x)); [exact Qc|reflexivity|]|apply c_put with (x := y); [simpl; rewrite slot_upd_other by auto; exact Qd|reflexivity|]].
  - intros U. apply (U _ _ Qc).
  - intros U. apply (U d y). simpl. rewrite slot_upd_other by auto. exact Qd.
Qed.
Lemma c_retime c z w w1 : calm w w1 -> (all_untimed w -> z = None) ->
  match (x' <- get_cache c;; @put_cache K V c (MkCache (c_rid x') (c_last x') (c_cap x') (c_stats x') (c_cbs x') z)) w1
  with Val _ w' | Exc _ w' => calm w w' | _ => True end.
Proof.
  intros A Z. unfold bind, get_cache. destruct (slot (w_caches w1) c) as [x|] eqn:Q; auto. simpl.
  destruct A as (A1 & A2 & A3).
  destruct (@c_put w1 c x (MkCache (c_rid x) (c_last x) (c_cap x) (c_stats x) (c_cbs x) (c_ttl x)) Q eq_refl) as (B1 & B2 & B3).
  { intros U. apply (U _ _ Q). }
  split; [exact A1|split].
  - intros d. rewrite <- A2. unfold fed. simpl. destruct (Nat.eq_dec c d) as [->|D].
    + erewrite slot_upd_same by exact Q. rewrite Q. reflexivity.
    + rewrite slot_upd_other by auto. reflexivity.
  - intros U d y Hd. simpl in Hd. destruct (Nat.eq_dec c d) as [->|D].
    + erewrite slot_upd_same in Hd by exact Q. injection Hd as <-. simpl. auto.
    + rewrite slot_upd_other in Hd by auto. apply (A3 U _ _ Hd).
Qed.
Lemma c_swap c d : within calm (@swap K V c d).
Proof.
  intros w. unfold swap. unfold bind at 1, get_cache at 1. destruct (slot (w_caches w) c) as [x|] eqn:Qc; auto.
  unfold bind at 1, get_cache at 1. destruct (slot (w_caches w) d) as [y|] eqn:Qd; auto.
  unfold bind at 1. pose proof (c_base_swap c d w) as B. destruct (base_swap c d w) as [a w1|e w1|u|e]; auto.
  pose proof (@c_retime c (c_ttl y) w w1 B (fun U => U _ _ Qd)) as R.
  revert R. unfold bind, get_cache, put_cache, modify. destruct (slot (w_caches w1) c) as [x'|] eqn:Q1; auto. intros R.
  match type of R with calm _ ?w2 => pose proof (@c_retime d (c_ttl x) w w2 R (fun U => U _ _ Qc)) as R' end.
  revert R'. unfold bind, get_cache, put_cache, modify. auto.
Qed.
Lemma c_move_assign c d : within calm (@move_assign K V c d).
Proof.
  intros w. unfold move_assign, bind at 1. pose proof (c_base_swap c d w) as B. destruct (base_swap c d w) as [a w1|e w1|u|e]; auto.
  unfold bind, get_cache. destruct (slot (w_caches w1) c) as [x|] eqn:Q; auto. destruct (slot (w_caches w1) d) as [y|] eqn:Qd; auto.
  assert (R := @c_retime c (c_ttl y) w w1 B). unfold bind, get_cache in R. rewrite Q in R. apply R.
  intros U. destruct B as (_ & _ & B). apply (B U _ _ Qd).
Qed.
Hint Resolve c_swap c_move_assign c_base_swap : core.
(** Calls that make, destroy or assign caches, count accesses, or change what is
    monitored are not plain. *)
Definition plain (o : op K V) : bool :=
  match o with
  | New _ _ | NewFrom _ _ _ | NewIters _ _ | NewMove _ _ _ | NewRvalue _ _ | NewList _ _ | Copy _ | Move _ | Destroy _
  | CopyAssign _ _ | MonitorNew _ _ | MonitorShared _ _ | StopMonitoring _ | StatsMonitor _ _ | StatsUnmonitor _ _
  | StatsUnmonitorAll _ | StatsResetKey _ _ | Find _ _ | FindEntry _ _ | Contains _ _ | Lookup _ _ | Write _ _ _
  | EraseFound _ _ => false
  | _ => true
  end.
Lemma plain_calm o : plain o = true -> within calm (exec E o).
Proof.
  intros H w. unfold exec. destruct (well_formed w o); [|apply calm_refl].
  revert w. change (within calm (body E o)).
  destruct o; try discriminate; simpl; unfold with_ttl, add_hit_callback, add_miss_callback,
    add_access_callback, clear_hit_callbacks, clear_miss_callbacks, clear_access_callbacks,
    clear_all_callbacks; ks.
Qed.
End TallyEff.
