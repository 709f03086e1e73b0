(** The settings of a cache (capacity, time to live, monitoring, callbacks) change
    only by the calls that are meant to change them. *)
From Coq Require Import List Arith ZArith Bool Lia.
Import ListNotations.
From Verif Require Import Monad Types Model Api Spec SpecSettings Lists Effects.
Set Implicit Arguments.
Unset Strict Implicit.
Local Open Scope cpp_scope.

Section Keep.
Context {K V : Type}.
Variable E : env K V.
Hypothesis Cb : passive E.
Notation world := (world K V).
Context {A : Type}.
Variable g : nat -> option nat -> callbacks -> option Z -> A.
Definition setting (x : cache) : A := g (c_cap x) (c_stats x) (c_cbs x) (c_ttl x).
Variable X : nat -> bool.

Definition kept_set (w w' : world) : Prop :=
  forall c x, slot (w_caches w) c = Some x -> X c = false ->
  exists x', slot (w_caches w') c = Some x' /\ setting x' = setting x.
Lemma k_refl w : kept_set w w.
Proof. intros c x H _. eauto. Qed.
Lemma k_trans a b c : kept_set a b -> kept_set b c -> kept_set a c.
Proof.
  intros P Q d x H N. destruct (P d x H N) as (y & Hy & Sy). destruct (Q d y Hy N) as (z & Hz & Sz).
  exists z. split; [auto|congruence].
Qed.
Lemma same_kept B (m : M world B) : within eq m -> within kept_set m.
Proof. apply w_weaken. intros a b ->. apply k_refl. Qed.
Lemma ticked_kept B (m : M world B) : within (@ticked K V) m -> within kept_set m.
Proof. apply w_weaken. intros a b (H & _) c x. rewrite H. eauto. Qed.
Hint Resolve same_kept ticked_kept k_refl : core.
Hint Resolve e_get_cache e_get_store e_get_stats e_deref e_deref_it e_own e_map_find e_map_size e_list_front e_list_back e_list_begin e_list_prev_end e_list_deref e_last_is e_last_ptr e_size e_capacity e_is_too_full e_space_left e_is_empty e_is_full e_unordered_begin e_ordered_begin e_u_next e_o_next e_o_prev e_u_deref e_o_deref e_read_entry e_o_from_u e_ou_eq e_front e_back e_order_eq e_equals e_stats e_is_monitoring e_o_collect e_o_collect_back e_u_collect e_traverse_ordered e_traverse_backward e_traverse_unordered e_o_advance e_u_advance e_ordered_nth e_unordered_nth : core.
Hint Resolve e_now e_has_expired_info e_has_expired_key e_has_expired_o e_has_expired_u e_all_expired e_is_valid_o e_is_valid_u e_throw_o e_throw_u e_u_entry e_o_entry e_o_key e_timestamp : core.

Ltac k1 :=
  match goal with
  | |- within _ (ret _) => apply w_ret; auto
  | |- within _ (throw _) => apply w_throw; auto
  | |- within _ (undef _) => apply w_undef; auto
  | |- within _ (noexcept _) => apply w_noexcept
  | |- within _ (bind _ _) => apply w_bind; [exact k_trans| |intros]
  | |- within _ (let '(_, _) := ?x in _) => destruct x
  | |- within _ (match ?x with _ => _ end) => destruct x
  | |- within _ (if ?b then _ else _) => destruct b
  end.
Ltac ks := repeat (k1; eauto); eauto.

Lemma k_same_caches B (m : M world B) : within (fun w w' : world => w_caches w' = w_caches w) m -> within kept_set m.
Proof. apply w_weaken. intros a b H c x. rewrite H. eauto. Qed.
Lemma k_put_store c s : within kept_set (@put_store K V c s).
Proof. apply k_same_caches. intros w. reflexivity. Qed.
Lemma k_drop_store c : within kept_set (@drop_store K V c).
Proof. apply k_same_caches. intros w. reflexivity. Qed.
Lemma k_put_stats c s : within kept_set (@put_stats K V c s).
Proof. apply k_same_caches. intros w. reflexivity. Qed.
Lemma k_alloc_store s : within kept_set (@alloc_store K V s).
Proof. apply k_same_caches. intros w. reflexivity. Qed.
Lemma k_alloc_stats s : within kept_set (@alloc_stats K V s).
Proof. apply k_same_caches. intros w. reflexivity. Qed.
Lemma k_fallible : within kept_set (fallible E).
Proof. apply k_same_caches. intros w. unfold fallible. destruct (fails E (w_steps w)); reflexivity. Qed.
Lemma k_cb ev : within kept_set (cb E ev).
Proof. apply k_same_caches. intros w. rewrite Cb. reflexivity. Qed.
Lemma k_alloc_cache y : within kept_set (@alloc_cache K V y).
Proof.
  intros w c x H _. exists x. split; [|reflexivity]. simpl. unfold slot in *.
  destruct (le_lt_dec (length (w_caches w)) c).
  - rewrite nth_overflow in H by auto. discriminate.
  - rewrite app_nth1; auto.
Qed.
(** Replacing a cache object by one with the same setting. *)
Lemma k_put w c x y : slot (w_caches w) c = Some x -> X c = true \/ setting y = setting x ->
  kept_set w (with_caches (fun l => upd l c (Some y)) w).
Proof.
  intros H S d z Hd N. simpl. destruct (Nat.eq_dec c d) as [->|D].
  - erewrite slot_upd_same by eassumption. exists y. rewrite H in Hd. injection Hd as <-.
    split; auto. destruct S as [S|S]; [congruence|auto].
  - rewrite slot_upd_other by auto. eauto.
Qed.
Lemma k_modify c (f : cache -> cache) : (forall x, X c = true \/ setting (f x) = setting x) ->
  within kept_set (x <- get_cache c;; put_cache c (f x) : M world unit).
Proof.
  intros S w. unfold bind, get_cache. destruct (slot (w_caches w) c) as [x|] eqn:H; auto.
  apply k_put with x; auto.
Qed.
Lemma k_set_last c p : within kept_set (@set_last K V c p).
Proof. apply k_modify with (f := fun x => MkCache (c_rid x) p (c_cap x) (c_stats x) (c_cbs x) (c_ttl x)). auto. Qed.
Hint Resolve k_put_store k_drop_store k_put_stats k_alloc_store k_alloc_stats k_fallible k_cb k_alloc_cache k_set_last : core.
Lemma k_call_each_from sel all c mk ids : (forall id, within kept_set (mk id)) -> within kept_set (call_each_from E sel all c mk ids).
Proof. intros H. induction ids; simpl; ks. Qed.
Lemma k_call_each sel c mk : (forall id, within kept_set (mk id)) -> within kept_set (call_each E sel c mk).
Proof. intros H. unfold call_each. k1; eauto. apply k_call_each_from; auto. Qed.
Lemma k_register_hit c k p : within kept_set (register_hit E c k p).
Proof. unfold register_hit. ks; apply k_call_each; intros; ks. Qed.
Lemma k_register_miss c k : within kept_set (register_miss E c k).
Proof. unfold register_miss. ks; apply k_call_each; intros; ks. Qed.
Hint Resolve k_register_hit k_register_miss : core.
Lemma k_update_node p f : within kept_set (@update_node K V p f).
Proof. unfold update_node. ks. Qed.
Hint Resolve k_update_node : core.
Lemma k_map_emplace c n : within kept_set (map_emplace E c n).
Proof. unfold map_emplace. ks. Qed.
Hint Resolve k_map_emplace : core.
Lemma k_map_erase_it c i : within kept_set (@map_erase_it K V c i).
Proof. unfold map_erase_it. ks. Qed.
Hint Resolve k_map_erase_it : core.
Lemma k_map_erase_key c k : within kept_set (map_erase_key E c k).
Proof. unfold map_erase_key. ks. Qed.
Hint Resolve k_map_erase_key : core.
Lemma k_splice c q : within kept_set (@list_splice_back K V c q).
Proof. unfold list_splice_back. ks. Qed.
Hint Resolve k_splice : core.
Lemma k_list_erase c q : within kept_set (@list_erase K V c q).
Proof. unfold list_erase. ks. Qed.
Hint Resolve k_list_erase : core.
Lemma k_emplace_back c p : within kept_set (list_emplace_back E c p).
Proof. unfold list_emplace_back. ks. Qed.
Hint Resolve k_emplace_back : core.
Lemma k_set_front c p : within kept_set (@list_set_front K V c p).
Proof. unfold list_set_front. ks. Qed.
Hint Resolve k_set_front : core.
Lemma k_invalidate c : within kept_set (@invalidate_last K V c).
Proof. unfold invalidate_last. ks. Qed.
Hint Resolve k_invalidate : core.
Lemma k_move_to_front c q : within kept_set (@move_to_front K V c q).
Proof. unfold move_to_front. ks. Qed.
Hint Resolve k_move_to_front : core.
Lemma k_move_to_front_value c i v : within kept_set (move_to_front_value E c i v).
Proof. unfold move_to_front_value. ks. Qed.
Hint Resolve k_move_to_front_value : core.
Lemma k_erase_it c i : within kept_set (erase_it E c i).
Proof. unfold erase_it. ks. Qed.
Hint Resolve k_erase_it : core.
Lemma k_erase_key_info c i : within kept_set (erase_key_info E c i).
Proof. unfold erase_key_info. ks. Qed.
Hint Resolve k_erase_key_info : core.
Lemma k_erase_lru c : within kept_set (erase_lru E c).
Proof. unfold erase_lru. ks. Qed.
Hint Resolve k_erase_lru : core.
Lemma k_evict c p : within kept_set (evict_lru_for E c p).
Proof. unfold evict_lru_for. ks. Qed.
Hint Resolve k_evict : core.
Lemma k_insert_new_key c p : within kept_set (insert_new_key E c p).
Proof. unfold insert_new_key. ks. Qed.
Hint Resolve k_insert_new_key : core.
Lemma k_clear c : within kept_set (@clear K V c).
Proof. unfold clear. ks. Qed.
Hint Resolve k_clear : core.
Lemma k_erase_lru_while f : forall c n, within kept_set (erase_lru_while E f c n).
Proof. induction f; intros; simpl; ks. Qed.
Hint Resolve k_erase_lru_while : core.
Lemma k_shrink c n : within kept_set (shrink E c n).
Proof. unfold shrink. ks. Qed.
Hint Resolve k_shrink : core.
Lemma k_set_node_order p q : within kept_set (@set_node_order K V p q).
Proof. unfold set_node_order. ks. Qed.
Hint Resolve k_set_node_order : core.
Lemma k_insert c k v : within kept_set (insert E c k v).
Proof. unfold insert. ks. Qed.
Hint Resolve k_insert : core.
Lemma k_emplace c k v : within kept_set (emplace E c k v).
Proof. unfold emplace. ks. Qed.
Hint Resolve k_emplace : core.
Lemma k_insert_range c l : within kept_set (insert_range E c l).
Proof. apply w_foldM; [exact k_refl|exact k_trans|intros; ks]. Qed.
Hint Resolve k_insert_range : core.
Lemma k_insert_move c l : within kept_set (insert_move E c l).
Proof. apply w_foldM; [exact k_refl|exact k_trans|intros; ks]. Qed.
Hint Resolve k_insert_move : core.
Lemma k_erase_key c k : within kept_set (erase_key E c k).
Proof. unfold erase_key. ks. Qed.
Hint Resolve k_erase_key : core.
Lemma k_erase_u c it : within kept_set (erase_u E c it).
Proof. unfold erase_u. ks. Qed.
Hint Resolve k_erase_u : core.
Lemma k_erase_o c it : within kept_set (erase_o E c it).
Proof. unfold erase_o. ks. Qed.
Hint Resolve k_erase_o : core.
Lemma k_new_cache n t : within kept_set (@new_cache K V n t).
Proof. unfold new_cache. ks. Qed.
Hint Resolve k_new_cache : core.
Lemma k_reassign ids : forall c, within kept_set (reassign E c ids).
Proof. induction ids; intros; simpl; ks. Qed.
Hint Resolve k_reassign : core.
Lemma k_reassign_references c : within kept_set (reassign_references E c).
Proof. unfold reassign_references. ks. Qed.
Hint Resolve k_reassign_references : core.
Lemma k_clear_expired_loop f : forall c d n, within kept_set (clear_expired_loop E f c d n).
Proof. induction f; intros; simpl; ks. Qed.
Hint Resolve k_clear_expired_loop : core.
Lemma k_clear_expired c d : within kept_set (clear_expired E c d).
Proof. unfold clear_expired. ks. Qed.
Hint Resolve k_clear_expired : core.
Lemma k_denotes c it : within kept_set (@denotes K V c it).
Proof. unfold denotes. ks. Qed.
Hint Resolve k_denotes : core.

(** ** Lookup and iterators *)
Lemma k_find_hit c k i : within kept_set (find_hit E c k i).
Proof. unfold find_hit. ks. Qed.
Hint Resolve k_find_hit : core.
Lemma k_find c k : within kept_set (find E c k).
Proof. unfold find. ks. Qed.
Lemma k_last_ok c : within kept_set (last_accessed_is_ok E c).
Proof. unfold last_accessed_is_ok. ks. Qed.
Lemma k_value_last c : within kept_set (value_for_last_accessed E c).
Proof. unfold value_for_last_accessed. ks. Qed.
Hint Resolve k_find k_last_ok k_value_last : core.
Lemma k_contains c k : within kept_set (contains E c k).
Proof. unfold contains. ks. Qed.
Lemma k_lookup c k : within kept_set (lookup E c k).
Proof. unfold lookup. ks. Qed.
Hint Resolve k_contains k_lookup : core.

(** ** Objects *)
Lemma k_drop_cache c : X c = true -> within kept_set (@drop_cache K V c).
Proof.
  intros Y w d x H N. simpl. exists x. split; auto. rewrite slot_upd_other; auto. intros ->. congruence.
Qed.
Lemma k_destroy c : X c = true -> within kept_set (@destroy K V c).
Proof. intros. unfold destroy. ks. apply k_drop_cache; auto. Qed.
Lemma k_with_new n t (b : nat -> M world nat) : (forall c, within kept_set (b c)) -> within kept_set (with_new n t b).
Proof.
  intros Hb w. unfold with_new, new_cache, bind, alloc_store, alloc_cache. simpl.
  set (w1 := with_caches _ _). set (c := length (w_caches w)).
  assert (Aw : kept_set w w1).
  { pose proof (@k_new_cache n t w) as P. exact P. }
  specialize (Hb c w1). destruct (b c w1) as [a w'|e w'|u|e]; auto.
  - eapply k_trans; eauto.
  - unfold destroy, bind. destruct (get_cache c w') as [x w2|x w2|u|e2] eqn:G; auto;
      unfold get_cache in G; destruct (slot (w_caches w') c) eqn:Q; try discriminate G.
    injection G as <- <-. simpl.
    intros d y H N. assert (L : d < c).
    { unfold c. destruct (le_lt_dec (length (w_caches w)) d); auto. unfold slot in H. rewrite nth_overflow in H by auto. discriminate H. }
    simpl. rewrite slot_upd_other by lia.
    destruct (Aw d y H N) as (y1 & H1 & S1). destruct (Hb d y1 H1 N) as (y2 & H2 & S2).
    exists y2. split; [auto|congruence].
Qed.
Lemma k_new_from n t l : within kept_set (new_from E n t l).
Proof. apply k_with_new. ks. Qed.
Lemma k_new_from_move n t l : within kept_set (new_from_move E n t l).
Proof. apply k_with_new. ks. Qed.
Hint Resolve k_new_from k_new_from_move : core.
Lemma k_new_from_iters t l : within kept_set (new_from_iters E t l).
Proof. unfold new_from_iters. ks. Qed.
Lemma k_new_from_rvalue t l : within kept_set (new_from_rvalue E t l).
Proof. unfold new_from_rvalue. ks. Qed.
Lemma k_new_from_list t l : within kept_set (new_from_list E t l).
Proof. unfold new_from_list. ks. Qed.
Lemma k_copy_new c : within kept_set (copy_new E c).
Proof. unfold copy_new. ks. Qed.
Hint Resolve k_new_from_iters k_new_from_rvalue k_new_from_list k_copy_new : core.
(** A step on an excepted cache. *)
Lemma k_put_excepted c y : X c = true -> within kept_set (@put_cache K V c y).
Proof.
  intros Y w d x H N. simpl. exists x. split; auto. rewrite slot_upd_other; auto. intros ->. congruence.
Qed.
Lemma k_copy_assign c d : X c = true \/ c = d -> within kept_set (copy_assign E c d).
Proof.
  intros H. unfold copy_assign. k1. destruct (Nat.eqb_spec c d); [ks|].
  destruct H as [H|H]; [|congruence]. ks. apply k_put_excepted; auto.
Qed.
Lemma k_set_capacity c n : (forall x, X c = true \/ g n (c_stats x) (c_cbs x) (c_ttl x) = setting x) -> within kept_set (set_capacity E c n).
Proof.
  intros H. unfold set_capacity. do 2 (k1; [now eauto|]).
  apply k_modify with (f := fun x => MkCache (c_rid x) (c_last x) n (c_stats x) (c_cbs x) (c_ttl x)). exact H.
Qed.
Lemma k_cic c n : (forall x, X c = true \/ g n (c_stats x) (c_cbs x) (c_ttl x) = setting x) ->
  within kept_set (@clear_and_increase_capacity K V c n).
Proof.
  intros H. unfold clear_and_increase_capacity. k1; [now eauto|]. intros w. unfold bind, get_cache.
  destruct (slot (w_caches w) c) as [x|] eqn:Q; auto. destruct (Nat.ltb (c_cap x) n); [|apply k_refl].
  apply k_put with x; auto. apply (H x).
Qed.
Lemma k_set_stats c s : (forall x, X c = true \/ g (c_cap x) s (c_cbs x) (c_ttl x) = setting x) -> within kept_set (@set_stats K V c s).
Proof. intros H. apply k_modify with (f := fun x => MkCache (c_rid x) (c_last x) (c_cap x) s (c_cbs x) (c_ttl x)). exact H. Qed.
Lemma k_set_cbs c f : (forall x, X c = true \/ g (c_cap x) (c_stats x) (f (c_cbs x)) (c_ttl x) = setting x) -> within kept_set (@set_cbs K V c f).
Proof. intros H. apply k_modify with (f := fun x => MkCache (c_rid x) (c_last x) (c_cap x) (c_stats x) (f (c_cbs x)) (c_ttl x)). exact H. Qed.

Lemma k_swap_at c d w : c = d \/ (forall x y, slot (w_caches w) c = Some x -> slot (w_caches w) d = Some y ->
    (X c = true \/ g (c_cap y) (c_stats x) (c_cbs x) (c_ttl y) = setting x) /\
    (X d = true \/ g (c_cap x) (c_stats y) (c_cbs y) (c_ttl x) = setting y)) ->
  match @swap K V c d w with Val _ w' | Exc _ w' => kept_set w w' | _ => True end.
Proof.
  intros H. unfold swap, base_swap, bind, get_cache.
  destruct (slot (w_caches w) c) as [x|] eqn:Qc; auto.
  destruct (slot (w_caches w) d) as [y|] eqn:Qd; auto. rewrite Qc, Qd.
  destruct (Nat.eqb_spec c d) as [->|N].
  - rewrite Qc in Qd. injection Qd as <-. simpl. rewrite Qc. simpl.
    erewrite slot_upd_same by eassumption. simpl.
    assert (R : forall z : cache, MkCache (c_rid z) (c_last z) (c_cap z) (c_stats z) (c_cbs z) (c_ttl z) = z) by (intros []; reflexivity).
    rewrite R. intros e z He _. simpl. rewrite !(upd_slot _ _ Qc). eauto.
  - destruct H as [H|H]; [congruence|]. destruct (H x y eq_refl eq_refl) as (Hc & Hd). simpl.
    rewrite slot_upd_other by auto. erewrite slot_upd_same by eassumption. simpl.
    rewrite slot_upd_other by auto. erewrite slot_upd_same; [|rewrite slot_upd_other by auto; eassumption]. simpl.
    intros e z He Ne. simpl. destruct (Nat.eq_dec d e) as [->|Nd].
    + erewrite slot_upd_same; [|rewrite slot_upd_other by auto; erewrite slot_upd_same; [reflexivity|rewrite slot_upd_other by auto; eassumption]].
      rewrite Qd in He. injection He as <-. eexists. split; [reflexivity|]. destruct Hd; [congruence|auto].
    + rewrite slot_upd_other by auto. destruct (Nat.eq_dec c e) as [->|Nc].
      * erewrite slot_upd_same; [|rewrite slot_upd_other by auto; erewrite slot_upd_same; [reflexivity|eassumption]].
        rewrite Qc in He. injection He as <-. eexists. split; [reflexivity|]. destruct Hc; [congruence|auto].
      * rewrite !slot_upd_other by auto. eauto.
Qed.
Lemma k_swap c d : c = d \/ (forall x y,
    (X c = true \/ g (c_cap y) (c_stats x) (c_cbs x) (c_ttl y) = setting x) /\
    (X d = true \/ g (c_cap x) (c_stats y) (c_cbs y) (c_ttl x) = setting y)) -> within kept_set (@swap K V c d).
Proof. intros H w. apply k_swap_at. destruct H as [H|H]; auto. Qed.
Lemma k_move_assign_at c d w : c = d \/ (forall x y, slot (w_caches w) c = Some x -> slot (w_caches w) d = Some y ->
    (X c = true \/ g (c_cap y) (c_stats x) (c_cbs x) (c_ttl y) = setting x) /\
    (X d = true \/ g (c_cap x) (c_stats y) (c_cbs y) (c_ttl y) = setting y)) ->
  match @move_assign K V c d w with Val _ w' | Exc _ w' => kept_set w w' | _ => True end.
Proof.
  intros H. unfold move_assign, base_swap, bind, get_cache.
  destruct (slot (w_caches w) c) as [x|] eqn:Qc; auto.
  destruct (slot (w_caches w) d) as [y|] eqn:Qd; auto.
  destruct (Nat.eqb_spec c d) as [->|N].
  - simpl. rewrite Qc in Qd |- *. injection Qd as <-. simpl. rewrite ?Qc. simpl.
    assert (R : forall z : cache, MkCache (c_rid z) (c_last z) (c_cap z) (c_stats z) (c_cbs z) (c_ttl z) = z) by (intros []; reflexivity).
    rewrite R. intros e z He _. simpl. rewrite (upd_slot _ _ Qc). eauto.
  - destruct H as [H|H]; [congruence|]. destruct (H x y eq_refl eq_refl) as (Hc & Hd). simpl.
    rewrite slot_upd_other by auto. erewrite slot_upd_same by eassumption. simpl.
    erewrite slot_upd_same; [|rewrite slot_upd_other by auto; eassumption]. simpl.
    intros e z He Ne. simpl. destruct (Nat.eq_dec c e) as [->|Nc].
    + erewrite slot_upd_same; [|rewrite slot_upd_other by auto; erewrite slot_upd_same; [reflexivity|eassumption]].
      rewrite Qc in He. injection He as <-. eexists. split; [reflexivity|]. destruct Hc; [congruence|auto].
    + rewrite slot_upd_other by auto. destruct (Nat.eq_dec d e) as [->|Nd].
      * erewrite slot_upd_same; [|rewrite slot_upd_other by auto; eassumption].
        rewrite Qd in He. injection He as <-. eexists. split; [reflexivity|]. destruct Hd; [congruence|auto].
      * rewrite !slot_upd_other by auto. eauto.
Qed.
Lemma k_move_assign c d : c = d \/ (forall x y,
    (X c = true \/ g (c_cap y) (c_stats x) (c_cbs x) (c_ttl y) = setting x) /\
    (X d = true \/ g (c_cap x) (c_stats y) (c_cbs y) (c_ttl y) = setting y)) -> within kept_set (@move_assign K V c d).
Proof. intros H w. apply k_move_assign_at. destruct H as [H|H]; auto. Qed.
Lemma k_copy_assign_at c d w : (forall x y, slot (w_caches w) c = Some x -> slot (w_caches w) d = Some y ->
    X c = true \/ setting y = setting x) ->
  match copy_assign E c d w with Val _ w' | Exc _ w' => kept_set w w' | _ => True end.
Proof.
  intros H. unfold copy_assign. destruct (Nat.eqb c d) eqn:N; [apply k_refl|].
  unfold noexcept, bind at 1, get_cache at 1. destruct (slot (w_caches w) c) as [x|] eqn:Qc; auto.
  unfold bind at 1, get_cache at 1. destruct (slot (w_caches w) d) as [y|] eqn:Qd; auto.
  match goal with |- match (match ?m w with _ => _ end) with _ => _ end => assert (W : match m w with Val _ w' | Exc _ w' => kept_set w w' | _ => True end) end.
  { specialize (H x y eq_refl eq_refl).
    unfold bind at 1, get_store. destruct (slot (w_stores w) (c_rid y)) as [s|] eqn:Qs; auto.
    unfold bind at 1. pose proof (k_fallible w) as F1. destruct (fallible E w) as [a1 w1|e1 w1|u1|e1] eqn:X1; auto.
    unfold bind at 1. pose proof (k_fallible w1) as F2. destruct (fallible E w1) as [a2 w2|e2 w2|u2|e2] eqn:X2; eauto using k_trans.
    assert (C1 : w_caches w1 = w_caches w) by (unfold fallible in X1; destruct (fails E (w_steps w)); inversion X1; reflexivity).
    assert (C2 : w_caches w2 = w_caches w1) by (unfold fallible in X2; destruct (fails E (w_steps w1)); inversion X2; reflexivity).
    unfold bind at 1, drop_store at 1, modify at 1. unfold bind at 1, alloc_store at 1.
    unfold bind at 1, put_cache at 1, modify at 1.
    match goal with |- match reassign_references E c ?w3 with _ => _ end => set (w4 := w3); pose proof (@k_reassign_references c w4) as R end.
    assert (W4 : kept_set w w4).
    { intros e z He Ne. unfold w4. simpl. rewrite C2, C1. destruct (Nat.eq_dec c e) as [->|D].
      - erewrite slot_upd_same by eassumption. eexists. split; [reflexivity|]. rewrite Qc in He. injection He as <-.
        destruct H; [congruence|]. exact H.
      - rewrite slot_upd_other by auto. eauto. }
    destruct (reassign_references E c w4); eauto using k_trans. }
  match type of W with match ?r with _ => _ end => destruct r end; auto.
Qed.
Lemma k_move_new c : (forall x n, X c = true \/ g n (c_stats x) (c_cbs x) (c_ttl x) = setting x) -> within kept_set (move_new E c).
Proof.
  intros H w. unfold move_new, base_swap, bind, get_cache, new_cache, alloc_store, alloc_cache.
  destruct (slot (w_caches w) c) as [x|] eqn:Qc; auto. destruct (junk E) as [n|]; [|exact I]. simpl.
  assert (L : c < length (w_caches w)).
  { destruct (le_lt_dec (length (w_caches w)) c); auto. unfold slot in Qc. rewrite nth_overflow in Qc by auto. discriminate Qc. }
  assert (P : forall (l : list (option cache)) b e, e < length l -> slot (l ++ [b]) e = slot l e).
  { intros. unfold slot. rewrite app_nth1; auto. }
  assert (P' : forall (l : list (option cache)) b, slot (l ++ [b]) (length l) = b).
  { intros. unfold slot. rewrite app_nth2, Nat.sub_diag; auto. }
  simpl. rewrite P'. simpl. rewrite P by auto. rewrite Qc. destruct (Nat.eqb_spec (length (w_caches w)) c); [lia|].
  simpl. intros e z He Ne. simpl.
  assert (L' : e < length (w_caches w)).
  { destruct (le_lt_dec (length (w_caches w)) e); auto. unfold slot in He. rewrite nth_overflow in He by auto. discriminate He. }
  destruct (Nat.eq_dec c e) as [->|Nc].
  - erewrite slot_upd_same; [|rewrite slot_upd_other by lia; rewrite P by auto; eassumption].
    rewrite Qc in He. injection He as <-. eexists. split; [reflexivity|]. destruct (H x n); [congruence|auto].
  - rewrite !slot_upd_other by lia. rewrite P by auto. eauto.
Qed.
End Keep.

#[local] Hint Resolve same_kept ticked_kept k_refl : core.
#[local] Hint Resolve e_get_cache e_get_store e_get_stats e_deref e_deref_it e_own e_map_find e_map_size e_list_front e_list_back e_list_begin e_list_prev_end e_list_deref e_last_is e_last_ptr e_size e_capacity e_is_too_full e_space_left e_is_empty e_is_full e_unordered_begin e_ordered_begin e_u_next e_o_next e_o_prev e_u_deref e_o_deref e_read_entry e_o_from_u e_ou_eq e_front e_back e_order_eq e_equals e_stats e_is_monitoring e_o_collect e_o_collect_back e_u_collect e_traverse_ordered e_traverse_backward e_traverse_unordered e_o_advance e_u_advance e_ordered_nth e_unordered_nth e_now e_has_expired_info e_has_expired_key e_has_expired_o e_has_expired_u e_all_expired e_is_valid_o e_is_valid_u e_throw_o e_throw_u e_u_entry e_o_entry e_o_key e_timestamp : core.
#[local] Hint Resolve k_put_store k_drop_store k_put_stats k_alloc_store k_alloc_stats k_fallible k_cb k_alloc_cache k_set_last k_call_each_from k_call_each k_register_hit k_register_miss k_update_node k_map_emplace k_map_erase_it k_map_erase_key k_splice k_list_erase k_emplace_back k_set_front k_invalidate k_move_to_front k_move_to_front_value k_erase_it k_erase_key_info k_erase_lru k_evict k_insert_new_key k_clear k_erase_lru_while k_shrink k_set_node_order k_insert k_emplace k_insert_range k_insert_move k_erase_key k_erase_u k_erase_o k_new_cache k_reassign k_reassign_references k_clear_expired_loop k_clear_expired k_denotes k_find_hit k_find k_last_ok k_value_last k_contains k_lookup k_drop_cache k_destroy k_with_new k_new_from k_new_from_move k_new_from_iters k_new_from_rvalue k_new_from_list k_copy_new k_copy_assign k_set_capacity k_cic k_set_stats k_set_cbs k_swap k_move_assign k_move_new : core.

Ltac k1 :=
  match goal with
  | |- within _ (ret _) => apply w_ret; auto using k_refl
  | |- within _ (throw _) => apply w_throw; auto using k_refl
  | |- within _ (undef _) => apply w_undef; auto
  | |- within _ (noexcept _) => apply w_noexcept
  | |- within _ (bind _ _) => apply w_bind; [apply k_trans| |intros]
  | |- within _ (let '(_, _) := ?x in _) => destruct x
  | |- within _ (match ?x with _ => _ end) => destruct x
  | |- within _ (if ?b then _ else _) => destruct b
  end.
Ltac ks := repeat (k1; eauto); eauto.

Section Settings.
Context {K V : Type}.
Variable E : env K V.
Hypothesis Cb : passive E.
Notation world := (world K V).

Lemma exec_kept {A} (g : nat -> option nat -> callbacks -> option Z -> A) X o :
  within (kept_set g X) (body E o) -> within (kept_set g X) (exec E o).
Proof. intros H w. unfold exec. destruct (well_formed w o); [apply H|apply k_refl]. Qed.

Ltac calls := simpl; unfold with_ttl, stats_update_or, denotes, add_hit_callback, add_miss_callback,
    add_access_callback, clear_hit_callbacks, clear_miss_callbacks, clear_access_callbacks,
    clear_all_callbacks, monitor_new, monitor_shared, stop_monitoring, assign_range, assign_move; ks.

Ltac side := intros; unfold setting; simpl; unfold either; rewrite ?Nat.eqb_refl, ?orb_true_r; simpl; auto.
Ltac pair_side c d := destruct (Nat.eqb_spec c d) as [->|]; [left; reflexivity|right; side].
Ltac fin := match goal with
  | |- within _ (move_new _ _) => apply k_move_new; side
  | |- within _ (destroy _) => apply k_destroy; side
  | |- within _ (copy_assign _ ?c ?d) => apply k_copy_assign; auto;
      destruct (Nat.eqb_spec c d) as [->|N]; [right; reflexivity|left; simpl; apply Nat.eqb_neq in N; rewrite N, Nat.eqb_refl; reflexivity]
  | |- within _ (move_assign ?c ?d) => apply k_move_assign;
      destruct (Nat.eqb_spec c d) as [->|N]; [left; reflexivity|right; apply Nat.eqb_neq in N; side; rewrite N; auto]
  | |- within _ (swap ?c ?d) => apply k_swap;
      destruct (Nat.eqb_spec c d) as [->|N]; [left; reflexivity|right; apply Nat.eqb_neq in N; side; rewrite N; auto]
  | |- within _ (clear_and_increase_capacity _ _) => apply k_cic; side
  | |- within _ (set_capacity _ _ _) => apply k_set_capacity; side
  | |- within _ (set_stats _ _) => apply k_set_stats; side
  | |- within _ (set_cbs _ _) => apply k_set_cbs; side
  end.

Lemma capacity_kept o : within (kept_set (fun n _ _ _ => n) (may_set_capacity o)) (exec E o).
Proof. apply exec_kept. destruct o; calls; fin. Qed.
Lemma ttl_kept o : within (kept_set (fun _ _ _ t => t) (may_set_ttl o)) (exec E o).
Proof. apply exec_kept. destruct o; calls; fin. Qed.
Lemma monitor_kept o : within (kept_set (fun _ s _ _ => s) (may_set_monitor o)) (exec E o).
Proof. apply exec_kept. destruct o; calls; fin. Qed.
Lemma callbacks_kept o : within (kept_set (fun _ _ b _ => b) (may_set_callbacks o)) (exec E o).
Proof. apply exec_kept. destruct o; calls; fin. Qed.

Definition is_timed (t : option Z) : bool := match t with Some _ => true | None => false end.
Lemma same_kind_spec (w : world) c d x y : same_kind w c d = true -> slot (w_caches w) c = Some x -> slot (w_caches w) d = Some y ->
  is_timed (c_ttl x) = is_timed (c_ttl y).
Proof.
  unfold same_kind, timed. intros H Hx Hy. rewrite Hx, Hy in H. apply andb_prop in H as (_ & H). apply Bool.eqb_prop in H. exact H.
Qed.
Lemma kind_kept o : within (kept_set (fun _ _ _ t => is_timed t) (may_end o)) (exec E o).
Proof.
  destruct (match o with CopyAssign _ _ | MoveAssign _ _ | Swap _ _ => true | _ => false end) eqn:D.
  2: apply exec_kept; destruct o; try discriminate D; calls; fin.
  intros w. unfold exec. destruct (well_formed w o) eqn:W; [|apply k_refl].
  destruct o; try discriminate D; simpl in W |- *; unfold bind.
  - match goal with |- context [copy_assign E ?c ?d w] =>
      pose proof (@k_copy_assign_at _ _ E _ (fun _ _ _ t => is_timed t) (may_end (CopyAssign (K := K) (V := V) c d)) c d w) as P end.
    destruct (copy_assign E c d w); auto; apply P; intros x y Hx Hy; right; symmetry; exact (same_kind_spec W Hx Hy).
  - match goal with |- context [@move_assign K V ?c ?d w] =>
      pose proof (@k_move_assign_at K V _ (fun _ _ _ t => is_timed t) (may_end (MoveAssign (K := K) (V := V) c d)) c d w) as P end.
    destruct (move_assign c d w); auto; apply P; right; intros x y Hx Hy; pose proof (same_kind_spec W Hx Hy); split; right; unfold setting; congruence.
  - match goal with |- context [@swap K V ?c ?d w] =>
      pose proof (@k_swap_at K V _ (fun _ _ _ t => is_timed t) (may_end (Swap (K := K) (V := V) c d)) c d w) as P end.
    destruct (swap c d w); auto; apply P; right; intros x y Hx Hy; pose proof (same_kind_spec W Hx Hy); split; right; unfold setting; congruence.
Qed.

(** ** Histories *)
Lemma run_kept {A} (g : nat -> option nat -> callbacks -> option Z -> A) may :
  (forall o, within (kept_set g (may o)) (exec E o)) ->
  forall c ops w outs w' x, run E ops w = Finished outs w' -> spares may c ops = true ->
  slot (w_caches w) c = Some x -> exists x', slot (w_caches w') c = Some x' /\ setting g x' = setting g x.
Proof.
  intros H c. induction ops as [|o t IH]; intros w outs w' x R S Q.
  - simpl in R. injection R as _ <-. eauto.
  - simpl in R, S. apply andb_prop in S as (S1 & S2). apply negb_true_iff in S1.
    pose proof (H o w) as Ho. destruct (exec E o w) as [r w1|e w1|u|e] eqn:X; try discriminate R;
      destruct (Ho c x Q S1) as (x1 & Q1 & G1);
      destruct (run E t w1) as [l w2|l u|l u] eqn:Rt; try discriminate R; simpl in R; injection R as _ <-;
      destruct (IH w1 l w2 x1 Rt S2 Q1) as (x2 & Q2 & G2); exists x2; split; auto; congruence.
Qed.

Lemma capacity_is_slot c w n : capacity_is E c w n <-> exists x, slot (w_caches w) c = Some x /\ c_cap x = n.
Proof.
  unfold capacity_is, exec. simpl. unfold alive, capacity, bind, get_cache. split.
  - destruct (slot (w_caches w) c) as [x|]; simpl; intros H; [|discriminate H]. injection H as <-. eauto.
  - intros (x & -> & <-). reflexivity.
Qed.
Lemma capacity_history c ops w outs w' n : run E ops w = Finished outs w' -> spares may_set_capacity c ops = true ->
  capacity_is E c w n -> capacity_is E c w' n.
Proof.
  intros R S H. apply capacity_is_slot in H as (x & Q & <-). apply capacity_is_slot.
  destruct (run_kept capacity_kept R S Q) as (x' & Q' & G). eauto.
Qed.
Lemma ttl_history c ops w outs w' t : run E ops w = Finished outs w' -> spares may_set_ttl c ops = true ->
  ttl_of c w t -> ttl_of c w' t.
Proof.
  intros R S (x & Q & <-). destruct (run_kept ttl_kept R S Q) as (x' & Q' & G). exists x'. auto.
Qed.
Lemma monitor_history c ops w outs w' s : run E ops w = Finished outs w' -> spares may_set_monitor c ops = true ->
  monitor_of c w s -> monitor_of c w' s.
Proof.
  intros R S (x & Q & <-). destruct (run_kept monitor_kept R S Q) as (x' & Q' & G). exists x'. auto.
Qed.
Lemma callbacks_history c ops w outs w' b : run E ops w = Finished outs w' -> spares may_set_callbacks c ops = true ->
  callbacks_of c w b -> callbacks_of c w' b.
Proof.
  intros R S (x & Q & <-). destruct (run_kept callbacks_kept R S Q) as (x' & Q' & G). exists x'. auto.
Qed.
Lemma kind_history c ops w outs w' : run E ops w = Finished outs w' -> spares may_end c ops = true ->
  alive w c = true -> alive w' c = true /\ timed w' c = timed w c.
Proof.
  intros R S A. unfold alive, timed in *. destruct (slot (w_caches w) c) as [x|] eqn:Q; [|discriminate A].
  destruct (run_kept kind_kept R S Q) as (x' & Q' & G). rewrite Q'. split; [reflexivity|exact G].
Qed.

(** ** What the setting calls set *)
Lemma set_capacity_sets c n w r w1 : exec E (SetCapacity c n) w = Val r w1 -> alive w c = true -> capacity_is E c w1 n.
Proof.
  unfold exec. simpl. intros H A. rewrite A in H. unfold set_capacity, bind in H.
  destruct (size c w) as [sz w2|e w2|u|e]; try discriminate H.
  destruct (erase_lru_while E sz c n w2) as [[] w3|e w3|u|e]; try discriminate H.
  unfold get_cache in H. destruct (slot (w_caches w3) c) as [x|] eqn:Q; try discriminate H.
  simpl in H. injection H as _ <-. apply capacity_is_slot. simpl. erewrite slot_upd_same by eassumption. eauto.
Qed.
Lemma with_new_sets n t (b : nat -> M world nat) w c w1 :
  (forall e, within (kept_set (fun n _ _ t => (n, t)) (fun _ => false)) (b e)) ->
  with_new n t b w = Val c w1 -> exists x, slot (w_caches w1) c = Some x /\ c_cap x = n /\ c_ttl x = t.
Proof.
  intros Hb. unfold with_new, new_cache, bind, alloc_store, alloc_cache. simpl.
  set (w2 := with_caches _ _). set (e := length (w_caches w)).
  assert (Q : slot (w_caches w2) e = Some (MkCache (length (w_stores w)) None n None no_callbacks t)).
  { unfold w2, e, slot. simpl. rewrite app_nth2, Nat.sub_diag; auto. }
  specialize (Hb e w2). destruct (b e w2) as [a w'|ex w'|u|ex]; intros H; try discriminate H.
  - injection H as <- <-. destruct (Hb e _ Q eq_refl) as (x & Q' & G). injection G as G1 G2. eauto.
  - unfold destroy, bind, get_cache in H. destruct (slot (w_caches w') e); discriminate H.
Qed.
Lemma builds_sets t o cap l w c w1 : builds t o cap l -> exec E o w = Val (RNat c) w1 ->
  capacity_is E c w1 cap /\ ttl_of c w1 t.
Proof.
  intros B H.
  assert (G : exists x, slot (w_caches w1) c = Some x /\ c_cap x = cap /\ c_ttl x = t).
  { destruct B; unfold exec in H; simpl in H; unfold bind in H.
    - unfold new_cache, bind, alloc_store, alloc_cache in H. simpl in H. injection H as <- <-.
      eexists. simpl. split; [unfold slot; rewrite app_nth2 by auto; rewrite Nat.sub_diag; reflexivity|auto].
    - destruct (new_from E cap t l w) as [c' w'|e w'|u|e] eqn:N; try discriminate H. injection H as <- <-.
      eapply with_new_sets; [|exact N]. intros e. apply k_insert_range.
    - destruct (new_from_move E cap t l w) as [c' w'|e w'|u|e] eqn:N; try discriminate H. injection H as <- <-.
      eapply with_new_sets; [|exact N]. intros e. apply k_insert_move.
    - destruct (new_from_iters E t l w) as [c' w'|e w'|u|e] eqn:N; try discriminate H. injection H as <- <-.
      eapply with_new_sets; [|exact N]. intros e. apply k_insert_range.
    - destruct (new_from_rvalue E t l w) as [c' w'|e w'|u|e] eqn:N; try discriminate H. injection H as <- <-.
      eapply with_new_sets; [|exact N]. intros e. apply k_insert_move.
    - destruct (new_from_list E t l w) as [c' w'|e w'|u|e] eqn:N; try discriminate H. injection H as <- <-.
      eapply with_new_sets; [|exact N]. intros e. apply k_insert_range. }
  destruct G as (x & Q & G1 & G2). split; [apply capacity_is_slot; eauto|exists x; auto].
Qed.
Lemma built_capacity t o cap l w c w1 ops outs w' : builds t o cap l -> exec E o w = Val (RNat c) w1 ->
  run E ops w1 = Finished outs w' -> spares may_set_capacity c ops = true -> capacity_is E c w' cap.
Proof. intros B H R S. destruct (builds_sets B H). eapply capacity_history; eauto. Qed.
Lemma built_ttl t o cap l w c w1 ops outs w' : builds t o cap l -> exec E o w = Val (RNat c) w1 ->
  run E ops w1 = Finished outs w' -> spares may_set_ttl c ops = true -> ttl_of c w' t.
Proof. intros B H R S. destruct (builds_sets B H). eapply ttl_history; eauto. Qed.
Lemma set_history c n w r w1 ops outs w' : alive w c = true -> exec E (SetCapacity c n) w = Val r w1 ->
  run E ops w1 = Finished outs w' -> spares may_set_capacity c ops = true -> capacity_is E c w' n.
Proof. intros A H R S. eapply capacity_history; eauto. eapply set_capacity_sets; eauto. Qed.

(** ** Assignment to itself *)
Lemma copy_assign_self c w : alive w c = true -> exec E (CopyAssign c c) w = Val RUnit w.
Proof.
  intros A. unfold exec. simpl. unfold same_kind. rewrite A, Bool.eqb_reflx. simpl.
  unfold bind, copy_assign, noexcept. rewrite Nat.eqb_refl. reflexivity.
Qed.
Lemma move_assign_self c w : alive w c = true -> exec E (MoveAssign c c) w = Val RUnit w.
Proof.
  intros A. unfold exec. simpl. unfold same_kind. rewrite A, Bool.eqb_reflx. simpl.
  unfold bind, move_assign, base_swap, bind, get_cache, alive in *. rewrite Nat.eqb_refl.
  destruct w as [cs ss st lg rd sp]. simpl in *. destruct (slot cs c) as [x|] eqn:Q; [|discriminate A]. simpl.
  repeat (first [rewrite Q | change (nth c cs None) with (slot cs c); rewrite Q]; cbn). unfold with_caches. cbn.
  destruct x; cbn in *. rewrite (upd_slot _ _ Q). reflexivity.
Qed.
End Settings.
