(** The invariant of AnyWorld.v holds in every world a history reaches. *)
From Coq Require Import List Arith ZArith Bool Permutation Lia.
Import ListNotations.
From Verif Require Import Monad Types Model Api Spec Ref Lists SimBase SimRel Effects CopyEval AnyWorld AnyKeep AnyInsert.
Set Implicit Arguments.
Unset Strict Implicit.
Local Open Scope cpp_scope.

Section Run.
Context {K V : Type}.
Variable E : env K V.
Hypothesis G : good E.

Notation world := (world K V).
Notation store := (store K V).
Notation mnode := (mnode K V).
Notation M := (M world).
Notation ws := (ws E).
Notation W := (W E).
Notation kw := (kw E).
Notation lc := (@lc K).
Implicit Types (w : world) (s : store).

Hint Resolve same_kw ticked_kw kw_refl : core.
Hint Resolve e_get_cache e_get_store e_get_stats e_deref e_deref_it e_own e_map_find e_map_size e_list_front e_list_back e_list_begin e_list_prev_end e_list_deref e_last_is e_last_ptr e_size e_capacity e_is_too_full e_space_left e_is_empty e_is_full e_unordered_begin e_ordered_begin e_u_next e_o_next e_o_prev e_u_deref e_o_deref e_read_entry e_o_from_u e_ou_eq e_front e_back e_order_eq e_equals e_stats e_is_monitoring e_o_collect e_o_collect_back e_u_collect e_traverse_ordered e_traverse_backward e_traverse_unordered e_o_advance e_u_advance e_ordered_nth e_unordered_nth : core.
Hint Resolve e_now e_has_expired_info e_has_expired_key e_has_expired_o e_has_expired_u e_all_expired e_is_valid_o e_is_valid_u e_throw_o e_throw_u e_u_entry e_o_entry e_o_key e_timestamp : core.
Hint Resolve k_put_stats k_alloc_stats k_fallible k_register_hit k_register_miss k_write k_invalidate k_set_stats k_set_cbs k_move_to_front k_erase_it k_erase_key k_erase_u k_erase_o k_erase_lru k_erase_lru_while k_clear_expired k_clear k_shrink k_set_capacity k_cic : core.
Ltac k1 :=
  match goal with
  | |- within _ (ret _) => apply w_ret; auto
  | |- within _ (throw _) => apply w_throw; auto
  | |- within _ (undef _) => apply w_undef; auto
  | |- within _ (noexcept _) => apply w_noexcept
  | |- within _ (bind _ _) => apply w_bind; [exact (@kw_trans K V E)| |intros]
  | |- within _ (let '(_, _) := ?x in _) => destruct x
  | |- within _ (match ?x with _ => _ end) => destruct x
  | |- within _ (if ?b then _ else _) => destruct b
  end.
Ltac ks := repeat (k1; eauto); eauto.

Lemma placed_W w w' c x s l n q s' : W w -> at_ w c x s -> length l <= c_cap x -> 0 < c_cap x ->
  placed E w w' x s l n q s' -> W w' /\ at_ w' c x s'.
Proof.
  intros Hw A L P Pl. split.
  - eapply (W_same (w := setS (c_rid x) s' w)); [apply (pl_caches Pl)|apply (pl_stores Pl)|].
    eapply W_put_at; [exact Hw|exact A|apply (pl_ws Pl)|apply grown_length; auto].
  - destruct A as (Hx & Hs). split; [rewrite (pl_caches Pl); auto|rewrite (pl_stores Pl)]. erewrite slot_upd_same; eauto.
Qed.
Lemma ticked_at w w' c x s : ticked w w' -> at_ w c x s -> at_ w' c x s.
Proof. intros (C & S & _) (H1 & H2). split; congruence. Qed.
Lemma map_find_none c k w x s : at_ w c x s -> map_find E c k w = Val None w -> node_with E k (s_map s) = None.
Proof.
  intros A. unfold map_find. erewrite bind_val; [|apply (own_ev A)]. cbv iota beta.
  destruct (node_with E k (s_map s)) as [[? ?]|]; [discriminate|auto].
Qed.
Lemma timestamp_ev c w x : slot (w_caches w) c = Some x -> exists t w', timestamp E c w = Val t w' /\ ticked w w'.
Proof.
  intros Hx. pose proof (@e_timestamp K V E c w) as T. unfold timestamp, bind, get_cache in *. rewrite Hx in *.
  destruct (c_ttl x); simpl in *; do 2 eexists; (split; [reflexivity|exact T]).
Qed.
Lemma k_insert c k v : within kw (insert E c k v).
Proof.
  apply by_W. intros w Hw. unfold insert. apply read_bind; auto. intros cap Hc.
  unfold capacity, bind, get_cache in Hc. destruct (slot (w_caches w) c) as [x|] eqn:Hx; [|discriminate Hc]. injection Hc as <-.
  destruct (Nat.eqb_spec (c_cap x) 0) as [Z|Z]; [exact Hw|].
  destruct (W_at Hw Hx) as (s & l & A & Hl & L).
  apply read_bind; auto. intros i Hi. destruct i as [i|].
  - pose proof (map_find_region Hx Hi) as R. eapply pin_kw; eauto. apply q_existing; auto.
  - destruct (timestamp_ev Hx) as (t & w0 & Ht & T). erewrite bind_val; [|exact Ht].
    pose proof (ticked_at T A) as A0. pose proof (map_find_none A Hi) as N.
    destruct (@new_key_ev K V E G w0 c x s l (MkNode k v None t) A0 Hl L ltac:(lia) N) as (w1 & q & w2 & w3 & s' & E1 & E2 & E3 & Pl).
    erewrite bind_val; [|exact E1]. cbv iota beta. erewrite bind_val; [|reflexivity].
    cbn [fst]. erewrite bind_val; [|exact E2]. erewrite bind_val; [|exact E3].
    assert (Hw0 : W w0) by (destruct T as (C & S & _); eapply W_same; eauto).
    destruct (placed_W Hw0 A0 L ltac:(lia) Pl) as (Hw3 & A3). destruct A3 as (Hx3 & _).
    eapply pin_kw; eauto. apply w_bind; [apply kp_trans|apply same_kp; auto|]. intros n.
    apply w_bind; [apply kp_trans|apply q_set_last; auto|]. intros []. apply w_ret. apply kp_refl.
Qed.
Lemma k_emplace c k v : within kw (emplace E c k v).
Proof.
  apply by_W. intros w Hw. unfold emplace. apply read_bind; auto. intros cap Hc.
  unfold capacity, bind, get_cache in Hc. destruct (slot (w_caches w) c) as [x'|] eqn:Hx'; [|discriminate Hc]. injection Hc as <-.
  destruct (Nat.eqb_spec (c_cap x') 0) as [Z|Z]; [exact Hw|].
  erewrite bind_val; [|apply (fallible_ev G)].
  match goal with |- match _ ?v with _ => _ end => set (wt := v) end.
  assert (Hwt : W wt) by (eapply (W_same (w := w)); auto). assert (Hx : slot (w_caches wt) c = Some x') by exact Hx'.
  rename x' into x. destruct (W_at Hwt Hx) as (s & l & A & Hl & L).
  apply read_bind; auto. intros i Hi. destruct i as [i|].
  - pose proof (map_find_region Hx Hi) as R. eapply pin_kw; eauto. apply w_bind; [apply kp_trans|apply q_fallible; auto|]. intros ?. apply q_existing; auto.
  - destruct (timestamp_ev Hx) as (t & w0 & Ht & T). erewrite bind_val; [|exact Ht].
    pose proof (ticked_at T A) as A0. pose proof (map_find_none A Hi) as N.
    destruct (@new_key_ev K V E G w0 c x s l (MkNode k v None t) A0 Hl L ltac:(lia) N) as (w1 & q & w2 & w3 & s' & E1 & E2 & E3 & Pl).
    erewrite bind_val; [|exact E1]. cbv iota beta.
    cbn [fst]. erewrite bind_val; [|exact E2]. erewrite bind_val; [|exact E3]. erewrite bind_val; [|reflexivity].
    assert (Hw0 : W w0) by (destruct T as (C & S & _); eapply W_same; eauto).
    destruct (placed_W Hw0 A0 L ltac:(lia) Pl) as (Hw3 & A3). destruct A3 as (Hx3 & _).
    eapply pin_kw; eauto. apply w_bind; [apply kp_trans|apply same_kp; auto|]. intros n.
    apply w_bind; [apply kp_trans|apply q_set_last; auto|]. intros []. apply w_ret. apply kp_refl.
Qed.
Hint Resolve k_insert k_emplace : core.
Lemma k_insert_range c l : within kw (insert_range E c l).
Proof. apply w_foldM; [apply kw_refl|exact (@kw_trans K V E)|intros; ks]. Qed.
Lemma k_insert_move c l : within kw (insert_move E c l).
Proof. apply w_foldM; [apply kw_refl|exact (@kw_trans K V E)|intros; ks]. Qed.
Hint Resolve k_insert_range k_insert_move : core.
Lemma k_find_hit c k i w x : W w -> slot (w_caches w) c = Some x -> fst (fst i) = c_rid x ->
  forall B (b : B), match (find_hit E c k i;;; ret b) w with Val _ w' | Exc _ w' => W w' | _ => True end.
Proof.
  intros Hw Hx R B b. eapply pin_kw; eauto. apply w_bind; [apply kp_trans|apply q_find_hit; auto|]. intros []. apply w_ret, kp_refl.
Qed.
Lemma k_find c k : within kw (find E c k).
Proof.
  apply by_W. intros w Hw. unfold find. unfold bind at 1, get_cache at 1. destruct (slot (w_caches w) c) as [x|] eqn:Hx; auto.
  assert (Miss : forall B (b : B), match (register_miss E c k;;; ret b) w with Val _ w' | Exc _ w' => W w' | _ => True end).
  { intros B b. assert (Q : within kw (register_miss E c k;;; ret b)) by ks. specialize (Q w). destruct ((register_miss E c k;;; ret b) w); auto. }
  destruct (c_ttl x) as [d|].
  - apply read_bind; auto. intros i Hi. destruct i as [i|]; [|apply Miss]. apply read_bind; auto. intros n _.
    unfold bind at 1. pose proof (@e_has_expired_info K V E d n w) as T. destruct (has_expired_info E d n w) as [ex w1|e w1|u|e]; auto;
      (assert (Hw1 : W w1) by (destruct T as (C & S & _); eapply W_same; eauto)); auto.
    destruct ex.
    + assert (Q : within kw (register_miss E c k;;; ret (unordered_end c))) by ks. specialize (Q w1). destruct ((register_miss E c k;;; ret (unordered_end c)) w1); auto.
    + assert (Hx1 : slot (w_caches w1) c = Some x) by (destruct T as (C & _); congruence).
      apply k_find_hit with (x := x); auto. apply (map_find_region Hx Hi).
  - apply read_bind; auto. intros i Hi. destruct i as [i|]; [|apply Miss]. apply k_find_hit with (x := x); auto. apply (map_find_region Hx Hi).
Qed.
Lemma k_last_ok c : within kw (last_accessed_is_ok E c).
Proof. unfold last_accessed_is_ok. ks. Qed.
Lemma k_value_last c : within kw (value_for_last_accessed E c).
Proof. unfold value_for_last_accessed. ks. Qed.
Hint Resolve k_find k_last_ok k_value_last : core.
Lemma k_contains c k : within kw (contains E c k).
Proof. unfold contains. ks. Qed.
Lemma k_lookup c k : within kw (lookup E c k).
Proof. unfold lookup. ks. Qed.
Hint Resolve k_contains k_lookup : core.
Lemma k_subscript c k : within kw (subscript E c k).
Proof. unfold subscript. eauto. Qed.
Lemma k_denotes c it : within kw (@denotes K V c it).
Proof. unfold denotes. ks. Qed.
Hint Resolve k_subscript k_denotes : core.

(** ** Objects *)
Lemma W_alloc w w' y s l : W w -> w_caches w' = w_caches w ++ [Some y] -> w_stores w' = w_stores w ++ [Some s] ->
  ws (length (w_stores w)) s l -> length l <= c_cap y -> c_rid y = length (w_stores w) ->
  (forall p, c_last y = Some p -> fst p <= c_rid y) -> W w'.
Proof.
  intros Hw C S Hl L R La. constructor; rewrite ?C, ?S.
  - intros c x Hx. apply slot_app_some in Hx as [(Lt & Hx)|(-> & ->)].
    + destruct (W_c Hw Hx) as (s1 & H1 & L1). exists s1. split; auto. rewrite slot_app_lt; auto. eapply slot_lt; eauto.
    + rewrite R. exists s. rewrite slot_app_new. split; auto. rewrite (ws_size Hl); auto.
  - intros r s1 H1. apply slot_app_some in H1 as [(Lt & H1)|(-> & ->)]; [apply (W_s Hw H1)|eauto].
  - assert (Q : forall c x, slot (w_caches w) c = Some x -> c_rid x < length (w_stores w)).
    { intros c x Hx. destruct (W_c Hw Hx) as (s1 & H1 & _). eapply slot_lt; eauto. }
    intros c d x z Hx Hz Hr. apply slot_app_some in Hx as [(Lt & Hx)|(-> & ->)]; apply slot_app_some in Hz as [(Lt' & Hz)|(-> & ->)]; auto.
    + eapply (W_inj Hw); eauto.
    + specialize (Q _ _ Hx). lia.
    + specialize (Q _ _ Hz). lia.
  - intros c x p Hx Hp. apply slot_app_some in Hx as [(Lt & Hx)|(-> & ->)]; auto. apply (W_last Hw Hx Hp).
Qed.
Lemma k_new_cache n t : within kw (@new_cache K V n t).
Proof.
  intros w Hw. simpl. apply (@W_alloc w _ (MkCache (length (w_stores w)) None n None no_callbacks t) empty_store []); auto.
  - apply ws_nil.
  - simpl. lia.
  - simpl. discriminate.
Qed.
Lemma k_destroy c : within kw (@destroy K V c).
Proof.
  apply by_W. intros w Hw. unfold destroy, bind, get_cache. destruct (slot (w_caches w) c) as [x|] eqn:Hx; auto. simpl.
  assert (Q : forall d y, slot (upd (w_caches w) c None) d = Some y -> d <> c /\ slot (w_caches w) d = Some y).
  { intros d y H. destruct (Nat.eq_dec c d) as [->|N]; [erewrite slot_upd_same in H by eauto; discriminate|].
    rewrite slot_upd_other in H by auto. auto. }
  constructor; simpl.
  - intros d y H. apply Q in H as (N & H). destruct (W_c Hw H) as (s & Hs & L). exists s. split; auto.
    rewrite slot_upd_other; auto. intros R. apply N. symmetry. apply (W_inj Hw Hx H R).
  - intros r s Hs. apply (W_s (r := r) (s := s) Hw). destruct (Nat.eq_dec (c_rid x) r) as [<-|N].
    + destruct (W_c Hw Hx) as (s1 & H1 & _). erewrite slot_upd_same in Hs by eauto. discriminate.
    + rewrite slot_upd_other in Hs by auto. auto.
  - intros d e y z H1 H2. apply Q in H1 as (_ & H1). apply Q in H2 as (_ & H2). apply (W_inj Hw H1 H2).
  - intros d y p H1. apply Q in H1 as (_ & H1). apply (W_last Hw H1).
Qed.
Hint Resolve k_new_cache k_destroy : core.
Lemma k_with_new n t (b : nat -> M nat) : (forall c, within kw (b c)) -> within kw (with_new n t b).
Proof.
  intros Hb. unfold with_new. k1; auto. intros w. specialize (Hb a w).
  assert (Q : within kw (destroy a)) by auto.
  destruct (b a w) as [r w'|e w'|u|e]; auto. specialize (Q w'). unfold bind. destruct (destroy a w') as [r w2|e2 w2|u|e2]; simpl; auto; eapply kw_trans; eauto.
Qed.
Lemma k_new_from n t l : within kw (new_from E n t l).
Proof. apply k_with_new. auto. Qed.
Lemma k_new_from_move n t l : within kw (new_from_move E n t l).
Proof. apply k_with_new. auto. Qed.
Hint Resolve k_new_from k_new_from_move : core.
Lemma k_new_from_iters t l : within kw (new_from_iters E t l).
Proof. unfold new_from_iters. eauto. Qed.
Lemma k_new_from_rvalue t l : within kw (new_from_rvalue E t l).
Proof. unfold new_from_rvalue. eauto. Qed.
Lemma k_new_from_list t l : within kw (new_from_list E t l).
Proof. unfold new_from_list. eauto. Qed.
Hint Resolve k_new_from_iters k_new_from_rvalue k_new_from_list : core.

(** ** Swap and move *)
Lemma W_swap w c d x y x' y' : W w -> slot (w_caches w) c = Some x -> slot (w_caches w) d = Some y -> c <> d ->
  c_rid x' = c_rid y -> c_last x' = c_last y -> c_cap x' = c_cap y ->
  c_rid y' = c_rid x -> c_last y' = c_last x -> c_cap y' = c_cap x -> W (setC d y' (setC c x' w)).
Proof.
  intros Hw Hx Hy N R1 L1 C1 R2 L2 C2.
  assert (Q : forall e z, slot (upd (upd (w_caches w) c (Some x')) d (Some y')) e = Some z ->
    exists e' z', slot (w_caches w) e' = Some z' /\ c_rid z = c_rid z' /\ c_last z = c_last z' /\ c_cap z = c_cap z' /\
      (e = c /\ e' = d \/ e = d /\ e' = c \/ e <> c /\ e <> d /\ e' = e)).
  { intros e z H. destruct (Nat.eq_dec d e) as [->|Nd].
    - erewrite slot_upd_same in H by (rewrite slot_upd_other by auto; eauto). injection H as <-. exists c, x. auto 10.
    - rewrite slot_upd_other in H by auto. destruct (Nat.eq_dec c e) as [->|Nc].
      + erewrite slot_upd_same in H by eauto. injection H as <-. exists d, y. auto 10.
      + rewrite slot_upd_other in H by auto. exists e, z. auto 10. }
  constructor; simpl.
  - intros e z H. destruct (Q e z H) as (e' & z' & H' & R & _ & C & _). rewrite R, C. apply (W_c Hw H').
  - apply (W_s Hw).
  - intros e f z v H1 H2 R. destruct (Q e z H1) as (e' & z' & H1' & R1' & _ & _ & D1). destruct (Q f v H2) as (f' & v' & H2' & R2' & _ & _ & D2).
    assert (e' = f') by (apply (W_inj Hw H1' H2'); congruence). subst f'.
    destruct D1 as [(-> & D1)|[(-> & D1)|(D1 & D1' & D1'')]]; destruct D2 as [(-> & D2)|[(-> & D2)|(D2 & D2' & D2'')]]; congruence.
  - intros e z p H. destruct (Q e z H) as (e' & z' & H' & R & La & _ & _). rewrite R, La. apply (W_last Hw H').
Qed.
Lemma k_base_swap c d : within kw (@base_swap K V c d).
Proof.
  apply by_W. intros w Hw. unfold base_swap, bind, get_cache. destruct (slot (w_caches w) c) as [x|] eqn:Hx; auto.
  destruct (slot (w_caches w) d) as [y|] eqn:Hy; auto. destruct (Nat.eqb_spec c d) as [|N]; [exact Hw|].
  rewrite put_cache_ev. rewrite put_cache_ev. eapply W_swap; eauto.
Qed.
Hint Resolve k_base_swap : core.
(** Overwriting settings the invariant does not mention. *)
Lemma k_reset c (f : cache -> cache) : (forall x, c_rid (f x) = c_rid x) -> (forall x, c_cap (f x) = c_cap x) -> (forall x, c_last (f x) = c_last x) ->
  within kw (x <- get_cache c;; put_cache c (f x) : M unit).
Proof.
  intros R C L. apply by_W. intros w Hw. unfold bind, get_cache. destruct (slot (w_caches w) c) as [x|] eqn:Hx; auto.
  rewrite put_cache_ev. eapply W_setC with (x := x); eauto.
  - intros s _. rewrite C. auto.
  - intros p. rewrite L, R. apply (W_last Hw Hx).
Qed.
Lemma k_swap c d : within kw (@swap K V c d).
Proof.
  unfold swap. do 2 (k1; [now auto|]). k1; [now auto|]. 
  match goal with |- within _ (bind (get_cache c) (fun x => bind (put_cache c (@?f x)) ?k)) =>
    intros w; change ((bind (get_cache c) (fun x => bind (put_cache c (f x)) k)) w) with ((fun w => bind (get_cache c) (fun x => bind (put_cache c (f x)) k) w) w);
    replace (bind (get_cache c) (fun x => bind (put_cache c (f x)) k) w) with (bind (bind (get_cache c) (fun x => put_cache c (f x))) k w)
      by (unfold bind; destruct (get_cache c w); auto); revert w;
    change (within kw (bind (bind (get_cache c) (fun x => put_cache c (f x))) k)) end.
  k1.
  - apply k_reset with (f := fun x' => MkCache (c_rid x') (c_last x') (c_cap x') (c_stats x') (c_cbs x') (c_ttl a0)); auto.
  - apply k_reset with (f := fun x' => MkCache (c_rid x') (c_last x') (c_cap x') (c_stats x') (c_cbs x') (c_ttl a)); auto.
Qed.
Lemma k_move_new c : within kw (move_new E c).
Proof. unfold move_new. ks. Qed.
Lemma k_move_assign c d : within kw (@move_assign K V c d).
Proof.
  unfold move_assign. k1; [now auto|]. apply by_W. intros w Hw. unfold bind, get_cache.
  destruct (slot (w_caches w) c) as [x|] eqn:Hx; auto. destruct (slot (w_caches w) d) as [y|] eqn:Hy; auto.
  rewrite put_cache_ev. eapply W_setC with (x := x); eauto. intros p. apply (W_last Hw Hx).
Qed.
Hint Resolve k_swap k_move_new k_move_assign : core.
Lemma k_assign_range c l : within kw (assign_range E c l).
Proof. unfold assign_range. ks. Qed.
Lemma k_assign_move c l : within kw (assign_move E c l).
Proof. unfold assign_move. ks. Qed.
Hint Resolve k_assign_range k_assign_move : core.
End Run.
