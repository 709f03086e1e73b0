(** The invariant of AnyWorld.v is kept by every function of the model. *)
From Coq Require Import List Arith ZArith Bool Permutation Lia.
Import ListNotations.
From Verif Require Import Monad Types Model Api Spec Ref Lists SimBase SimRel Effects CopyEval AnyWorld.
Set Implicit Arguments.
Unset Strict Implicit.
Local Open Scope cpp_scope.

Section Keep.
Context {K V : Type}.
Variable E : env K V.
Hypothesis G : good E.

Notation world := (world K V).
Notation store := (store K V).
Notation mnode := (mnode K V).
Notation M := (M world).
Notation ws := (ws E).
Notation lc := (@lc K).
Implicit Types (w : world) (s : store).

Record W w : Prop := {
  W_c : forall c x, slot (w_caches w) c = Some x ->
        exists s, slot (w_stores w) (c_rid x) = Some s /\ length (s_map s) <= c_cap x;
  W_s : forall r s, slot (w_stores w) r = Some s -> exists l, ws r s l;
  W_inj : forall c d x y, slot (w_caches w) c = Some x -> slot (w_caches w) d = Some y -> c_rid x = c_rid y -> c = d;
  W_last : forall c x p, slot (w_caches w) c = Some x -> c_last x = Some p -> fst p <= c_rid x
}.
Lemma W_at w c x : W w -> slot (w_caches w) c = Some x -> exists s l, at_ w c x s /\ ws (c_rid x) s l /\ length l <= c_cap x.
Proof.
  intros H Hx. destruct (W_c H Hx) as (s & Hs & L). destruct (W_s H Hs) as (l & Hl). exists s, l.
  rewrite (ws_size Hl) in L. split; [split; auto|auto].
Qed.
Lemma W_same w w' : w_caches w' = w_caches w -> w_stores w' = w_stores w -> W w -> W w'.
Proof. intros C S []. constructor; rewrite ?C, ?S; auto. Qed.

(** Replacing one store. *)
Lemma W_put w r s s' l' : W w -> slot (w_stores w) r = Some s -> ws r s' l' ->
  (forall c x, slot (w_caches w) c = Some x -> c_rid x = r -> length l' <= c_cap x) -> W (setS r s' w).
Proof.
  intros H Hs Hl' L. constructor; simpl.
  - intros c x Hx. destruct (Nat.eq_dec r (c_rid x)) as [->|N].
    + erewrite slot_upd_same by eauto. exists s'. split; auto. rewrite (ws_size Hl'). eauto.
    + rewrite slot_upd_other by auto. apply (W_c H Hx).
  - intros r1 s1 H1. destruct (Nat.eq_dec r r1) as [->|N].
    + erewrite slot_upd_same in H1 by eauto. injection H1 as <-. eauto.
    + rewrite slot_upd_other in H1 by auto. apply (W_s H H1).
  - apply (W_inj H).
  - apply (W_last H).
Qed.
Lemma W_put_le w r s l s' l' : W w -> slot (w_stores w) r = Some s -> ws r s l -> ws r s' l' -> length l' <= length l -> W (setS r s' w).
Proof.
  intros H Hs Hl Hl' L. eapply W_put; eauto. intros c x Hx <-. destruct (W_c H Hx) as (s1 & H1 & L1).
  rewrite Hs in H1. injection H1 as <-. rewrite (ws_size Hl) in L1. lia.
Qed.
Lemma W_put_at w c x s s' l' : W w -> at_ w c x s -> ws (c_rid x) s' l' -> length l' <= c_cap x -> W (setS (c_rid x) s' w).
Proof.
  intros H (Hx & Hs) Hl L. eapply W_put; eauto. intros d y Hy Q. rewrite (W_inj H Hy Hx Q) in Hy.
  rewrite Hx in Hy. injection Hy as <-. auto.
Qed.
(** Replacing the record of one cache, in the same region. *)
Lemma W_setC w c x y : W w -> slot (w_caches w) c = Some x -> c_rid y = c_rid x ->
  (forall s, slot (w_stores w) (c_rid x) = Some s -> length (s_map s) <= c_cap x -> length (s_map s) <= c_cap y) ->
  (forall p, c_last y = Some p -> fst p <= c_rid y) -> W (setC c y w).
Proof.
  intros H Hx R L La. constructor; simpl.
  - intros d z Hz. destruct (Nat.eq_dec c d) as [->|N].
    + erewrite slot_upd_same in Hz by eauto. injection Hz as <-. rewrite R.
      destruct (W_c H Hx) as (s & Hs & Q). eauto.
    + rewrite slot_upd_other in Hz by auto. apply (W_c H Hz).
  - apply (W_s H).
  - assert (Q : forall d z, slot (upd (w_caches w) c (Some y)) d = Some z -> exists z', slot (w_caches w) d = Some z' /\ c_rid z' = c_rid z).
    { intros d z Hz. destruct (Nat.eq_dec c d) as [->|N].
      - erewrite slot_upd_same in Hz by eauto. injection Hz as <-. eauto.
      - rewrite slot_upd_other in Hz by auto. eauto. }
    intros d e z z' H1 H2 Hr. destruct (Q _ _ H1) as (y1 & Y1 & R1). destruct (Q _ _ H2) as (y2 & Y2 & R2).
    apply (W_inj H Y1 Y2). congruence.
  - intros d z p Hz Hp. destruct (Nat.eq_dec c d) as [->|N].
    + erewrite slot_upd_same in Hz by eauto. injection Hz as <-. auto.
    + rewrite slot_upd_other in Hz by auto. apply (W_last H Hz Hp).
Qed.

(** ** Functions that keep every cache in its region *)
Section Pinned.
Variables (pin : Prop) (c0 r0 : nat).
Definition pinned w : Prop := W w /\ (pin -> exists x, slot (w_caches w) c0 = Some x /\ c_rid x = r0).
Definition kp w w' : Prop := pinned w -> pinned w'.
Lemma kp_refl w : kp w w. Proof. intro; auto. Qed.
Lemma kp_trans a b c : kp a b -> kp b c -> kp a c. Proof. unfold kp; auto. Qed.
Lemma same_kp B (m : M B) : within eq m -> within kp m.
Proof. apply w_weaken. intros a b ->. apply kp_refl. Qed.
Lemma ticked_kp B (m : M B) : within (@ticked K V) m -> within kp m.
Proof.
  apply w_weaken. intros a b T (H & P). destruct T as (H1 & H2 & _). split; [eapply W_same; eauto|]. rewrite H1. auto.
Qed.
Lemma unchanged_kp B (m : M B) : within (fun w w' => w_caches w' = w_caches w /\ w_stores w' = w_stores w) m -> within kp m.
Proof. apply w_weaken. intros a b (H1 & H2) (H & P). split; [eapply W_same; eauto|]. rewrite H1. auto. Qed.
Hint Resolve same_kp ticked_kp kp_refl : core.
Hint Resolve e_get_cache e_get_store e_get_stats e_deref e_deref_it e_own e_map_find e_map_size e_list_front e_list_back e_list_begin e_list_prev_end e_list_deref e_last_is e_last_ptr e_size e_capacity e_is_too_full e_space_left e_is_empty e_is_full e_unordered_begin e_ordered_begin e_u_next e_o_next e_o_prev e_u_deref e_o_deref e_read_entry e_o_from_u e_ou_eq e_front e_back e_order_eq e_equals e_stats e_is_monitoring e_o_collect e_o_collect_back e_u_collect e_traverse_ordered e_traverse_backward e_traverse_unordered e_o_advance e_u_advance e_ordered_nth e_unordered_nth : core.
Hint Resolve e_now e_has_expired_info e_has_expired_key e_has_expired_o e_has_expired_u e_all_expired e_is_valid_o e_is_valid_u e_throw_o e_throw_u e_u_entry e_o_entry e_o_key e_timestamp : core.
Ltac k1 :=
  match goal with
  | |- within _ (ret _) => apply w_ret; auto
  | |- within _ (throw _) => apply w_throw; auto
  | |- within _ (undef _) => apply w_undef; auto
  | |- within _ (noexcept _) => apply w_noexcept
  | |- within _ (bind _ _) => apply w_bind; [exact kp_trans| |intros]
  | |- within _ (let '(_, _) := ?x in _) => destruct x
  | |- within _ (match ?x with _ => _ end) => destruct x
  | |- within _ (if ?b then _ else _) => destruct b
  end.
Ltac ks := repeat (k1; eauto); eauto.

Lemma q_put_stats i x : within kp (@put_stats K V i x).
Proof. apply unchanged_kp. intros w. simpl. auto. Qed.
Lemma q_alloc_stats x : within kp (@alloc_stats K V x).
Proof. apply unchanged_kp. intros w. simpl. auto. Qed.
Lemma q_fallible : within kp (fallible E).
Proof. apply unchanged_kp. intros w. unfold fallible. destruct (fails E (w_steps w)); simpl; auto. Qed.
Lemma q_cb ev : within kp (cb E ev).
Proof. apply unchanged_kp. intros w. rewrite (good_cb G). simpl. auto. Qed.
Hint Resolve q_put_stats q_alloc_stats q_fallible q_cb : core.
Lemma q_call_each_from sel all c mk ids : (forall id, within kp (mk id)) -> within kp (call_each_from E sel all c mk ids).
Proof. intros H. induction ids; simpl; ks. Qed.
Lemma q_call_each sel c mk : (forall id, within kp (mk id)) -> within kp (call_each E sel c mk).
Proof. intros H. unfold call_each. k1; eauto. apply q_call_each_from; auto. Qed.
Lemma q_register_hit c k p : within kp (register_hit E c k p).
Proof. unfold register_hit. ks; apply q_call_each; intros; ks. Qed.
Lemma q_register_miss c k : within kp (register_miss E c k).
Proof. unfold register_miss. ks; apply q_call_each; intros; ks. Qed.
Hint Resolve q_register_hit q_register_miss : core.
Lemma pinned_setS w r s' : pinned w -> W (setS r s' w) -> pinned (setS r s' w).
Proof. intros (H & P) H'. split; auto. Qed.
Lemma q_update_node p f : (forall n, n_key (f n) = n_key n) -> (forall n, n_ord (f n) = n_ord n) -> within kp (@update_node K V p f).
Proof.
  intros Fk Fo w. unfold update_node, bind, get_store. destruct (slot (w_stores w) (fst p)) as [s|] eqn:Hs; simpl; auto.
  destruct (assoc (snd p) (s_map s)); simpl; auto. intros P. apply pinned_setS; auto.
  destruct (W_s (proj1 P) Hs) as (l & Hl). eapply W_put_le; [apply P|exact Hs|exact Hl|apply ws_alter; eauto|auto].
Qed.
Lemma q_write p v : within kp (@update_node K V p (fun n => MkNode (n_key n) v (n_ord n) (n_time n))).
Proof. apply q_update_node; auto. Qed.
Hint Resolve q_write : core.
Lemma q_splice c q : within kp (@list_splice_back K V c q).
Proof.
  intros w. unfold list_splice_back, own, bind, get_cache, get_store. destruct (slot (w_caches w) c) as [x|] eqn:Hx; simpl; auto.
  destruct (slot (w_stores w) (c_rid x)) as [s|] eqn:Hs; simpl; auto. destruct q as [[r' i]|]; simpl; auto.
  destruct (Nat.eqb_spec r' (c_rid x)) as [->|]; simpl; auto. destruct (assoc i (s_ord s)) as [p|] eqn:Hi; simpl; auto.
  intros P. apply pinned_setS; auto. destruct (W_s (proj1 P) Hs) as (l & Hl).
  apply assoc_in in Hi. rewrite (ws_ord Hl) in Hi. apply in_map_iff in Hi as (c1 & Q & I). injection Q as <- <-.
  apply in_split in I as (a & b & ->). eapply W_put_le; [apply P|exact Hs|exact Hl|apply (ws_move G Hl)|].
  rewrite !app_length. simpl. lia.
Qed.
Hint Resolve q_splice : core.
Lemma q_move_to_front c q : within kp (@move_to_front K V c q).
Proof. unfold move_to_front. ks. Qed.
Hint Resolve q_move_to_front : core.
Lemma q_move_to_front_value c i v : within kp (move_to_front_value E c i v).
Proof. unfold move_to_front_value. ks. Qed.
Hint Resolve q_move_to_front_value : core.
Lemma q_modify c (f : cache -> cache) : (forall x, c_rid (f x) = c_rid x) -> (forall x, c_cap x <= c_cap (f x)) ->
  (forall w x p, pinned w -> slot (w_caches w) c = Some x -> c_last (f x) = Some p -> fst p <= c_rid x) ->
  within kp (x <- get_cache c;; put_cache c (f x) : M unit).
Proof.
  intros Fr Fc Fl w. unfold bind, get_cache. destruct (slot (w_caches w) c) as [x|] eqn:Hx; simpl; auto.
  intros P. destruct P as (H & P). split.
  - change (W (setC c (f x) w)). eapply W_setC; eauto.
    + intros s _ L. specialize (Fc x). lia.
    + intros p Hp. rewrite Fr. eapply Fl; eauto. split; auto.
  - intros Hp. destruct (P Hp) as (x0 & H0 & R0). simpl. destruct (Nat.eq_dec c c0) as [->|N].
    + erewrite slot_upd_same by eauto. rewrite Hx in H0. injection H0 as <-. eexists. split; [reflexivity|]. rewrite Fr; auto.
    + rewrite slot_upd_other by auto. eauto.
Qed.
Lemma q_invalidate c : within kp (@invalidate_last K V c).
Proof.
  apply q_modify with (f := fun x => MkCache (c_rid x) None (c_cap x) (c_stats x) (c_cbs x) (c_ttl x)); auto.
  simpl. discriminate.
Qed.
Lemma q_set_last i : pin -> within kp (@set_last K V c0 (Some (r0, i))).
Proof.
  intros Hp. apply q_modify with (f := fun x => MkCache (c_rid x) (Some (r0, i)) (c_cap x) (c_stats x) (c_cbs x) (c_ttl x)); auto.
  simpl. intros w x p (_ & P) Hx [= <-]. destruct (P Hp) as (x0 & H0 & <-). rewrite Hx in H0. injection H0 as <-. auto.
Qed.
Lemma q_set_stats c st : within kp (@set_stats K V c st).
Proof.
  apply q_modify with (f := fun x => MkCache (c_rid x) (c_last x) (c_cap x) st (c_cbs x) (c_ttl x)); auto.
  simpl. intros w x p (H & _) Hx Hp. apply (W_last H Hx Hp).
Qed.
Lemma q_set_cbs c f : within kp (@set_cbs K V c f).
Proof.
  apply q_modify with (f := fun x => MkCache (c_rid x) (c_last x) (c_cap x) (c_stats x) (f (c_cbs x)) (c_ttl x)); auto.
  simpl. intros w x p (H & _) Hx Hp. apply (W_last H Hx Hp).
Qed.
Hint Resolve q_invalidate q_set_last q_set_stats q_set_cbs : core.
Lemma q_find_hit k i : pin -> fst (fst i) = r0 -> within kp (find_hit E c0 k i).
Proof.
  intros Hp Q. destruct i as [[r i] ep]. simpl in Q. subst r. unfold find_hit. cbn [fst]. ks.
Qed.
Lemma q_existing i v B (b : B) : pin -> fst (fst i) = r0 ->
  within kp (move_to_front_value E c0 i v;;; deref_it i;;; set_last c0 (Some (fst i));;; ret b).
Proof. intros Hp Q. destruct i as [[r i] ep]. simpl in Q. subst r. cbn [fst]. ks. Qed.
End Pinned.

(** ** All functions *)
Definition kw w w' : Prop := W w -> W w'.
Lemma kw_refl w : kw w w. Proof. intro; auto. Qed.
Lemma kw_trans a b c : kw a b -> kw b c -> kw a c. Proof. unfold kw; auto. Qed.
Lemma kp_kw B (m : M B) : within (kp False 0 0) m -> within kw m.
Proof.
  apply w_weaken. intros a b H Ha. apply H. split; auto. tauto.
Qed.
Lemma pin_kw B (m : M B) w c x : slot (w_caches w) c = Some x -> within (kp True c (c_rid x)) m -> W w ->
  match m w with Val _ w' | Exc _ w' => W w' | _ => True end.
Proof.
  intros Hx H Hw. specialize (H w). assert (P : pinned True c (c_rid x) w) by (split; eauto).
  destruct (m w); auto; apply (H P).
Qed.
Lemma same_kw B (m : M B) : within eq m -> within kw m.
Proof. apply w_weaken. intros a b ->. apply kw_refl. Qed.
Lemma ticked_kw B (m : M B) : within (@ticked K V) m -> within kw m.
Proof. intros. apply kp_kw, ticked_kp; auto. Qed.
Hint Resolve same_kw ticked_kw kw_refl : core.
Hint Resolve e_get_cache e_get_store e_get_stats e_deref e_deref_it e_own e_map_find e_map_size e_list_front e_list_back e_list_begin e_list_prev_end e_list_deref e_last_is e_last_ptr e_size e_capacity e_is_too_full e_space_left e_is_empty e_is_full e_unordered_begin e_ordered_begin e_u_next e_o_next e_o_prev e_u_deref e_o_deref e_read_entry e_o_from_u e_ou_eq e_front e_back e_order_eq e_equals e_stats e_is_monitoring e_o_collect e_o_collect_back e_u_collect e_traverse_ordered e_traverse_backward e_traverse_unordered e_o_advance e_u_advance e_ordered_nth e_unordered_nth : core.
Hint Resolve e_now e_has_expired_info e_has_expired_key e_has_expired_o e_has_expired_u e_all_expired e_is_valid_o e_is_valid_u e_throw_o e_throw_u e_u_entry e_o_entry e_o_key e_timestamp : core.
Ltac k1 :=
  match goal with
  | |- within _ (ret _) => apply w_ret; auto
  | |- within _ (throw _) => apply w_throw; auto
  | |- within _ (undef _) => apply w_undef; auto
  | |- within _ (noexcept _) => apply w_noexcept
  | |- within _ (bind _ _) => apply w_bind; [exact kw_trans| |intros]
  | |- within _ (let '(_, _) := ?x in _) => destruct x
  | |- within _ (match ?x with _ => _ end) => destruct x
  | |- within _ (if ?b then _ else _) => destruct b
  end.
Ltac ks := repeat (k1; eauto); eauto.
Lemma k_put_stats i x : within kw (@put_stats K V i x).
Proof. apply kp_kw, q_put_stats. Qed.
Lemma k_alloc_stats x : within kw (@alloc_stats K V x).
Proof. apply kp_kw, q_alloc_stats. Qed.
Lemma k_fallible : within kw (fallible E).
Proof. apply kp_kw, q_fallible. Qed.
Lemma k_register_hit c k p : within kw (register_hit E c k p).
Proof. apply kp_kw, q_register_hit. Qed.
Lemma k_register_miss c k : within kw (register_miss E c k).
Proof. apply kp_kw, q_register_miss. Qed.
Lemma k_write p v : within kw (@update_node K V p (fun n => MkNode (n_key n) v (n_ord n) (n_time n))).
Proof. apply kp_kw, q_write. Qed.
Lemma k_invalidate c : within kw (@invalidate_last K V c).
Proof. apply kp_kw, q_invalidate. Qed.
Lemma k_set_stats c st : within kw (@set_stats K V c st).
Proof. apply kp_kw, q_set_stats. Qed.
Lemma k_set_cbs c f : within kw (@set_cbs K V c f).
Proof. apply kp_kw, q_set_cbs. Qed.
Lemma k_move_to_front c q : within kw (@move_to_front K V c q).
Proof. apply kp_kw, q_move_to_front. Qed.
Hint Resolve k_put_stats k_alloc_stats k_fallible k_register_hit k_register_miss k_write k_invalidate k_set_stats k_set_cbs k_move_to_front : core.

(** A bind whose first part does nothing but read. *)
Lemma read_bind A B (m : M A) (k : A -> M B) w (P : world -> Prop) : within eq m ->
  (forall a, m w = Val a w -> match k a w with Val _ w' | Exc _ w' => P w' | _ => True end) -> P w ->
  match bind m k w with Val _ w' | Exc _ w' => P w' | _ => True end.
Proof.
  intros R H Hw. unfold bind. specialize (R w). destruct (m w) as [a w'|e w'|u|e] eqn:Q; auto; subst; auto.
  apply (H a eq_refl).
Qed.
Lemma by_W A (m : M A) : (forall w, W w -> match m w with Val _ w' | Exc _ w' => W w' | _ => True end) -> within kw m.
Proof. intros H w. destruct (m w) eqn:Q; auto; intros Hw; specialize (H w Hw); rewrite Q in H; auto. Qed.
Lemma deref_some p n w : deref p w = Val n w -> exists s, slot (w_stores w) (fst p) = Some s /\ assoc (snd p) (s_map s) = Some n.
Proof.
  unfold deref, bind, get_store. destruct (slot (w_stores w) (fst p)) as [s|]; [|discriminate].
  destruct (assoc (snd p) (s_map s)) eqn:Q; [|discriminate]. simpl. intros [= <-]. eauto.
Qed.
Lemma deref_it_some i n w : deref_it i w = Val n w -> exists s, slot (w_stores w) (fst (fst i)) = Some s /\ assoc (snd (fst i)) (s_map s) = Some n /\ s_epoch s = snd i.
Proof.
  unfold deref_it, bind, get_store. destruct (slot (w_stores w) (fst (fst i))) as [s|] eqn:Q; [|discriminate].
  destruct (Nat.eqb_spec (s_epoch s) (snd i)); [|discriminate]. intros H.
  apply deref_some in H as (s' & H1 & H2). rewrite Q in H1. injection H1 as <-. eauto.
Qed.
Lemma map_find_region c k x w i : slot (w_caches w) c = Some x -> map_find E c k w = Val (Some i) w -> fst (fst i) = c_rid x.
Proof.
  intros Hx. unfold map_find, own, bind, get_cache, get_store. rewrite Hx. destruct (slot (w_stores w) (c_rid x)) as [s|]; [|discriminate].
  simpl. destruct (node_with E k (s_map s)) as [[j n]|]; simpl; intros [= <-]. auto.
Qed.

(** Removing the node that the dereferenced iterator or pointer denotes. *)
Lemma removed w c x s l q p n : W w -> at_ w c x s -> ws (c_rid x) s l -> In (p, n) (s_map s) -> n_ord n = Some (c_rid x, q) ->
  W (setS (c_rid x) (MkStore (unassoc p (s_map s)) (unassoc q (s_ord s)) (s_next s) (s_epoch s)) w).
Proof.
  intros Hw A Hl I O. destruct (ws_n Hl I O) as (_ & J). destruct (J eq_refl) as (d & Id & <- & <-).
  apply in_split in Id as (a & b & ->). destruct A as (Hx & Hs).
  eapply W_put_le; [exact Hw|exact Hs|exact Hl|apply (ws_remove G Hl)|]. rewrite !app_length. simpl. lia.
Qed.
(** list_erase and map_erase_it / map_erase_key together. *)
Lemma own_cases A (k : nat * store -> M A) c w (P : world -> Prop) :
  (forall x s, at_ w c x s -> match k (c_rid x, s) w with Val _ w' | Exc _ w' => P w' | _ => True end) ->
  match bind (own c) k w with Val _ w' | Exc _ w' => P w' | _ => True end.
Proof.
  intros H. unfold own, bind at 1, get_cache, get_store. unfold bind at 1. destruct (slot (w_caches w) c) as [x|] eqn:Hx; auto.
  unfold bind at 1. destruct (slot (w_stores w) (c_rid x)) as [s|] eqn:Hs; auto. apply H. split; auto.
Qed.
Lemma list_erase_cases c q w :
  match list_erase c q w with
  | Val _ w' => exists x s i, at_ w c x s /\ q = Some (c_rid x, i) /\
      w' = setS (c_rid x) (MkStore (s_map s) (unassoc i (s_ord s)) (s_next s) (s_epoch s)) w
  | Exc _ _ => False
  | _ => True
  end.
Proof.
  unfold list_erase, own, bind, get_cache, get_store. destruct (slot (w_caches w) c) as [x|] eqn:Hx; auto.
  destruct (slot (w_stores w) (c_rid x)) as [s|] eqn:Hs; auto. simpl. destruct q as [[r' i]|]; simpl; auto.
  destruct (Nat.eqb_spec r' (c_rid x)) as [->|]; simpl; auto. destruct (assoc i (s_ord s)) eqn:Q; simpl; auto.
  exists x, s, i. split; [split; auto|]. split; auto.
Qed.
Lemma k_erase_at w c i n : W w -> deref_it i w = Val n w ->
  match (list_erase c (n_ord n);;; map_erase_it c i) w with Val _ w' | Exc _ w' => W w' | _ => True end.
Proof.
  intros Hw D. unfold bind at 1. pose proof (list_erase_cases c (n_ord n) w) as L.
  destruct (list_erase c (n_ord n) w) as [a w'|e w'|u|e]; auto; [|tauto]. destruct L as (x & s & q & A & O & ->).
  unfold map_erase_it. erewrite bind_val; [|apply own_ev, (at_setS _ A)].
  destruct A as (Hx & Hs). destruct (Nat.eqb_spec (fst (fst i)) (c_rid x)) as [R|]; [|exact I].
  apply deref_it_some in D as (s1 & H1 & H2 & H3). rewrite R, Hs in H1. injection H1 as <-.
  unfold bind at 1. match goal with |- context [deref_it i ?w1] => assert (X : deref_it i w1 = Val n w1) end.
  { unfold deref_it, deref, bind, get_store. simpl. rewrite R. erewrite slot_upd_same by eauto. simpl.
    rewrite H3, Nat.eqb_refl. simpl. erewrite slot_upd_same by eauto. simpl. rewrite H2. reflexivity. }
  rewrite X. simpl s_map. simpl s_ord. rewrite put_store_ev, setS_setS. simpl.
  destruct (W_s Hw Hs) as (l & Hl). apply removed with (c := c) (l := l) (n := n); auto; [split; auto|apply assoc_in; auto].
Qed.
Lemma k_erase_it c i : within kw (erase_it E c i).
Proof.
  unfold erase_it. do 2 (k1; [now eauto|]). k1; [ks|]. apply by_W. intros w Hw. apply read_bind; auto. intros n D. apply k_erase_at; auto.
Qed.
Hint Resolve k_erase_it : core.
Lemma k_erase_key_at w c p n x : W w -> slot (w_caches w) c = Some x -> fst p <= c_rid x -> deref p w = Val n w ->
  match (list_erase c (n_ord n);;; map_erase_key E c (n_key n)) w with Val _ w' | Exc _ w' => W w' | _ => True end.
Proof.
  intros Hw Hx Le D. unfold bind at 1. pose proof (list_erase_cases c (n_ord n) w) as L.
  destruct (list_erase c (n_ord n) w) as [a w'|e w'|u|e]; auto; [|tauto]. destruct L as (x' & s & q & A & O & ->).
  assert (x' = x) by (destruct A; congruence). subst x'. pose proof A as (_ & Hs).
  apply deref_some in D as (s1 & H1 & H2). destruct (W_s Hw H1) as (l1 & Hl1). apply assoc_in in H2.
  destruct (ws_n Hl1 H2 O) as (Le' & _). assert (R : fst p = c_rid x) by lia. rewrite R, Hs in H1. injection H1 as <-.
  rewrite R in Hl1. unfold map_erase_key. erewrite bind_val; [|apply own_ev, (at_setS _ A)]. cbv iota beta. cbn [s_map s_ord s_next s_epoch].
  destruct (ws_cell Hl1 H2) as (d & Id & Hm & Hk).
  destruct (@find_ws_of _ _ E G _ _ _ (n_key n) d Hl1 Id) as (n' & F & _ & _); [rewrite Hk; apply (good_refl G)|].
  rewrite F, Hm. simpl s_ord. rewrite put_store_ev, setS_setS. simpl. eapply removed; eauto.
Qed.
Lemma k_erase_key_info w c p x : W w -> slot (w_caches w) c = Some x -> fst p <= c_rid x ->
  match erase_key_info E c p w with Val _ w' | Exc _ w' => W w' | _ => True end.
Proof.
  intros Hw Hx Le. unfold erase_key_info. apply read_bind; auto. intros n D. apply read_bind; auto. intros b _.
  unfold bind at 1. pose proof (@k_invalidate c w) as Q.
  set (m := if b then invalidate_last c else ret tt). 
  assert (Y : match m w with Val _ w' => W w' /\ exists x', slot (w_caches w') c = Some x' /\ c_rid x' = c_rid x | Exc _ w' => W w' | _ => True end).
  { unfold m. destruct b; [|simpl; eauto]. unfold invalidate_last, set_last, bind, get_cache in *. rewrite Hx in *. simpl in *.
    split; [apply Q; auto|]. erewrite slot_upd_same by eauto. eexists. split; reflexivity. }
  destruct (m w) as [[] w'|e w'|u|e]; auto. destruct Y as (Hw' & x' & Hx' & R'). apply read_bind; auto. intros n' D'.
  eapply k_erase_key_at; eauto. lia.
Qed.
Lemma k_erase_key c k : within kw (erase_key E c k).
Proof.
  unfold erase_key. apply by_W. intros w Hw. apply read_bind; auto. intros hot Hh. destruct hot.
  - unfold last_ptr. unfold bind at 2, get_cache. unfold bind at 1. destruct (slot (w_caches w) c) as [x|] eqn:Hx; auto.
    destruct (c_last x) as [p|] eqn:La; simpl; auto. unfold bind at 1.
    pose proof (k_erase_key_info (p := p) Hw Hx (W_last Hw Hx La)) as Q. destruct (erase_key_info E c p w); auto.
  - match goal with |- match ?m w with _ => _ end => assert (Q : within kw m) by ks; specialize (Q w); destruct (m w); auto end.
Qed.
Hint Resolve k_erase_key : core.
Lemma k_erase_u c it : within kw (erase_u E c it).
Proof. unfold erase_u. ks. Qed.
Lemma k_erase_o c it : within kw (erase_o E c it).
Proof. unfold erase_o. ks. Qed.
Lemma k_erase_lru c : within kw (erase_lru E c).
Proof. unfold erase_lru. ks. Qed.
Hint Resolve k_erase_u k_erase_o k_erase_lru : core.
Lemma k_erase_lru_while f : forall c n, within kw (erase_lru_while E f c n).
Proof. induction f; intros; simpl; ks. Qed.
Hint Resolve k_erase_lru_while : core.
Lemma k_clear_expired_loop f : forall c d n, within kw (clear_expired_loop E f c d n).
Proof. induction f; intros; simpl; ks. Qed.
Hint Resolve k_clear_expired_loop : core.
Lemma k_clear_expired c d : within kw (clear_expired E c d).
Proof. unfold clear_expired. ks. Qed.
Hint Resolve k_clear_expired : core.
Lemma ws_nil r nx ep : ws r (MkStore [] [] nx ep) [].
Proof. constructor; simpl; auto using NoDup_nil; intros; contradiction. Qed.
Lemma k_clear c : within kw (@clear K V c).
Proof.
  apply by_W. intros w Hw. unfold clear. apply own_cases. intros x s A. cbv iota beta.
  erewrite bind_val; [|apply put_store_ev]. erewrite bind_val; [|apply own_ev, (at_setS _ A)]. cbv iota beta.
  erewrite bind_val; [|apply put_store_ev]. rewrite setS_setS. cbn [s_map].
  pose proof (@k_invalidate c (setS (c_rid x) (MkStore [] [] (s_next s) (s_epoch s)) w)) as Q.
  simpl s_next in *. simpl s_epoch in *.
  assert (H : W (setS (c_rid x) (MkStore [] [] (s_next s) (s_epoch s)) w)).
  { eapply W_put_at; eauto; [apply ws_nil|simpl; lia]. }
  destruct (invalidate_last _ _); auto; apply Q; auto.
Qed.
Hint Resolve k_clear : core.
Lemma k_shrink c n : within kw (shrink E c n).
Proof. unfold shrink. ks. Qed.
Lemma while_post f : forall c n w w', erase_lru_while E f c n w = Val tt w' -> exists x s, at_ w' c x s /\ length (s_map s) <= n.
Proof.
  induction f as [|f IH]; intros c n w w'; simpl; unfold bind at 1; destruct (size c w) as [sz w1|e w1|u|e] eqn:Z; try discriminate;
    (assert (S : exists x s, at_ w c x s /\ sz = length (s_map s) /\ w1 = w);
     [unfold size, map_size, own, bind, get_cache, get_store in Z; destruct (slot (w_caches w) c) as [x|] eqn:Hx; [|discriminate Z];
      destruct (slot (w_stores w) (c_rid x)) as [s|] eqn:Hs; [|discriminate Z]; simpl in Z; injection Z as <- <-;
      exists x, s; split; [split; auto|auto]|]); destruct S as (x & s & A & -> & ->);
    destruct (Nat.ltb_spec n (length (s_map s))); try discriminate.
  - intros [= <-]. eauto.
  - unfold bind. destruct (erase_lru E c w); try discriminate. eauto.
  - intros [= <-]. eauto.
Qed.
Lemma k_set_capacity c n : within kw (set_capacity E c n).
Proof.
  unfold set_capacity. k1; [now eauto|]. apply by_W. intros w Hw. unfold bind at 1.
  pose proof (@k_erase_lru_while a c n w) as Q. destruct (erase_lru_while E a c n w) as [[] w'|e w'|u|e] eqn:Z; auto.
  destruct (while_post Z) as (x & s & (Hx & Hs) & L). unfold bind, get_cache. rewrite Hx. simpl.
  specialize (Q Hw). eapply W_setC with (x := x); eauto; simpl.
  - intros s' H' _. rewrite Hs in H'. injection H' as <-. auto.
  - intros p. apply (W_last Q Hx).
Qed.
Hint Resolve k_shrink k_set_capacity : core.
Lemma k_cic c n : within kw (@clear_and_increase_capacity K V c n).
Proof.
  unfold clear_and_increase_capacity. k1; [now eauto|]. apply by_W. intros w Hw. unfold bind, get_cache.
  destruct (slot (w_caches w) c) as [x|] eqn:Hx; auto. destruct (Nat.ltb_spec (c_cap x) n); [|auto].
  simpl. eapply W_setC with (x := x); eauto; simpl; [intros; lia|]. intros p. apply (W_last Hw Hx).
Qed.
Hint Resolve k_cic : core.
End Keep.
