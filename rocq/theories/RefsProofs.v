(** Reading an argument late, through a reference, gives what reading it at the
    start gives: nothing that is freed or overwritten is read afterwards. *)
From Coq Require Import List Arith ZArith Bool Permutation Lia.
Import ListNotations.
From Verif Require Import Monad Types Model Api Refs SpecRefs Effects.
Set Implicit Arguments.
Unset Strict Implicit.
Local Open Scope cpp_scope.

Section RefsProofs.
Context {K V : Type}.
Variable E : env K V.
Variable husk : V -> V.
Variable khusk : K -> K.
Hypothesis CB : hands_off E.

Notation world := (world K V).
Notation store := (store K V).
Notation mnode := (mnode K V).
Notation M := (M world).
Implicit Types (w : world) (a : karg K) (b : varg V).

(** The map node at [p]. *)
Definition nodes w (p : mptr) : option mnode :=
  match slot (w_stores w) (fst p) with
  | Some s => assoc (snd p) (s_map s)
  | None => None
  end.
Definition keeps w w' : Prop := forall p, nodes w' p = nodes w p.
Lemma keeps_refl w : keeps w w. Proof. intros p; auto. Qed.
Lemma keeps_trans w w' w'' : keeps w w' -> keeps w' w'' -> keeps w w''.
Proof. intros A B p. rewrite B. auto. Qed.
Lemma keeps_stores w w' : w_stores w' = w_stores w -> keeps w w'.
Proof. intros Q p. unfold nodes. rewrite Q. auto. Qed.

Lemma deref_nodes p w : deref p w = match nodes w p with Some n => Val n w | None => Undef DanglingNode end.
Proof.
  unfold deref, nodes, bind, get_store. destruct (slot (w_stores w) (fst p)) as [s|]; auto.
  destruct (assoc (snd p) (s_map s)); auto.
Qed.
Lemma kget_val w a k : key_of w a = Some k -> kget a w = Val k w.
Proof.
  destruct a as [x|p]; simpl; [intros [= ->]; auto|]. unfold bind. rewrite deref_nodes.
  destruct (nodes w p); intros [= ->]; auto.
Qed.
Lemma vget_val w b v : value_of w b = Some v -> vget b w = Val v w.
Proof.
  destruct b as [x|p]; simpl; [intros [= ->]; auto|]. unfold bind. rewrite deref_nodes.
  destruct (nodes w p); intros [= ->]; auto.
Qed.
Lemma key_keeps w w' a : keeps w w' -> key_of w' a = key_of w a.
Proof. intros H. destruct a as [|p]; simpl; auto. rewrite !deref_nodes, (H p). destruct (nodes w p); auto. Qed.
Lemma val_keeps w w' b : keeps w w' -> value_of w' b = value_of w b.
Proof. intros H. destruct b as [|p]; simpl; auto. rewrite !deref_nodes, (H p). destruct (nodes w p); auto. Qed.

(** ** Congruence *)
Lemma bind_eq A B (m : M A) (f g : A -> M B) w :
  (forall x w', m w = Val x w' -> f x w' = g x w') -> bind m f w = bind m g w.
Proof. intros H. unfold bind. destruct (m w) eqn:Q; auto. Qed.
Lemma bind_eq2 A B (m m' : M A) (f g : A -> M B) w :
  m w = m' w -> (forall x w', m' w = Val x w' -> f x w' = g x w') -> bind m f w = bind m' g w.
Proof. intros Q H. unfold bind. rewrite Q. destruct (m' w) eqn:R; auto. Qed.
(** ... where the first step keeps the nodes *)
Lemma bind_keep A B (m : M A) (f g : A -> M B) w :
  within keeps m -> (forall x w', keeps w w' -> f x w' = g x w') -> bind m f w = bind m g w.
Proof. intros W H. apply bind_eq. intros x w' Q. apply H. specialize (W w). rewrite Q in W. auto. Qed.
Lemma bind_keep2 A B (m m' : M A) (f g : A -> M B) w :
  m w = m' w -> within keeps m' -> (forall x w', keeps w w' -> f x w' = g x w') -> bind m f w = bind m' g w.
Proof. intros Q W H. apply bind_eq2; auto. intros x w' R. apply H. specialize (W w). rewrite R in W. auto. Qed.
Lemma bind_get A B (m : M A) (f : A -> M B) (g : M B) w x :
  m w = Val x w -> f x w = g w -> bind m f w = g w.
Proof. intros Q H. unfold bind. rewrite Q. auto. Qed.

Lemma keeps_same A (m : M A) : within eq m -> within keeps m.
Proof. apply w_weaken. intros ? ? ->. apply keeps_refl. Qed.
Definition st_same w w' : Prop := w_stores w' = w_stores w.
Lemma keeps_st A (m : M A) : within st_same m -> within keeps m.
Proof. apply w_weaken. intros ? ? H. apply keeps_stores. auto. Qed.

Lemma k_bind A B (m : M A) (f : A -> M B) : within keeps m -> (forall x : A, within keeps (f x)) -> within keeps (bind m f).
Proof. apply w_bind. intros. eapply keeps_trans; eauto. Qed.
Lemma k_ret A (x : A) : within keeps (ret x). Proof. intros w. simpl. apply keeps_refl. Qed.
Lemma k_throw A e : within keeps (throw (A:=A) e). Proof. intros w. simpl. apply keeps_refl. Qed.
Lemma k_undef A u : within keeps (undef (A:=A) u). Proof. intros w. simpl. auto. Qed.

Ltac k1 := match goal with
  | |- within _ (ret _) => apply k_ret
  | |- within _ (throw _) => apply k_throw
  | |- within _ (undef _) => apply k_undef
  | |- within _ (bind _ _) => apply k_bind; [|intros]
  | |- within _ (let '(_, _) := ?x in _) => destruct x
  | |- within _ (match ?x with _ => _ end) => destruct x
  | |- within _ (if ?b then _ else _) => destruct b
  end.

Lemma k_now : within keeps (now E). Proof. intros w. simpl. apply keeps_stores; auto. Qed.
Lemma k_fallible : within keeps (fallible E).
Proof. intros w. unfold fallible. destruct (fails E (w_steps w)); apply keeps_stores; auto. Qed.
Lemma k_get_cache c : within keeps (get_cache (K:=K) (V:=V) c).
Proof. apply keeps_same, e_get_cache. Qed.
Lemma k_put_cache c x : within keeps (put_cache (K:=K) (V:=V) c x).
Proof. intros w. simpl. apply keeps_stores; auto. Qed.
Lemma k_get_stats s : within keeps (get_stats (K:=K) (V:=V) s).
Proof. apply keeps_same, e_get_stats. Qed.
Lemma k_put_stats s x : within keeps (put_stats (K:=K) (V:=V) s x).
Proof. intros w. simpl. apply keeps_stores; auto. Qed.
Lemma k_deref p : within keeps (deref (K:=K) (V:=V) p). Proof. apply keeps_same, e_deref. Qed.
Lemma k_deref_it i : within keeps (deref_it (K:=K) (V:=V) i). Proof. apply keeps_same, e_deref_it. Qed.
Lemma k_map_find c k : within keeps (map_find E c k). Proof. apply keeps_same, e_map_find. Qed.
Lemma k_last_is c k : within keeps (last_is E c k). Proof. apply keeps_same, e_last_is. Qed.
Lemma k_last_ptr c : within keeps (last_ptr (K:=K) (V:=V) c). Proof. apply keeps_same, e_last_ptr. Qed.
Lemma k_capacity c : within keeps (capacity (K:=K) (V:=V) c). Proof. apply keeps_same, e_capacity. Qed.
Lemma k_size c : within keeps (size (K:=K) (V:=V) c). Proof. apply keeps_same, e_size. Qed.
Lemma k_set_last c p : within keeps (set_last (K:=K) (V:=V) c p).
Proof. unfold set_last. k1; [apply k_get_cache|apply k_put_cache]. Qed.
Lemma k_timestamp c : within keeps (timestamp E c).
Proof. unfold timestamp. k1; [apply k_get_cache|]. k1; [apply k_now|apply k_ret]. Qed.
Lemma k_expired d n : within keeps (has_expired_info E d n).
Proof. unfold has_expired_info. k1; [apply k_now|apply k_ret]. Qed.
Lemma k_splice c q : within keeps (list_splice_back (K:=K) (V:=V) c q).
Proof.
  intros w. unfold list_splice_back, bind, own, bind, get_cache, get_store.
  destruct (slot (w_caches w) c) as [x|]; auto. destruct (slot (w_stores w) (c_rid x)) as [s|] eqn:S; simpl; auto.
  destruct q as [(r', i)|]; simpl; auto. destruct (Nat.eqb r' (c_rid x)); simpl; auto.
  destruct (assoc i (s_ord s)); simpl; auto.
  intros p. unfold nodes. simpl. destruct (Nat.eq_dec (fst p) (c_rid x)) as [->|N].
  - rewrite S. pose proof S as S'. unfold slot in S' |- *.
    assert (L : c_rid x < length (w_stores w)).
    { destruct (Nat.lt_ge_cases (c_rid x) (length (w_stores w))); auto. rewrite nth_overflow in S'; auto. discriminate. }
    clear S' S. revert L. generalize (c_rid x). induction (w_stores w); intros [|j] L; simpl in *; try lia; auto.
    apply IHl. lia.
  - unfold slot. replace (nth (fst p) (upd _ _ _) None) with (nth (fst p) (w_stores w) None); auto.
    clear S. revert N. generalize (c_rid x) (fst p). induction (w_stores w); intros [|j] [|j'] N; simpl in *; auto; try congruence.
Qed.
Lemma k_move_to_front c q : within keeps (move_to_front (K:=K) (V:=V) c q).
Proof. unfold move_to_front. k1; [apply k_size|]. k1; [apply k_ret|apply k_splice]. Qed.

(** ** Callbacks *)
Lemma k_cb ev : within keeps (cb E ev).
Proof. intros w. specialize (CB ev w). destruct (cb E ev w); auto; apply keeps_stores; auto. Qed.
Lemma k_call_each_from sel all c mk ids : (forall id, within keeps (mk id)) -> within keeps (call_each_from E sel all c mk ids).
Proof.
  intros H. induction ids as [|id t IH]; simpl; [apply k_ret|]. k1; [apply H|]. k1; [apply k_cb|]. k1; [apply k_get_cache|].
  destruct (natlist_eqb _ _); [apply IH|apply k_undef].
Qed.
Lemma k_call_each sel c mk : (forall id, within keeps (mk id)) -> within keeps (call_each E sel c mk).
Proof. intros H. unfold call_each. k1; [apply k_get_cache|]. apply k_call_each_from; auto. Qed.
Lemma call_each_from_eq sel all c mk mk' ids w : (forall id, within keeps (mk' id)) ->
  (forall id w', keeps w w' -> mk id w' = mk' id w') ->
  call_each_from E sel all c mk ids w = call_each_from E sel all c mk' ids w.
Proof.
  intros W. revert w. induction ids as [|id t IH]; intros w H; simpl; auto.
  apply bind_keep2; [apply H, keeps_refl|apply W|]. intros ev w1 H1.
  apply bind_keep; [apply k_cb|]. intros _ w2 H2.
  apply bind_keep; [apply k_get_cache|]. intros x w3 H3.
  destruct (natlist_eqb _ _); auto. apply IH. intros i w4 H4. apply H.
  repeat (eapply keeps_trans; [eassumption|]). apply keeps_refl.
Qed.
Lemma call_each_eq sel c mk mk' w : (forall id, within keeps (mk' id)) ->
  (forall id w', keeps w w' -> mk id w' = mk' id w') -> call_each E sel c mk w = call_each E sel c mk' w.
Proof.
  intros W H. unfold call_each. apply bind_keep; [apply k_get_cache|]. intros x w' H'. apply call_each_from_eq; auto.
  intros id w2 H2. apply H. eapply keeps_trans; eauto.
Qed.

(** ** Functions *)
Ltac look H := match type of H with
  | key_of ?w ?a = Some ?k => match goal with W : keeps w ?w' |- _ =>
      let N := fresh "KK" in assert (N : key_of w' a = Some k) by (rewrite (key_keeps a W); exact H) end
  | value_of ?w ?a = Some ?k => match goal with W : keeps w ?w' |- _ =>
      let N := fresh "VV" in assert (N : value_of w' a = Some k) by (rewrite (val_keeps a W); exact H) end
  end.
Lemma read_key B w a k (f : K -> M B) : key_of w a = Some k -> bind (kget a) f w = f k w.
Proof. intros H. unfold bind. rewrite (kget_val H). auto. Qed.
Lemma read_val B w b v (f : V -> M B) : value_of w b = Some v -> bind (vget b) f w = f v w.
Proof. intros H. unfold bind. rewrite (vget_val H). auto. Qed.

Ltac rk := match goal with
  | H : key_of ?w ?a = Some _ |- bind (kget ?a) _ ?w = _ => rewrite (read_key _ H); auto
  | H : value_of ?w ?b = Some _ |- bind (vget ?b) _ ?w = _ => rewrite (read_val _ H); auto end.
Lemma last_is_eq c a k w : key_of w a = Some k -> last_is_ref E c a w = last_is E c k w.
Proof.
  intros H. unfold last_is_ref, last_is. apply bind_keep; [apply k_get_cache|]. intros x w1 H1. look H.
  destruct (c_last x); auto. apply bind_keep; [apply k_deref|]. intros n w2 H2. look KK. rk.
Qed.
Lemma map_find_eq c a k w : key_of w a = Some k -> map_find_ref E c a w = map_find E c k w.
Proof. intros H. unfold map_find_ref. rk. Qed.

Lemma k_register_hit c k p : within keeps (register_hit E c k p).
Proof.
  unfold register_hit. k1; [apply k_get_cache|]. k1.
  - k1; [k1; [apply k_get_stats|apply k_put_stats]|apply k_ret].
  - k1; apply k_call_each; intros id; [k1; [apply k_deref|]|]; apply k_ret.
Qed.
Lemma k_register_miss c k : within keeps (register_miss E c k).
Proof.
  unfold register_miss. k1; [apply k_get_cache|]. k1.
  - k1; [k1; [apply k_get_stats|apply k_put_stats]|apply k_ret].
  - k1; apply k_call_each; intros id; apply k_ret.
Qed.
Lemma register_hit_eq c a k p w : key_of w a = Some k -> register_hit_ref E c a p w = register_hit E c k p w.
Proof.
  intros H. unfold register_hit_ref, register_hit. apply bind_keep; [apply k_get_cache|]. intros x w1 H1. look H.
  apply bind_keep2; [| |].
  - destruct (c_stats x); auto. apply bind_keep; [apply k_get_stats|]. intros st w2 H2. look KK. rk.
  - k1; [k1; [apply k_get_stats|apply k_put_stats]|apply k_ret].
  - intros _ w2 H2. look KK. apply bind_keep2.
    + apply call_each_eq; [intros id; k1; [apply k_deref|]; apply k_ret|].
      intros id w' H'. look KK0. rk.
    + apply k_call_each. intros id. k1; [apply k_deref|]. apply k_ret.
    + intros _ w3 H3. look KK0. apply call_each_eq; [intros id; apply k_ret|].
      intros id w' H'. look KK1. rk.
Qed.
Lemma register_miss_eq c a k w : key_of w a = Some k -> register_miss_ref E c a w = register_miss E c k w.
Proof.
  intros H. unfold register_miss_ref, register_miss. apply bind_keep; [apply k_get_cache|]. intros x w1 H1. look H.
  apply bind_keep2; [| |].
  - destruct (c_stats x); auto. apply bind_keep; [apply k_get_stats|]. intros st w2 H2. look KK. rk.
  - k1; [k1; [apply k_get_stats|apply k_put_stats]|apply k_ret].
  - intros _ w2 H2. look KK. apply bind_keep2.
    + apply call_each_eq; [intros id; apply k_ret|]. intros id w' H'. look KK0. rk.
    + apply k_call_each. intros id. apply k_ret.
    + intros _ w3 H3. look KK0. apply call_each_eq; [intros id; apply k_ret|].
      intros id w' H'. look KK1. rk.
Qed.
Lemma k_find_hit c k i : within keeps (find_hit E c k i).
Proof.
  unfold find_hit. k1; [apply k_deref_it|]. k1; [apply k_register_hit|]. k1; [apply k_deref_it|].
  k1; [apply k_move_to_front|]. k1; [apply k_deref_it|]. apply k_set_last.
Qed.
Lemma find_hit_eq c a k i w : key_of w a = Some k -> find_hit_ref E c a i w = find_hit E c k i w.
Proof.
  intros H. unfold find_hit_ref, find_hit. apply bind_keep; [apply k_deref_it|]. intros _ w1 H1. look H.
  apply bind_keep2; [apply register_hit_eq; auto|apply k_register_hit|]. auto.
Qed.
Lemma k_find c k : within keeps (find E c k).
Proof.
  unfold find. k1; [apply k_get_cache|]. k1.
  - k1; [apply k_map_find|]. k1.
    + k1; [apply k_deref_it|]. k1; [apply k_expired|]. k1; (k1; [|apply k_ret]); [apply k_register_miss|apply k_find_hit].
    + k1; [apply k_register_miss|apply k_ret].
  - k1; [apply k_map_find|]. k1; (k1; [|apply k_ret]); [apply k_find_hit|apply k_register_miss].
Qed.
Lemma find_eq c a k w : key_of w a = Some k -> find_ref E c a w = find E c k w.
Proof.
  intros H. unfold find_ref, find. apply bind_keep; [apply k_get_cache|]. intros x w1 H1. look H.
  destruct (c_ttl x) as [d|].
  - apply bind_keep2; [apply map_find_eq; auto|apply k_map_find|]. intros i w2 H2. look KK. destruct i as [i|].
    + apply bind_keep; [apply k_deref_it|]. intros n w3 H3. look KK0.
      apply bind_keep; [apply k_expired|]. intros ex w4 H4. look KK1. destruct ex.
      * apply bind_keep2; [apply register_miss_eq; auto|apply k_register_miss|]. auto.
      * apply bind_keep2; [apply find_hit_eq; auto|apply k_find_hit|]. auto.
    + apply bind_keep2; [apply register_miss_eq; auto|apply k_register_miss|]. auto.
  - apply bind_keep2; [apply map_find_eq; auto|apply k_map_find|]. intros i w2 H2. look KK. destruct i as [i|].
    + apply bind_keep2; [apply find_hit_eq; auto|apply k_find_hit|]. auto.
    + apply bind_keep2; [apply register_miss_eq; auto|apply k_register_miss|]. auto.
Qed.
Lemma k_last_ok c : within keeps (last_accessed_is_ok E c).
Proof.
  unfold last_accessed_is_ok. k1; [apply k_get_cache|]. k1; [|apply k_ret].
  k1; [apply k_last_ptr|]. k1; [apply k_deref|]. k1; [apply k_expired|]. apply k_ret.
Qed.
Lemma k_last_value c : within keeps (value_for_last_accessed E c).
Proof.
  unfold value_for_last_accessed. k1; [apply k_get_cache|]. k1; [apply k_last_ptr|]. k1; [|apply k_ret].
  k1; [apply k_deref|]. k1; [apply k_expired|]. k1; [apply k_throw|apply k_ret].
Qed.
Lemma contains_eq c a k w : key_of w a = Some k -> contains_ref E c a w = contains E c k w.
Proof.
  intros H. unfold contains_ref, contains. apply bind_keep2; [apply last_is_eq; auto|apply k_last_is|].
  intros hot w1 H1. look H. destruct hot.
  - apply bind_keep; [apply k_last_ok|]. intros ok w2 H2. look KK. destruct ok; auto.
    apply bind_keep; [apply k_last_ptr|]. intros p w3 H3. look KK0.
    apply bind_keep2; [apply register_hit_eq; auto|apply k_register_hit|]. auto.
  - apply bind_keep2; [apply find_eq; auto|apply k_find|]. auto.
Qed.
Lemma lookup_eq c a k w : key_of w a = Some k -> lookup_ref E c a w = lookup E c k w.
Proof.
  intros H. unfold lookup_ref, lookup. apply bind_keep2; [apply last_is_eq; auto|apply k_last_is|].
  intros hot w1 H1. look H. destruct hot.
  - apply bind_keep; [apply k_last_value|]. intros p w2 H2. look KK.
    apply bind_keep2; [apply register_hit_eq; auto|apply k_register_hit|]. auto.
  - apply bind_keep2; [apply find_eq; auto|apply k_find|]. auto.
Qed.
Lemma k_throw_if_invalid c it : within keeps (throw_if_invalid_u E c it).
Proof.
  unfold throw_if_invalid_u. k1; [apply k_get_cache|]. k1; [apply k_throw|]. k1; [|apply k_ret].
  unfold has_expired_u. k1; [|k1; [apply k_throw|apply k_ret]]. k1; [apply k_ret|]. k1; [apply k_undef|].
  k1; [apply k_deref_it|apply k_expired].
Qed.
Lemma k_u_entry it : within keeps (u_entry E it).
Proof.
  unfold u_entry. k1; [k1; [apply k_throw_if_invalid|apply k_ret]|]. k1.
  - k1; [k1; [apply k_throw_if_invalid|apply k_undef]|apply k_undef].
  - k1; [apply k_deref_it|]. k1; [apply k_throw_if_invalid|apply k_ret].
Qed.
Lemma k_lookup c k : within keeps (lookup E c k).
Proof.
  unfold lookup. k1; [apply k_last_is|]. k1.
  - k1; [apply k_last_value|]. k1; [apply k_register_hit|apply k_ret].
  - k1; [apply k_find|]. k1; [apply k_throw|apply k_u_entry].
Qed.
Lemma move_to_front_eq c i b v w : value_of w b = Some v -> move_to_front_ref E c i b w = move_to_front_value E c i v w.
Proof.
  intros H. unfold move_to_front_ref, move_to_front_value. apply bind_keep; [apply k_deref_it|]. intros n w1 H1. look H.
  apply bind_keep; [apply k_move_to_front|]. intros _ w2 H2. look VV.
  apply bind_keep; [apply k_fallible|]. intros _ w3 H3. look VV0. rk.
Qed.
Lemma insert_eq c a b k v w : key_of w a = Some k -> value_of w b = Some v ->
  insert_ref E c a b w = insert E c k v w.
Proof.
  intros Hk Hv. unfold insert_ref, insert. apply bind_keep; [apply k_capacity|]. intros cap w1 H1. look Hk. look Hv.
  destruct (Nat.eqb cap 0); auto. apply bind_keep2; [apply map_find_eq; auto|apply k_map_find|].
  intros i w2 H2. look KK. look VV. destruct i as [i|].
  - apply bind_eq2; [apply move_to_front_eq; auto|]. auto.
  - rewrite (read_val _ VV0). apply bind_keep; [apply k_timestamp|]. intros t w3 H3. look KK0. rk.
Qed.
Lemma take_eq b v w : value_of w b = Some v -> take husk false b w = Val v w.
Proof. intros H. unfold take. rewrite (read_val _ H). destruct b; auto. Qed.
Lemma emplace_eq c a b k v w : key_of w a = Some k -> value_of w b = Some v ->
  emplace_ref E husk false c a b w = emplace E c k v w.
Proof.
  intros Hk Hv. unfold emplace_ref, emplace. apply bind_keep; [apply k_capacity|]. intros cap w1 H1. look Hk. look Hv.
  destruct (Nat.eqb cap 0); auto. apply bind_keep; [apply k_fallible|]. intros _ w2 H2. look KK. look VV.
  rewrite (read_key _ KK0). apply bind_keep; [apply k_map_find|]. intros i w3 H3. look VV0. destruct i as [i|].
  - apply bind_keep; [apply k_fallible|]. intros _ w4 H4. look VV1. unfold bind at 1. rewrite (take_eq VV2). auto.
  - unfold bind at 1. rewrite (take_eq VV1). auto.
Qed.
Lemma erase_eq c a k w : key_of w a = Some k -> erase_ref E c a w = erase_key E c k w.
Proof.
  intros H. unfold erase_ref, erase_key. apply bind_keep2; [apply last_is_eq; auto|apply k_last_is|].
  intros hot w1 H1. look H. destruct hot; auto. apply bind_keep2; [apply map_find_eq; auto|apply k_map_find|]. auto.
Qed.
Lemma has_expired_eq c d a k w : key_of w a = Some k -> has_expired_ref E c d a w = has_expired_key E c d k w.
Proof.
  intros H. unfold has_expired_ref, has_expired_key. apply bind_keep2; [apply map_find_eq; auto|apply k_map_find|]. auto.
Qed.

Lemma k_stats c : within keeps (stats (K:=K) (V:=V) c).
Proof. unfold stats. k1; [apply k_get_cache|]. k1; [apply k_ret|apply k_throw]. Qed.

(** Reads of the statistics of [c] twice. *)
Lemma stats_or_eq c a k w f : key_of w a = Some k ->
  (stats c;;; k' <- kget a;; stats_update_or c (f k')) w = stats_update_or c (f k) w.
Proof.
  intros H. unfold stats_update_or, stats, bind, get_cache.
  destruct (slot (w_caches w) c) as [x|] eqn:X; auto. destruct (c_stats x) as [s|] eqn:S; auto.
  simpl. rewrite (kget_val H). rewrite X, S. auto.
Qed.

Theorem references r o w : by_value w r = Some o -> rexec E husk khusk r w = exec E o w.
Proof.
  assert (ONE : forall a (f : K -> op K V), option_map f (key_of w a) = Some o -> exists k, key_of w a = Some k /\ o = f k).
  { intros a f. destruct (key_of w a) as [k|]; intros [= <-]. exists k; auto. }
  assert (TWO : forall a b (f : K -> V -> op K V), match key_of w a, value_of w b with Some k, Some v => Some (f k v) | _, _ => None end = Some o ->
     exists k v, key_of w a = Some k /\ value_of w b = Some v /\ o = f k v).
  { intros a b f. destruct (key_of w a) as [k|], (value_of w b) as [v|]; intros [= <-]. exists k, v; auto. }
  unfold rexec, exec.
  destruct r; intros H; try discriminate H; simpl in H;
    first [apply TWO in H; destruct H as (k & v & Hk & Hv & ->)
          |apply ONE in H; destruct H as (k & Hk & ->)]; simpl;
    match goal with |- context [if ?b then _ else _] => destruct b; auto end.
  - apply bind_eq2; [apply insert_eq; auto|]. auto.
  - apply bind_eq2; [apply emplace_eq; auto|]. auto.
  - apply bind_eq2; [apply find_eq; auto|]. auto.
  - apply bind_eq2; [apply find_eq; auto|]. auto.
  - apply bind_eq2; [apply contains_eq; auto|]. auto.
  - apply bind_eq2; [apply lookup_eq; auto|]. auto.
  - unfold subscript. apply bind_keep2; [apply lookup_eq; auto|apply k_lookup|].
    intros p w1 H1. look Hv. rk.
  - apply bind_eq2; [apply erase_eq; auto|]. auto.
  - apply bind_eq2; [apply find_eq; auto|]. auto.
  - unfold with_ttl. apply bind_keep; [apply k_get_cache|]. intros x w1 H1. look Hk. destruct (c_ttl x); auto.
    apply bind_eq2; [apply has_expired_eq; auto|]. auto.
  - apply bind_keep; [apply k_stats|]. intros s w1 H1. look Hk.
    apply bind_keep; [apply k_get_stats|]. intros x w2 H2. look KK. rk.
  - apply (stats_or_eq c (fun k x => Some (stats_monitor E k x)) Hk).
  - apply (stats_or_eq c (fun k => stats_unmonitor E k) Hk).
  - apply (stats_or_eq c (fun k => stats_reset_key E k) Hk).
  - apply bind_keep; [apply k_stats|]. intros s w1 H1. look Hk.
    apply bind_keep; [apply k_get_stats|]. intros x w2 H2. look KK. rk.
Qed.

End RefsProofs.
