(** Copies keep the invariant of [AnyKeep]. *)
From Coq Require Import List Arith ZArith Bool Permutation Lia.
Import ListNotations.
From Verif Require Import Monad Types Model Api Spec Ref Lists SimBase SimRel Effects Settings Global CopyBlind CopyEval AnyWorld AnyKeep AnyInsert AnyRun.
Set Implicit Arguments.
Unset Strict Implicit.
Local Open Scope cpp_scope.

Section Copies.
Context {K V : Type}.
Variable E : env K V.
Hypothesis G : good E.

Notation world := (world K V).
Notation store := (store K V).
Notation mnode := (mnode K V).
Notation M := (M world).
Notation W := (W E).
Notation ws := (ws E).
Notation kw := (kw E).
Notation lc := (@lc K).
Implicit Types (w : world) (s : store).

Lemma redirect r r' l1 (cl : lc) l2 : NoDup (map (@lq K) (l1 ++ cl :: l2)) ->
  alter (lq cl) (fun _ => (r', lm cl)) (map (orow r') l1 ++ map (orow r) (cl :: l2)) =
  map (orow r') (l1 ++ [cl]) ++ map (orow r) l2.
Proof.
  intros N. apply nd_mid in N as (_ & N). rewrite map_app in N.
  rewrite alter_app, alter_none by (rewrite orow_fst; intro; apply N, in_or_app; auto).
  simpl. rewrite Nat.eqb_refl. rewrite alter_none by (rewrite orow_fst; intro; apply N, in_or_app; auto).
  rewrite map_app. simpl. rewrite <- app_assoc. auto.
Qed.
(** The copied containers with their references reassigned; the list iterators
    in the map nodes are still the old ones. *)
Definition dup r s (l : list lc) : store := MkStore (copy_map E (s_map s)) (map (orow r) l) (s_next s) 0.
Lemma dup_ws r r' s l : ws r s l -> r < r' -> ws r' (dup r' s l) l.
Proof.
  intros Hl L. constructor; simpl; auto.
  - rewrite (Permutation_map (@row K V) (copy_map_perm G (s_map s))). apply (ws_map Hl).
  - apply (ws_nq Hl).
  - apply (ws_nm Hl).
  - apply (ws_lt Hl).
  - apply (ws_keys Hl).
  - intros i n r1 q I H. apply (Permutation_in _ (copy_map_perm G (s_map s))) in I.
    destruct (ws_n Hl I H) as (L1 & _). split; lia.
Qed.
Lemma reassign_any d r r' s l x' : r < r' -> c_rid x' = r' -> ws r s l ->
  forall l2 l1 w, l = l1 ++ l2 -> slot (w_caches w) d = Some x' ->
  slot (w_stores w) r = Some s ->
  slot (w_stores w) r' = Some (MkStore (copy_map E (s_map s)) (map (orow r') l1 ++ map (orow r) l2) (s_next s) 0) ->
  reassign E d (map (@lq K) l2) w = Val tt (setS r' (dup r' s l) w).
Proof.
  intros N Rx R. induction l2 as [|cl l2 IH]; intros l1 w -> Hx Hs Hs'.
  - simpl. rewrite app_nil_r. simpl map in Hs'. rewrite app_nil_r in Hs'. rewrite setS_same by auto. auto.
  - cbn [map reassign].
    set (s1 := MkStore (copy_map E (s_map s)) (map (orow r') l1 ++ map (orow r) (cl :: l2)) (s_next s) 0) in *.
    assert (AT : at_ w d x' s1) by (split; [exact Hx|rewrite Rx; exact Hs']).
    erewrite bind_val; [|apply own_ev; exact AT]. rewrite Rx. cbv iota beta.
    assert (LD : list_deref (r', lq cl) w = Val (r, lm cl) w).
    { unfold list_deref, bind; simpl fst; simpl snd. erewrite get_store_ev by exact Hs'. 
      assert (A : assoc (lq cl) (s_ord s1) = Some (r, lm cl)).
      { apply in_assoc.
        - cbn [s_ord s1]. rewrite map_app, !orow_fst, <- map_app. apply (ws_nq R).
        - cbn [s_ord s1]. apply in_or_app. right. left. auto. }
      unfold s1 in A |- *. simpl in A |- *. unfold mptr in *. rewrite A. auto. }
    erewrite bind_val; [|exact LD].
    assert (Ic : In cl (l1 ++ cl :: l2)) by (apply in_or_app; simpl; auto).
    destruct (ws_node R Ic) as (n & In_ & Hk).
    assert (DR : deref (r, lm cl) w = Val n w).
    { unfold deref, bind; simpl fst; simpl snd. erewrite get_store_ev by exact Hs. cbv iota beta. simpl. rewrite (proj2 (ws_assoc _ _ R) In_). auto. }
    erewrite bind_val; [|exact DR].
    assert (R2 : ws r' (dup r' s (l1 ++ cl :: l2)) (l1 ++ cl :: l2)) by (eapply dup_ws; eauto).
    destruct (find_ws_of (k := n_key n) G R2 Ic) as (n' & F & _ & _); [rewrite Hk; apply (good_refl G)|].
    assert (MF : map_find E d (n_key n) w = Val (Some ((r', lm cl), 0)) w).
    { unfold map_find. erewrite bind_val; [|apply own_ev; exact AT]. cbv iota beta. cbn [s_map s1]. rewrite Rx. simpl in F. rewrite F. reflexivity. }
    erewrite bind_val; [|exact MF]. cbv iota beta. cbn [fst]. erewrite bind_val; [|apply put_store_ev].
    cbn [s_map s_ord s_next s_epoch s1].
    pose proof (redirect r r' (ws_nq R)) as AM. unfold mptr in *. rewrite AM. clear AM.
    rewrite (IH (l1 ++ [cl])).
    + unfold setS, with_stores; simpl. rewrite upd_upd. auto.
    + rewrite <- app_assoc. auto.
    + auto.
    + simpl. rewrite slot_upd_other; auto. lia.
    + simpl. rewrite (slot_upd_same _ _ _ Hs'). auto.
Qed.
Lemma reassign_refs_any d x y s l w cs ss : slot cs d = Some (copy_cache (length ss) x) ->
  slot ss (c_rid x) = Some s -> ws (c_rid x) s l ->
  reassign_references E d (MkWorld cs (ss ++ [Some (MkStore (copy_map E (s_map s)) (s_ord s) (s_next s) 0)]) (w_stats w) (w_log w) (w_reads w) y)
  = Val tt (MkWorld cs (ss ++ [Some (dup (length ss) s l)]) (w_stats w) (w_log w) (w_reads w) y).
Proof.
  intros Hx Hs R. pose proof (slot_lt _ _ Hs) as L. unfold reassign_references.
  erewrite bind_val; [|eapply own_ev; split; [exact Hx|simpl; apply slot_app_new]].
  cbv iota beta. cbn [s_ord]. rewrite (ws_ord R), orow_fst.
  erewrite (@reassign_any d (c_rid x) (length ss) s l (copy_cache (length ss) x)) with (l1 := []);
    [ | lia | reflexivity | exact R | reflexivity | exact Hx | simpl; rewrite slot_app_lt; auto |].
  - unfold setS, with_stores; simpl. f_equal. f_equal. rewrite upd_app_new. auto.
  - simpl. rewrite slot_app_new. auto.
Qed.

Definition duplicated (cs : list (option cache)) (ss : list (option store)) s l w : world :=
  MkWorld cs (ss ++ [Some (dup (length ss) s l)]) (w_stats w) (w_log w) (w_reads w) (S (S (w_steps w))).
Lemma copy_any c w x s l : at_ w c x s -> ws (c_rid x) s l ->
  copy_new E c w = Val (length (w_caches w))
    (duplicated (w_caches w ++ [Some (copy_cache (length (w_stores w)) x)]) (w_stores w) s l w).
Proof.
  intros (Hx & Hs) R. unfold copy_new. 
  erewrite bind_val; [|apply get_cache_ev; exact Hx]. erewrite bind_val; [|apply get_store_ev; exact Hs].
  erewrite bind_val; [|apply (fallible_ev G)]. erewrite bind_val; [|apply (fallible_ev G)].
  unfold alloc_store, alloc_cache, with_stores, with_caches; simpl. unfold bind at 1; simpl. unfold bind at 1; simpl.
  erewrite bind_val; [reflexivity|].
  erewrite reassign_refs_any; [reflexivity| |exact Hs|exact R]. apply slot_app_new.
Qed.
Lemma copy_assign_any c d w x y s t l : c <> d -> at_ w d x s -> at_ w c y t -> ws (c_rid x) s l ->
  c_rid x <> c_rid y ->
  copy_assign E c d w = Val tt
    (duplicated (upd (w_caches w) c (Some (copy_cache (length (w_stores w)) x))) (upd (w_stores w) (c_rid y) None) s l w).
Proof.
  intros N (Hx & Hs) (Hy & Ht) R NR. unfold copy_assign, noexcept. apply Nat.eqb_neq in N. rewrite N. apply Nat.eqb_neq in N.
  erewrite bind_val; [|apply get_cache_ev; exact Hy]. erewrite bind_val; [|apply get_cache_ev; exact Hx].
  erewrite bind_val; [|apply get_store_ev; exact Hs].
  erewrite bind_val; [|apply (fallible_ev G)]. erewrite bind_val; [|apply (fallible_ev G)].
  unfold drop_store, modify, alloc_store, put_cache, with_stores, with_caches; simpl. unfold bind at 1; simpl. unfold bind at 1; simpl.
  unfold bind at 1, modify; simpl. rewrite upd_length.
  replace (length (w_stores w)) with (length (upd (w_stores w) (c_rid y) None)) by apply upd_length.
  erewrite reassign_refs_any; [reflexivity| | |exact R].
  - rewrite (slot_upd_same _ _ _ Hy). auto.
  - rewrite slot_upd_other; auto.
Qed.

Lemma k_copy_new c : within kw (copy_new E c).
Proof.
  apply by_W. intros w Hw. destruct (slot (w_caches w) c) as [x|] eqn:Hx.
  2: { unfold copy_new, bind, get_cache. rewrite Hx. auto. }
  destruct (W_at Hw Hx) as (s & l & A & Hl & L). rewrite (copy_any A Hl).
  destruct A as (_ & Hs). pose proof (slot_lt _ _ Hs) as Lt.
  eapply (W_alloc (y := copy_cache (length (w_stores w)) x) (s := dup (length (w_stores w)) s l)) with (l := l); eauto.
  - eapply dup_ws; eauto.
  - simpl. intros p Hp. pose proof (W_last Hw Hx Hp). lia.
Qed.
Lemma k_copy_assign c d : within kw (copy_assign E c d).
Proof.
  apply by_W. intros w Hw. destruct (Nat.eq_dec c d) as [->|N].
  { unfold copy_assign, noexcept. rewrite Nat.eqb_refl. exact Hw. }
  destruct (slot (w_caches w) c) as [y|] eqn:Hy.
  2: { unfold copy_assign, noexcept. rewrite (proj2 (Nat.eqb_neq c d) N). unfold bind, get_cache. rewrite Hy. auto. }
  destruct (slot (w_caches w) d) as [x|] eqn:Hx.
  2: { unfold copy_assign, noexcept. rewrite (proj2 (Nat.eqb_neq c d) N). unfold bind, get_cache. rewrite Hy, Hx. auto. }
  destruct (W_at Hw Hx) as (s & l & A & Hl & L). destruct (W_at Hw Hy) as (t & m & B & Hm & L').
  assert (NR : c_rid x <> c_rid y) by (intros Q; apply N; symmetry; eapply (W_inj Hw); eauto).
  rewrite (copy_assign_any N A B Hl NR). destruct A as (_ & Hs). destruct B as (_ & Ht). pose proof (slot_lt _ _ Hs) as Lt.
  assert (Q : forall e z, slot (upd (w_caches w) c (Some (copy_cache (length (w_stores w)) x))) e = Some z ->
     e = c /\ z = copy_cache (length (w_stores w)) x \/ e <> c /\ slot (w_caches w) e = Some z).
  { intros e z H. destruct (Nat.eq_dec c e) as [->|Ne].
    - erewrite slot_upd_same in H by eauto. injection H as <-. auto.
    - rewrite slot_upd_other in H by auto. auto. }
  constructor; unfold duplicated; simpl.
  - intros e z H. destruct (Q e z H) as [(-> & ->)|(Ne & H')].
    + exists (dup (length (upd (w_stores w) (c_rid y) None)) s l). simpl c_rid. split.
      * rewrite <- (upd_length (w_stores w) (c_rid y) None) at 1. apply slot_app_new.
      * simpl. rewrite (Permutation_length (copy_map_perm G (s_map s))), (ws_size Hl). auto.
    + destruct (W_c Hw H') as (s1 & H1 & L1). exists s1. split; auto.
      rewrite slot_app_lt by (rewrite upd_length; eapply slot_lt; eauto). rewrite slot_upd_other; auto.
      intros R. apply Ne. symmetry. eapply (W_inj Hw); eauto.
  - intros r s1 H. apply slot_app_some in H as [(Lr & H)|(-> & ->)].
    + destruct (Nat.eq_dec (c_rid y) r) as [<-|Nr]; [erewrite slot_upd_same in H by eauto; discriminate|].
      rewrite slot_upd_other in H by auto. apply (W_s Hw H).
    + exists l. rewrite upd_length. eapply dup_ws; eauto.
  - assert (Q2 : forall e z, slot (w_caches w) e = Some z -> c_rid z < length (w_stores w)).
    { intros e z H. destruct (W_c Hw H) as (s1 & H1 & _). eapply slot_lt; eauto. }
    intros e f z v H1 H2 R. destruct (Q e z H1) as [(-> & ->)|(Ne & H1')]; destruct (Q f v H2) as [(-> & ->)|(Nf & H2')]; auto.
    + simpl in R. specialize (Q2 _ _ H2'). lia.
    + simpl in R. specialize (Q2 _ _ H1'). lia.
    + eapply (W_inj Hw); eauto.
  - intros e z p H. destruct (Q e z H) as [(-> & ->)|(Ne & H')]; [|apply (W_last Hw H')].
    simpl. intros Hp. pose proof (W_last Hw Hx Hp). lia.
Qed.
End Copies.
