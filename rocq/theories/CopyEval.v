(** What copy construction and copy assignment do. *)
From Coq Require Import List Arith ZArith Bool Permutation Lia.
Import ListNotations.
From Verif Require Import Monad Types Model Api Spec Ref Lists SimBase SimRel Global SpecCopy CopyBlind.
Set Implicit Arguments.
Unset Strict Implicit.
Local Open Scope cpp_scope.

Section Eval.
Context {K V : Type}.
Variable E : env K V.
Hypothesis G : good E.

Notation entry := (entry K V).
Notation world := (world K V).
Notation store := (store K V).
Notation mnode := (mnode K V).
Notation acache := (acache K V).
Notation aworld := (aworld K V).
Notation cell := (@cell K V).
Notation rel := (rel E).
Implicit Types (w z : world) (s : store) (a : acache) (aw : aworld).

Lemma copy_map_acc (l acc : list (nat * mnode)) :
  Permutation (fold_left (fun acc p => place E acc p) l acc) (l ++ acc).
Proof.
  revert acc. induction l as [|p l IH]; intros acc; simpl; auto.
  rewrite IH. rewrite (good_place G acc p). symmetry. apply Permutation_middle.
Qed.
Lemma copy_map_perm (l : list (nat * mnode)) : Permutation (copy_map E l) l.
Proof. unfold copy_map. rewrite copy_map_acc, app_nil_r. auto. Qed.

(** The copied containers, before the references are reassigned. *)
Lemma copy_rep r s l ep : rep_store E r s l -> rep_store E r (MkStore (copy_map E (s_map s)) (s_ord s) (s_next s) ep) l.
Proof.
  intros []. constructor; simpl; auto. rewrite copy_map_perm. auto.
Qed.

Lemma alter_mid r r' l1 (cl : cell) l2 : NoDup (map cl_q (l1 ++ cl :: l2)) ->
  alter (cl_q cl) (fun _ => (r', cl_m cl)) (map (qrow r') l1 ++ map (qrow r) (cl :: l2)) =
  map (qrow r') (l1 ++ [cl]) ++ map (qrow r) l2.
Proof.
  intros N. apply nodup_mid in N as (_ & N). rewrite map_app in N.
  rewrite alter_app, alter_none by (rewrite qrow_fst; intro; apply N, in_or_app; auto).
  simpl. rewrite Nat.eqb_refl. rewrite alter_none by (rewrite qrow_fst; intro; apply N, in_or_app; auto).
  rewrite map_app. simpl. rewrite <- app_assoc. auto.
Qed.

Lemma reassign_ev d r r' s l m nx ep x' : r <> r' -> c_rid x' = r' -> rep_store E r s l ->
  Permutation m (s_map s) ->
  forall l2 l1 w, l = l1 ++ l2 -> slot (w_caches w) d = Some x' ->
  slot (w_stores w) r = Some s ->
  slot (w_stores w) r' = Some (MkStore m (map (qrow r') l1 ++ map (qrow r) l2) nx ep) ->
  reassign E d (map cl_q l2) w = Val tt (setS r' (MkStore m (map (qrow r') l) nx ep) w).
Proof.
  intros N Rx R P. induction l2 as [|cl l2 IH]; intros l1 w -> Hx Hs Hs'.
  - simpl. rewrite app_nil_r. simpl map in Hs'. rewrite app_nil_r in Hs'. rewrite setS_same by auto. auto.
  - cbn [map reassign].
    assert (AT : at_ w d x' (MkStore m (map (qrow r') l1 ++ map (qrow r) (cl :: l2)) nx ep)) by (split; [exact Hx|rewrite Rx; exact Hs']).
    erewrite bind_val; [|apply own_ev; exact AT]. rewrite Rx. cbv iota beta.
    assert (LD : list_deref (r', cl_q cl) w = Val (r, cl_m cl) w).
    { unfold list_deref, bind; simpl fst; simpl snd. erewrite get_store_ev by exact Hs'. simpl s_ord.
      assert (A : assoc (cl_q cl) (map (qrow r') l1 ++ map (qrow r) (cl :: l2)) = Some (r, cl_m cl)).
      { apply in_assoc.
        - rewrite map_app, !qrow_fst, <- map_app. apply (rs_nq R).
        - apply in_or_app. right. left. auto. }
      simpl in A |- *. rewrite A. auto. }
    erewrite bind_val; [|exact LD].
    erewrite bind_val; [|eapply deref_ev; [exact Hs|exact R|apply in_mid]].
    assert (MF : map_find E d (n_key (node_of r cl)) w = Val (Some ((r', cl_m cl), ep)) w).
    { unfold map_find. erewrite bind_val; [|apply own_ev; exact AT]. simpl s_map. rewrite Rx.
      assert (R2 : rep_store E r (MkStore m (s_ord s) (s_next s) 0) (l1 ++ cl :: l2)).
      { destruct R. constructor; simpl; auto. etransitivity; eauto. }
      pose proof (rep_node_with G (n_key (node_of r cl)) R2) as W. simpl in W |- *. rewrite W.
      rewrite (find_cell_mid G); [reflexivity|apply (rs_keys R)|apply (good_refl G)]. }
    erewrite bind_val; [|exact MF]. cbv iota beta. cbn [fst]. erewrite bind_val; [|apply put_store_ev].
    cbn [s_map s_ord s_next s_epoch].
    pose proof (alter_mid r r' (rs_nq R)) as AM. unfold mptr in *. rewrite AM. clear AM.
    rewrite (IH (l1 ++ [cl])).
    + unfold setS, with_stores; simpl. rewrite upd_upd. auto.
    + rewrite <- app_assoc. auto.
    + auto.
    + simpl. rewrite slot_upd_other; auto.
    + simpl. rewrite (slot_upd_same _ _ _ Hs'). auto.
Qed.

(** The copy of node row [p] with the list iterator it should have. *)
Definition relocate (r : nat) (p : nat * mnode) : nat * mnode :=
  (fst p, MkNode (n_key (snd p)) (n_val (snd p)) (option_map (fun q => (r, snd q)) (n_ord (snd p))) (n_time (snd p))).
Lemma relocate_row r r' (cl : cell) : relocate r' (mrow r cl) = mrow r' cl.
Proof. reflexivity. Qed.
Lemma relocate_same r (l : list (nat * mnode)) : Forall2 (@same_row K V) l (map (relocate r) l).
Proof. induction l; constructor; auto. repeat split. Qed.

Definition copy_store r s (l : list cell) : store := MkStore (copy_map E (s_map s)) (map (qrow r) l) (s_next s) 0.
Definition mended_store r s (l : list cell) : store := MkStore (map (relocate r) (copy_map E (s_map s))) (map (qrow r) l) (s_next s) 0.
Definition copy_cache r (x : cache) : cache := MkCache r (c_last x) (c_cap x) (c_stats x) (c_cbs x) (c_ttl x).
Definition mended_cache r (x : cache) (l : list cell) a : cache :=
  MkCache r (if a_hot a then option_map (fun c => (r, cl_m c)) (last_cell l) else None)
          (c_cap x) (c_stats x) (c_cbs x) (c_ttl x).

Lemma mended_rep r x s a l : rep E x s a l -> rep E (mended_cache r x l a) (mended_store r s l) a l.
Proof.
  intros R. destruct R as [R1 R2 R3 R4 R5 R6 R7 R8 R9]. constructor; simpl; auto. destruct R1. constructor; simpl; auto.
  rewrite (Permutation_map (relocate r) (copy_map_perm (s_map s))).
  rewrite (Permutation_map (relocate r) rs_map). rewrite map_map. apply Permutation_refl.
Qed.

(** A world where cache [d] is new. *)
Lemma rel_place w aw z aw' d a c x' s' l : rel w aw ->
  slot (aw_caches aw) c = Some a ->
  w_stats z = w_stats w -> w_log z = w_log w -> w_reads z = w_reads w ->
  aw_stats aw' = aw_stats aw -> aw_log aw' = aw_log aw -> aw_reads aw' = aw_reads aw ->
  length (w_caches z) = length (aw_caches aw') ->
  slot (w_caches z) d = Some x' -> slot (w_stores z) (c_rid x') = Some s' -> rep E x' s' a l ->
  slot (aw_caches aw') d = Some a ->
  (forall e, e <> d -> slot (w_caches z) e = slot (w_caches w) e /\ slot (aw_caches aw') e = slot (aw_caches aw) e) ->
  (forall e y, e <> d -> slot (w_caches w) e = Some y -> c_rid y <> c_rid x' /\ slot (w_stores z) (c_rid y) = slot (w_stores w) (c_rid y)) ->
  rel z aw'.
Proof.
  intros R Ha S1 S2 S3 A1 A2 A3 L Hx Hs Rp Hd O1 O2. constructor; auto.
  - intros e. destruct (Nat.eq_dec e d) as [->|N].
    + rewrite Hx, Hd. eauto.
    + destruct (O1 e N) as (-> & ->). pose proof (rel_slot R e) as Q.
      destruct (slot (w_caches w) e) as [y|] eqn:Y, (slot (aw_caches aw) e) as [b|]; auto.
      destruct Q as (t & m & Q1 & Q2). exists t, m. split; auto. destruct (O2 e y N Y) as (_ & ->). auto.
  - intros e f y v. destruct (Nat.eq_dec e d) as [->|N], (Nat.eq_dec f d) as [->|N']; auto.
    + rewrite Hx. destruct (O1 f N') as (-> & _). intros Q1 Q2 Q3. inversion Q1; subst y. destruct (O2 f v N' Q2) as (X & _). congruence.
    + rewrite Hx. destruct (O1 e N) as (-> & _). intros Q1 Q2 Q3. inversion Q2; subst v. destruct (O2 e y N Q1) as (X & _). congruence.
    + destruct (O1 e N) as (-> & _). destruct (O1 f N') as (-> & _). apply (rel_inj R).
  - rewrite S1, A1. apply (rel_stats R).
  - rewrite S2, A2. apply (rel_log R).
  - rewrite S3, A3. apply (rel_reads R).
  - intros e b i. rewrite A1. destruct (Nat.eq_dec e d) as [->|N].
    + rewrite Hd. intros Q; inversion Q; subst b. apply (rel_sts R c Ha).
    + destruct (O1 e N) as (_ & ->). apply (rel_sts R).
Qed.

(** ** Copy construction *)
Definition bumped w : world := MkWorld (w_caches w) (w_stores w) (w_stats w) (w_log w) (w_reads w) (S (S (w_steps w))).

(** The world after a copy was made into cache [d], whose place in the table of
    caches is [put]. *)
Definition copied (cs : list (option cache)) (ss : list (option store)) s l w : world :=
  MkWorld cs (ss ++ [Some (copy_store (length ss) s l)]) (w_stats w) (w_log w) (w_reads w) (S (S (w_steps w))).
Definition mended (cs : list (option cache)) (ss : list (option store)) s l w : world :=
  MkWorld cs (ss ++ [Some (mended_store (length ss) s l)]) (w_stats w) (w_log w) (w_reads w) (S (S (w_steps w))).

Lemma reassign_refs_ev d x y s l w cs ss : slot cs d = Some (copy_cache (length ss) x) ->
  slot ss (c_rid x) = Some s -> rep_store E (c_rid x) s l ->
  reassign_references E d (MkWorld cs (ss ++ [Some (MkStore (copy_map E (s_map s)) (s_ord s) (s_next s) 0)]) (w_stats w) (w_log w) (w_reads w) y)
  = Val tt (MkWorld cs (ss ++ [Some (copy_store (length ss) s l)]) (w_stats w) (w_log w) (w_reads w) y).
Proof.
  intros Hx Hs R. pose proof (slot_lt _ _ Hs) as L. unfold reassign_references.
  erewrite bind_val; [|eapply own_ev; split; [exact Hx|simpl; apply slot_app_new]].
  cbv iota beta. cbn [s_ord]. rewrite (rs_ord R), qrow_fst.
  erewrite (@reassign_ev d (c_rid x) (length ss) s l (copy_map E (s_map s)) (s_next s) 0 (copy_cache (length ss) x)) with (l1 := []);
    [ | lia | reflexivity | exact R | apply copy_map_perm | reflexivity | exact Hx | simpl; rewrite slot_app_lt; auto |].
  - unfold setS, with_stores; simpl. f_equal. f_equal. rewrite upd_app_new. auto.
  - simpl. rewrite slot_app_new. auto.
Qed.

Lemma copy_ev c w x s l : at_ w c x s -> rep_store E (c_rid x) s l ->
  copy_new E c w = Val (length (w_caches w))
    (copied (w_caches w ++ [Some (copy_cache (length (w_stores w)) x)]) (w_stores w) s l w).
Proof.
  intros (Hx & Hs) R. unfold copy_new. 
  erewrite bind_val; [|apply get_cache_ev; exact Hx]. erewrite bind_val; [|apply get_store_ev; exact Hs].
  erewrite bind_val; [|apply (fallible_ev G)]. erewrite bind_val; [|apply (fallible_ev G)].
  unfold alloc_store, alloc_cache, with_stores, with_caches; simpl. unfold bind at 1; simpl. unfold bind at 1; simpl.
  erewrite bind_val; [reflexivity|].
  erewrite reassign_refs_ev; [reflexivity| |exact Hs|exact R]. apply slot_app_new.
Qed.

Lemma copy_assign_ev c d w x y s t l : c <> d -> at_ w d x s -> at_ w c y t -> rep_store E (c_rid x) s l ->
  c_rid x <> c_rid y ->
  copy_assign E c d w = Val tt
    (copied (upd (w_caches w) c (Some (copy_cache (length (w_stores w)) x))) (upd (w_stores w) (c_rid y) None) s l w).
Proof.
  intros N (Hx & Hs) (Hy & Ht) R NR. unfold copy_assign, noexcept. apply Nat.eqb_neq in N. rewrite N. apply Nat.eqb_neq in N.
  erewrite bind_val; [|apply get_cache_ev; exact Hy]. erewrite bind_val; [|apply get_cache_ev; exact Hx].
  erewrite bind_val; [|apply get_store_ev; exact Hs].
  erewrite bind_val; [|apply (fallible_ev G)]. erewrite bind_val; [|apply (fallible_ev G)].
  unfold drop_store, modify, alloc_store, put_cache, with_stores, with_caches; simpl. unfold bind at 1; simpl. unfold bind at 1; simpl.
  unfold bind at 1, modify; simpl. rewrite upd_length.
  replace (length (w_stores w)) with (length (upd (w_stores w) (c_rid y) None)) by apply upd_length.
  erewrite reassign_refs_ev; [reflexivity| | |exact R].
  - rewrite (slot_upd_same _ _ _ Hy). auto.
  - rewrite slot_upd_other; auto.
Qed.

(** The mended world is its twin ... *)
Lemma copied_twin cs ss s l w d x a : slot cs d = Some (copy_cache (length ss) x) ->
  (forall e y, e <> d -> slot cs e = Some y -> True) ->
  tw d (length ss) (copied cs ss s l w) (mended (upd cs d (Some (mended_cache (length ss) x l a))) ss s l w).
Proof.
  intros Hd _. constructor; simpl; auto.
  - rewrite upd_length. auto.
  - rewrite !app_length. auto.
  - intros e. destruct (Nat.eq_dec d e) as [<-|N].
    + rewrite Hd, (slot_upd_same _ _ _ Hd). simpl. split; [repeat split|]. split; [intros Q; destruct (Q eq_refl)|auto].
    + rewrite slot_upd_other by auto. destruct (slot cs e) as [y|]; simpl; auto. split; [repeat split|]. split; auto. intros ->. congruence.
  - intros r. destruct (lt_eq_lt_dec r (length ss)) as [[L| ->]|L].
    + rewrite !slot_app_lt by auto. destruct (slot ss r); simpl; auto. apply st_refl.
    + rewrite !slot_app_new. simpl. split; [|intros Q; destruct (Q eq_refl)]. repeat split. apply relocate_same.
    + rewrite !slot_overflow by (rewrite app_length; simpl; lia). simpl. auto.
Qed.
End Eval.
