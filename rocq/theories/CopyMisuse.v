(** What a copy must not be used for: calls that need the list iterators stored in
    its map nodes, which still point into the list of the original. *)
From Coq Require Import List Arith ZArith Bool Permutation Lia.
Import ListNotations.
From Verif Require Import Monad Types Model Api Spec SpecTimed SpecPair Ref Lists SimBase SimRel SimOps SimIns SimErase SimIter SimNew SimObs SimExec RefEval SimRun LruProofs CallProofs Effects Flat Global Safe Frame PairProofs SpecCopy CopyBlind CopyFrame CopyEval CopyProofs CopyMore.
Set Implicit Arguments.
Unset Strict Implicit.
Local Open Scope cpp_scope.

Section Misuse.
Context {K V : Type}.
Variable E : env K V.
Hypothesis G : good E.

Notation world := (world K V).
Notation store := (store K V).
Notation acache := (acache K V).
Notation aworld := (aworld K V).
Notation M := (M world).
Notation rel := (rel E).
Implicit Types (w z : world) (s : store) (a : acache) (aw : aworld) (o : op K V).

(** Every node of cache [d] holds an iterator into the list of another cache, and so
    does the node last accessed. *)
Definition lost d rd x s w : Prop :=
  slot (w_caches w) d = Some x /\ c_rid x = rd /\ slot (w_stores w) rd = Some s /\
  (forall i n, In (i, n) (s_map s) -> exists r q, n_ord n = Some (r, q) /\ r <> rd) /\
  match c_last x with
  | None => True
  | Some p => exists t n r q, slot (w_stores w) (fst p) = Some t /\ assoc (snd p) (s_map t) = Some n /\
                              n_ord n = Some (r, q) /\ r <> rd
  end.
Definition stray d rd w : Prop := exists x s, lost d rd x s w.
Definition still_there w w' : Prop := w_caches w' = w_caches w /\ w_stores w' = w_stores w.

Lemma stray_still d rd w w' : stray d rd w -> still_there w w' -> stray d rd w'.
Proof. intros (x & s & A & B & C & D & F) (Q1 & Q2). exists x, s. unfold lost. rewrite Q1, Q2. auto. Qed.
Lemma still_refl w : still_there w w. Proof. split; auto. Qed.
Lemma still_trans w1 w2 w3 : still_there w1 w2 -> still_there w2 w3 -> still_there w1 w3.
Proof. intros (A & B) (C & D). split; congruence. Qed.

Lemma assoc_in {A} i (l : list (nat * A)) n : assoc i l = Some n -> In (i, n) l.
Proof.
  induction l as [|(j, m) t IH]; simpl; [discriminate|]. destruct (Nat.eqb_spec i j); intros H; [inversion H; subst; auto|auto].
Qed.
Lemma deref_stray d rd w i n w' : stray d rd w -> fst (fst i) = rd -> deref_it i w = Val n w' ->
  w' = w /\ exists r q, n_ord n = Some (r, q) /\ r <> rd.
Proof.
  intros (x & s & A & B & C & D & _) Q. destruct i as ((r0, i0), ep). simpl in Q. subst r0.
  unfold deref_it, deref, bind, get_store, ret; simpl. rewrite C.
  destruct (Nat.eqb (s_epoch s) ep); [|discriminate]. rewrite C.
  destruct (assoc i0 (s_map s)) as [m|] eqn:F; [|discriminate].
  intros H; inversion H; subst. split; auto. eapply D. eapply assoc_in; eauto.
Qed.
Lemma splice_stray d rd w r q : stray d rd w -> r <> rd -> list_splice_back d (Some (r, q)) w = Undef ForeignListIterator.
Proof.
  intros (x & s & A & B & C & D & _) N. unfold list_splice_back, own, bind, get_cache, get_store, ret. rewrite A, B, C.
  apply Nat.eqb_neq in N. rewrite N. auto.
Qed.
Lemma erase_stray d rd w r q : stray d rd w -> r <> rd -> list_erase d (Some (r, q)) w = Undef ForeignListIterator.
Proof.
  intros (x & s & A & B & C & D & _) N. unfold list_erase, own, bind, get_cache, get_store, ret. rewrite A, B, C.
  apply Nat.eqb_neq in N. rewrite N. auto.
Qed.
Lemma map_find_stray d rd w k i w' : stray d rd w -> map_find E d k w = Val (Some i) w' -> w' = w /\ fst (fst i) = rd.
Proof.
  intros (x & s & A & B & C & D & _). unfold map_find, own, bind, get_cache, get_store, ret. rewrite A, B, C.
  destruct (node_with E k (s_map s)) as [(j, m)|]; intros H; inversion H; subst. auto.
Qed.

(** A copy is astray. *)
Lemma rows_out r r' s l : rep_store E r s l -> r <> r' ->
  forall i n, In (i, n) (copy_map E (s_map s)) -> exists r0 q, n_ord n = Some (r0, q) /\ r0 <> r'.
Proof.
  intros R N i n I. apply (Permutation_in _ (copy_map_perm G (s_map s))) in I.
  apply (Permutation_in _ (rs_map R)) in I.
  apply in_map_iff in I as (cl & Q & _). inversion Q; subst. simpl. eauto.
Qed.
Lemma copied_stray cs ss s l w d x a : slot cs d = Some (copy_cache (length ss) x) -> slot ss (c_rid x) = Some s ->
  rep E x s a l -> stray d (length ss) (copied E cs ss s l w).
Proof.
  intros Hd Hs R. pose proof (slot_lt _ _ Hs) as L. pose proof (rp_store R) as RS.
  exists (copy_cache (length ss) x), (copy_store E (length ss) s l). split; auto. split; auto.
  split; [simpl; apply slot_app_new|]. split.
  - simpl. apply (rows_out RS). lia.
  - simpl. rewrite (rp_last R). destruct (a_hot a) eqn:Hh; auto. destruct (last_cell l) as [cl|] eqn:LC; simpl; auto.
    rewrite slot_app_lt by auto. exists s, (node_of (c_rid x) cl), (c_rid x), (cl_q cl). split; auto. split; [|split; [auto|lia]].
    eapply rep_assoc_m; [exact RS|]. apply last_cell_split in LC as (l' & ->). apply in_last.
Qed.
Lemma copies_stray w aw c d w' : rel w aw -> copies E c d w w' -> exists rd, stray d rd w'.
Proof.
  intros R [H|N H].
  - unfold exec in H. cbn [well_formed] in H. destruct (alive w c) eqn:A; [|discriminate]. cbn [body] in H.
    destruct (alive_inv R A) as (a & Ha). destruct (rel_get _ R Ha) as (x & s & l & At & Rp).
    erewrite bind_val in H; [|apply (copy_ev G At (rp_store Rp))]. inversion H; subst.
    exists (length (w_stores w)). eapply copied_stray; [apply slot_app_new|apply At|exact Rp].
  - unfold exec in H. cbn [well_formed] in H. destruct (same_kind w d c) eqn:SK; [|discriminate]. cbn [body] in H.
    unfold same_kind in SK. apply andb_prop in SK as (A1 & _). apply andb_prop in A1 as (A1 & A2).
    destruct (alive_inv R A2) as (a & Ha), (alive_inv R A1) as (b & Hb).
    destruct (rel_get _ R Ha) as (x & s & l & At & Rp). destruct (rel_get _ R Hb) as (y & t & m & At' & Rp').
    assert (NR : c_rid x <> c_rid y).
    { intros Q. apply N. exact (rel_inj R _ _ (proj1 At) (proj1 At') Q). }
    erewrite bind_val in H; [|apply (copy_assign_ev G (not_eq_sym N) At At' (rp_store Rp) NR)]. inversion H; subst.
    exists (length (upd (w_stores w) (c_rid y) None)). eapply copied_stray; [|rewrite slot_upd_other; [apply At|auto]|exact Rp].
    rewrite (slot_upd_same _ _ _ (proj1 At')). rewrite upd_length. auto.
Qed.

(** ** Evaluation beside the twin *)
Lemma tw_ev {A} d rd (m : M A) R w z b z' : par d rd m m R -> tw d rd w z -> m z = Val b z' ->
  exists p w', m w = Val p w' /\ tw d rd w' z' /\ R p b.
Proof.
  intros P T X. specialize (P w z T). rewrite X in P. unfold pres in P.
  destruct (m w) as [p w'|? ?|?|?]; try contradiction. destruct P. eauto.
Qed.
Lemma p_register_hit d rd c k p : par d rd (register_hit E c k p) (register_hit E c k p) eq.
Proof.
  unfold register_hit. apply p_cc. intros x y ((_ & _ & Q & _) & _). rewrite Q.
  eapply p_bind with (R := eq).
  - destruct (c_stats y); [|apply p_ret; auto]. eapply p_bind with (R := eq); [apply p_get_stats|]. intros ? ? ->. apply p_put_stats.
  - intros _ _ _. eapply p_bind with (R := eq).
    + apply p_call_each; [apply (good_cb G)|]. intros i. eapply p_bind; [apply p_deref|].
      intros n n' (_ & HV & _). rewrite HV. apply p_ret. auto.
    + intros _ _ _. apply p_ce_acc. apply (good_cb G).
Qed.

Lemma same_still {A} (m : M A) : within eq m -> within still_there m.
Proof. apply w_weaken. intros ? ? ->. apply still_refl. Qed.
Lemma hit_still c k p : within still_there (register_hit E c k p).
Proof.
  assert (CE : forall sel mk, (forall i, within still_there (mk i)) -> within still_there (call_each E sel c mk)).
  { intros sel mk H. unfold call_each. apply w_bind; [exact still_trans|apply same_still, e_get_cache|]. intros x. generalize (sel (c_cbs x)) at 2.
    induction l as [|i t IH]; simpl; [apply w_ret; exact still_refl|].
    apply w_bind; [exact still_trans|apply H|]. intros ev. apply w_bind; [exact still_trans| |].
    - intros w. rewrite (good_cb G). split; auto.
    - intros _. apply w_bind; [exact still_trans|apply same_still, e_get_cache|]. intros y.
      destruct (natlist_eqb _ _); auto. apply w_undef. }
  unfold register_hit. apply w_bind; [exact still_trans|apply same_still, e_get_cache|]. intros x.
  apply w_bind; [exact still_trans| |].
  - destruct (c_stats x); [|apply w_ret; exact still_refl].
    apply w_bind; [exact still_trans|apply same_still, e_get_stats|]. intros y w. split; auto.
  - intros _. apply w_bind; [exact still_trans| |].
    + apply CE. intros i. apply w_bind; [exact still_trans|apply same_still, e_deref|]. intros; apply w_ret; exact still_refl.
    + intros _. apply CE. intros i. apply w_ret; exact still_refl.
Qed.
Lemma still_ev {A} (m : M A) w p w' : within still_there m -> m w = Val p w' -> still_there w w'.
Proof. intros H X. specialize (H w). rewrite X in H. auto. Qed.

(** Moving to the front of a list of two or more elements. *)
Lemma front_stray d rd w z q r n : stray d rd w -> tw d rd w z -> size d z = Val n z -> 2 <= n -> r <> rd ->
  move_to_front d (Some (r, q)) w = Undef ForeignListIterator.
Proof.
  intros S T Z L N. destruct (tw_ev (p_size (rd := rd) d) T Z) as (n' & w' & X & _ & ->).
  unfold move_to_front. erewrite bind_val; [|exact X]. replace (Nat.eqb n 1) with false by (symmetry; apply Nat.eqb_neq; lia).
  assert (w' = w). { pose proof (e_size d w) as P. rewrite X in P. auto. } subst w'. eapply splice_stray; eauto.
Qed.

(** ** Search *)
Lemma find_hit_stray d rd w z x s a l cl k : stray d rd w -> tw d rd w z -> at_ z d x s -> rep E x s a l -> In cl l ->
  (forall i, c_stats x = Some i -> slot (w_stats z) i <> None) -> 2 <= length l ->
  find_hit E d k ((c_rid x, cl_m cl), s_epoch s) w = Undef ForeignListIterator.
Proof.
  intros S T At Rp I SO L. pose proof (rp_store Rp) as RS.
  assert (RD : c_rid x = rd). { pose proof (tw_c T d) as C. rewrite (proj1 At) in C. destruct (slot (w_caches w) d); [|contradiction].
    destruct C as ((Q & _) & _ & C). rewrite <- Q. auto. }
  unfold find_hit.
  destruct (tw_ev (p_deref_it (d := d) (rd := rd) ((c_rid x, cl_m cl), s_epoch s)) T (deref_it_ev z cl (proj2 At) RS I)) as (n & w1 & X & T1 & SN).
  destruct (deref_stray (i := ((c_rid x, cl_m cl), s_epoch s)) S RD X) as (-> & _). erewrite bind_val; [|exact X].
  destruct (tw_ev (p_register_hit (d := d) (rd := rd) d k (c_rid x, cl_m cl)) T (register_hit_ev G cl k At RS I SO)) as (u & w2 & X2 & T2 & _).
  cbn [fst]. erewrite bind_val; [|exact X2].
  pose proof (stray_still S (still_ev (hit_still _ _ _) X2)) as S2.
  destruct (tw_ev (p_deref_it (d := d) (rd := rd) ((c_rid x, cl_m cl), s_epoch s)) T2 (deref_it_ev _ cl (proj2 At : slot (w_stores (SimRel.noted (c_stats x) (stats_register_hit E k) (hit_events (c_cbs x) k (e_val (cl_e cl))) z)) _ = _) RS I)) as (n2 & w3 & X3 & T3 & _).
  destruct (deref_stray (i := ((c_rid x, cl_m cl), s_epoch s)) S2 RD X3) as (-> & r & q & Q & N). erewrite bind_val; [|exact X3].
  rewrite Q. unfold bind. rewrite (front_stray (z := SimRel.noted (c_stats x) (stats_register_hit E k) (hit_events (c_cbs x) k (e_val (cl_e cl))) z) (n := length (s_map s)) q S2 T2); auto.
  - apply size_ev with (x := x). exact At.
  - rewrite (Permutation_length (rs_map RS)), map_length. auto.
Qed.

(** The copy, its twin, and the cache both stand for. *)
Record beside d rd w z x s a (l : list (@cell K V)) : Prop := {
  b_stray : stray d rd w;
  b_tw : tw d rd w z;
  b_at : at_ z d x s;
  b_rep : rep E x s a l;
  b_sts : forall i, c_stats x = Some i -> slot (w_stats z) i <> None;
  b_rid : c_rid x = rd
}.
Lemma copies_beside w c d w' : reachable E w -> copies E c d w w' ->
  exists aw a rd z x s l, rel w aw /\ slot (aw_caches aw) c = Some a /\ beside d rd w' z x s a l /\ w_reads z = aw_reads aw.
Proof.
  intros H C. destruct (reach_rel G H) as (aw & R). destruct (copies_ev G R C) as (a & z & rd & aw' & Ha & T & RZ & N & Hd & _ & Q & _).
  destruct (copies_stray R C) as (rd' & S). destruct (rel_get _ RZ Hd) as (x & s & l & At & Rp).
  assert (RD : c_rid x = rd).
  { pose proof (tw_c T d) as D. rewrite (proj1 At) in D. destruct (slot (w_caches w') d); [|contradiction].
    destruct D as ((Q' & _) & _ & D). rewrite <- Q'. auto. }
  assert (rd' = rd).
  { destruct S as (y & t & Hy & Hr & _). pose proof (tw_c T d) as D. rewrite Hy in D. destruct (slot (w_caches z) d); [|contradiction].
    destruct D as (_ & _ & D). rewrite <- Hr. auto. }
  subst rd'. exists aw, a, rd, z, x, s, l. split; auto. split; auto. split.
  - constructor; auto. eapply rel_stats_ok; eauto.
  - rewrite (rel_reads RZ). auto.
Qed.
Lemma found_cell x s a l k e : rep E x s a l -> lookup_ent E k (a_ents a) = Some e ->
  exists cl, find_cell E k l = Some cl /\ cl_e cl = e /\ In cl l.
Proof.
  intros Rp F. rewrite (rp_ents Rp), find_cell_ents in F. destruct (find_cell E k l) as [cl|] eqn:Q; [|discriminate].
  exists cl. inversion F. split; auto. split; auto. eapply find_some. exact Q.
Qed.
Lemma map_find_beside d rd w z x s a l k cl : beside d rd w z x s a l -> find_cell E k l = Some cl ->
  map_find E d k w = Val (Some ((c_rid x, cl_m cl), s_epoch s)) w.
Proof.
  intros B F. pose proof (map_find_ev G k (b_at B) (rp_store (b_rep B))) as Q. rewrite F in Q. simpl in Q.
  destruct (tw_ev (p_map_find E (d := d) (rd := rd) d k) (b_tw B) Q) as (i & w' & X & _ & ->).
  destruct (map_find_stray (b_stray B) X) as (-> & _). auto.
Qed.
Lemma deref_beside d rd w z x s a l cl : beside d rd w z x s a l -> In cl l ->
  exists n r q, deref_it ((c_rid x, cl_m cl), s_epoch s) w = Val n w /\ n_ord n = Some (r, q) /\ r <> rd /\
    same_node n (node_of (c_rid x) cl).
Proof.
  intros B I.
  destruct (tw_ev (p_deref_it (d := d) (rd := rd) ((c_rid x, cl_m cl), s_epoch s)) (b_tw B) (deref_it_ev z cl (proj2 (b_at B)) (rp_store (b_rep B)) I)) as (n & w1 & X & T1 & SN).
  destruct (deref_stray (i := ((c_rid x, cl_m cl), s_epoch s)) (b_stray B) (b_rid B) X) as (-> & r & q & Q & N). exists n, r, q. auto.
Qed.
Lemma cache_beside d rd w z x s a l : beside d rd w z x s a l ->
  exists y, slot (w_caches w) d = Some y /\ c_cap y = c_cap x /\ c_ttl y = c_ttl x.
Proof.
  intros B. pose proof (tw_c (b_tw B) d) as C. rewrite (proj1 (b_at B)) in C. destruct (slot (w_caches w) d) as [y|]; [|contradiction].
  destruct C as ((_ & Q1 & _ & _ & Q2) & _). eauto.
Qed.
Lemma size_beside d rd w z x s a l : beside d rd w z x s a l -> size d z = Val (length l) z.
Proof.
  intros B. rewrite (size_ev (b_at B)), (Permutation_length (rs_map (rp_store (b_rep B)))), map_length. auto.
Qed.
Lemma tock_beside d rd w z x s a l : beside d rd w z x s a l -> beside d rd (tock w) (tock z) x s a l.
Proof.
  intros [A B C D F H]. constructor; auto.
  destruct B. constructor; auto. simpl. congruence.
Qed.

Lemma find_stray d rd w z x s a l k e : beside d rd w z x s a l -> lookup_ent E k (a_ents a) = Some e ->
  stale E (a_ttl a) e (w_reads z) = false -> 2 <= length l -> find E d k w = Undef ForeignListIterator.
Proof.
  intros B F St L. destruct (found_cell (b_rep B) F) as (cl & F' & <- & I).
  destruct (cache_beside B) as (y & Hy & _ & Ht). unfold find. erewrite bind_val; [|apply get_cache_ev; exact Hy].
  rewrite Ht, (rp_ttl (b_rep B)). destruct (a_ttl a) as [t|].
  - erewrite bind_val; [|exact (map_find_beside B F')]. cbv iota beta.
    destruct (deref_beside B I) as (n & r & q & X & _ & _ & SN). erewrite bind_val; [|exact X].
    erewrite bind_val; [|apply has_expired_ev]. destruct SN as (_ & _ & SN). rewrite SN. simpl in St. 
    cbv beta. change (n_time (node_of (c_rid x) cl)) with (e_time (cl_e cl)). rewrite (tw_reads (b_tw B)), St. unfold bind.
    pose proof (tock_beside B) as B'.
    rewrite (find_hit_stray k (b_stray B') (b_tw B') (b_at B') (b_rep B') I (b_sts B') L). auto.
  - erewrite bind_val; [|exact (map_find_beside B F')]. cbv iota beta. unfold bind.
    rewrite (find_hit_stray k (b_stray B) (b_tw B) (b_at B) (b_rep B) I (b_sts B) L). auto.
Qed.

(** ** Insertion of a key that is present *)
Lemma move_value_stray d rd w z x s a l cl v : beside d rd w z x s a l -> In cl l -> 2 <= length l ->
  move_to_front_value E d ((c_rid x, cl_m cl), s_epoch s) v w = Undef ForeignListIterator.
Proof.
  intros B I L. unfold move_to_front_value. destruct (deref_beside B I) as (n & r & q & X & Q & N & SN).
  erewrite bind_val; [|exact X]. rewrite Q. unfold bind. rewrite (front_stray q (b_stray B) (b_tw B) (size_beside B) L N). auto.
Qed.
Lemma insert_stray d rd w z x s a l k v e : beside d rd w z x s a l -> lookup_ent E k (a_ents a) = Some e -> 2 <= length l ->
  insert E d k v w = Undef ForeignListIterator.
Proof.
  intros B F L. destruct (found_cell (b_rep B) F) as (cl & F' & _ & I).
  destruct (cache_beside B) as (y & Hy & Hc & _). unfold insert. erewrite bind_val; [|apply capacity_ev; exact Hy].
  rewrite Hc, (rp_cap (b_rep B)). pose proof (rp_len (b_rep B)). replace (Nat.eqb (a_cap a) 0) with false by (symmetry; apply Nat.eqb_neq; lia).
  erewrite bind_val; [|exact (map_find_beside B F')]. cbv iota beta. unfold bind at 1. rewrite (move_value_stray v B I L). auto.
Qed.

(** ** Erasure *)
Lemma invalidate_stray d rd w : stray d rd w -> exists w', invalidate_last d w = Val tt w' /\ stray d rd w' /\ w_stores w' = w_stores w.
Proof.
  intros (x & s & A & B & C & D & F). unfold invalidate_last, set_last. eexists. split.
  - erewrite bind_val; [|apply get_cache_ev; exact A]. reflexivity.
  - split; [|reflexivity]. eexists. exists s. split; [simpl; apply (slot_upd_same _ _ _ A)|]. simpl. auto.
Qed.
Lemma deref_stores (i : miter) w w' n : w_stores w' = w_stores w -> deref_it i w = Val n w -> deref_it i w' = Val n w'.
Proof.
  intros Q. unfold deref_it, deref, bind, get_store, ret. rewrite Q. destruct (slot (w_stores w) (fst (fst i))) as [s|]; [|discriminate].
  destruct (Nat.eqb (s_epoch s) (snd i)); [|discriminate]. rewrite Q. destruct (slot (w_stores w) (fst (fst i))); [|discriminate].
  destruct (assoc _ _); [|discriminate]. intros H; inversion H; auto.
Qed.
Lemma last_stray d rd w k : stray d rd w -> exists b, last_is E d k w = Val b w /\
  (b = true -> exists p n r q, last_ptr d w = Val p w /\ (forall w', w_stores w' = w_stores w -> deref p w' = Val n w') /\
                               key_equal E k (n_key n) = true /\ n_ord n = Some (r, q) /\ r <> rd).
Proof.
  intros (x & s & A & B & C & D & F). unfold last_is, last_ptr. 
  destruct (c_last x) as [p|] eqn:LA.
  - destruct F as (t & n & r & q & H1 & H2 & H3 & H4). exists (key_equal E k (n_key n)). split.
    + erewrite bind_val; [|apply get_cache_ev; exact A]. rewrite LA. unfold bind, deref, bind. erewrite get_store_ev by exact H1. rewrite H2. reflexivity.
    + intros HK. exists p, n, r, q. split; [erewrite bind_val; [|apply get_cache_ev; exact A]; rewrite LA; reflexivity|].
      split; auto. intros w' Q. unfold deref, bind. erewrite get_store_ev by (rewrite Q; exact H1). rewrite H2. reflexivity.
  - exists false. split; [|discriminate]. erewrite bind_val; [|apply get_cache_ev; exact A]. rewrite LA. reflexivity.
Qed.
Lemma erase_it_stray d rd w i n : stray d rd w -> fst (fst i) = rd -> deref_it i w = Val n w ->
  erase_it E d i w = Undef ForeignListIterator.
Proof.
  intros S Q X. unfold erase_it. erewrite bind_val; [|exact X].
  destruct (last_stray (n_key n) S) as (b & L & _). erewrite bind_val; [|exact L].
  assert (FIN : forall w', stray d rd w' -> w_stores w' = w_stores w ->
    (n0 <- deref_it i;; list_erase d (n_ord n0);;; map_erase_it d i) w' = Undef ForeignListIterator).
  { intros w' S' QS. pose proof (deref_stores QS X) as X'. erewrite bind_val; [|exact X'].
    destruct (deref_stray S' Q X') as (_ & r & q & HQ & N). rewrite HQ. unfold bind. rewrite (erase_stray q S' N). auto. }
  destruct b.
  - destruct (invalidate_stray S) as (w' & Y & S' & QS). erewrite bind_val; [|exact Y]. auto.
  - erewrite bind_val; [|reflexivity]. auto.
Qed.
Lemma erase_key_stray d rd w z x s a l k e : beside d rd w z x s a l -> lookup_ent E k (a_ents a) = Some e ->
  erase_key E d k w = Undef ForeignListIterator.
Proof.
  intros B F. destruct (found_cell (b_rep B) F) as (cl & F' & _ & I). unfold erase_key.
  destruct (last_stray k (b_stray B)) as (b & L & HP). erewrite bind_val; [|exact L]. destruct b.
  - destruct (HP eq_refl) as (p & n & r & q & LP & DP & KE & HQ & N). erewrite bind_val; [|exact LP].
    unfold bind at 1. replace (erase_key_info E d p w) with (@Undef world unit ForeignListIterator); [reflexivity|].
    symmetry. unfold erase_key_info. erewrite bind_val; [|exact (DP w eq_refl)].
    destruct (last_stray (n_key n) (b_stray B)) as (b & L' & _). erewrite bind_val; [|exact L'].
    assert (FIN : forall w', stray d rd w' -> w_stores w' = w_stores w ->
      (n0 <- deref p;; list_erase d (n_ord n0);;; map_erase_key E d (n_key n0)) w' = Undef ForeignListIterator).
    { intros w' S' QS. erewrite bind_val; [|exact (DP w' QS)]. rewrite HQ. unfold bind. rewrite (erase_stray q S' N). auto. }
    destruct b.
    + destruct (invalidate_stray (b_stray B)) as (w' & Y & S' & QS). erewrite bind_val; [|exact Y]. apply FIN; auto.
    + erewrite bind_val; [|reflexivity]. apply FIN; auto. apply (b_stray B).
  - erewrite bind_val; [|exact (map_find_beside B F')]. cbv iota beta. unfold bind.
    destruct (deref_beside B I) as (n & r & q & X & _). 
    rewrite (erase_it_stray (i := ((c_rid x, cl_m cl), s_epoch s)) (b_stray B) (b_rid B) X). auto.
Qed.
Lemma erase_lru_stray d rd w z x s a cl l : beside d rd w z x s a (cl :: l) -> erase_lru E d w = Undef ForeignListIterator.
Proof.
  intros B. pose proof (rp_store (b_rep B)) as RS. unfold erase_lru.
  assert (FZ : list_front d z = Val (c_rid x, cl_m cl) z).
  { unfold list_front. erewrite bind_val; [|apply own_ev; apply (b_at B)]. cbv iota beta; rewrite (rs_ord RS). reflexivity. }
  destruct (tw_ev (p_list_front (rd := rd) d) (b_tw B) FZ) as (p & w' & X & _ & ->).
  assert (w' = w). { pose proof (e_list_front d w) as P. rewrite X in P. auto. } subst w'.
  erewrite bind_val; [|exact X].
  destruct (tw_ev (p_deref (d := d) (rd := rd) (c_rid x, cl_m cl)) (b_tw B) (deref_ev _ cl (proj2 (b_at B)) RS (or_introl eq_refl))) as (n & w' & Y & _ & SN).
  assert (w' = w). { pose proof (e_deref (c_rid x, cl_m cl) w) as P. rewrite Y in P. auto. } subst w'.
  erewrite bind_val; [|exact Y]. destruct SN as (HK & _). rewrite HK. cbn [n_key node_of].
  assert (F : find_cell E (e_key (cl_e cl)) (cl :: l) = Some cl). { unfold find_cell. simpl. rewrite (good_refl G). auto. }
  erewrite bind_val; [|exact (map_find_beside B F)]. cbv iota beta.
  destruct (deref_beside B (or_introl eq_refl : In cl (cl :: l))) as (m & r & q & Z & _).
  exact (erase_it_stray (i := ((c_rid x, cl_m cl), s_epoch s)) (b_stray B) (b_rid B) Z).
Qed.
Lemma size_w d rd w z x s a l : beside d rd w z x s a l -> size d w = Val (length l) w.
Proof.
  intros B. destruct (tw_ev (p_size (rd := rd) d) (b_tw B) (size_beside B)) as (n' & w' & X & _ & ->).
  pose proof (e_size d w) as P. rewrite X in P. subst. auto.
Qed.
Lemma lru_while_stray d rd w z x s a l n : beside d rd w z x s a l -> n < length l ->
  erase_lru_while E (length l) d n w = Undef ForeignListIterator.
Proof.
  intros B L. destruct l as [|cl l]; [simpl in L; lia|]. cbn [length erase_lru_while].
  erewrite bind_val; [|exact (size_w B)]. apply Nat.ltb_lt in L. rewrite L. unfold bind. rewrite (erase_lru_stray B). auto.
Qed.

(** ** Calls *)
Section Calls.
Variables (w w' : world) (c d : nat).
Hypothesis H : reachable E w.
Hypothesis C : copies E c d w w'.

Lemma copy_alive : alive w' d = true.
Proof.
  destruct (copies_beside H C) as (aw & a & rd & z & x & s & l & R & Ha & B & _).
  destruct (b_stray B) as (y & t & Hy & _). unfold alive. rewrite Hy. auto.
Qed.
Lemma ents_len x s a l : rep E x s a l -> length (map pair_of (a_ents a)) = length l.
Proof. intros R. rewrite (rp_ents R), map_length. unfold ents. rewrite map_length. auto. Qed.

Lemma misuse_find k p w1 l : exec E (Find c k) w = Val (ROpt (Some p)) w1 -> contents E c w l -> 2 <= length l ->
  exec E (Find d k) w' = Undef ForeignListIterator.
Proof.
  intros X CO L. destruct (copies_beside H C) as (aw & a & rd & z & x & s & cs & R & Ha & B & Rd).
  destruct (contents_inv G R CO) as (a' & Ha' & ->). rewrite Ha in Ha'. inversion Ha'; subst a'. rewrite (ents_len (b_rep B)) in L.
  pose proof (plain_step G R (o := Find c k) eq_refl) as S. rewrite X in S.
  unfold exec. cbn [well_formed]. rewrite copy_alive. cbn [negb body].
  unfold astep in S. cbn [a_well_formed target] in S. unfold a_alive in S. rewrite Ha in S. cbn [negb] in S. unfold two in S. rewrite Ha in S.
  cbn [local] in S. unfold l_find in S. destruct (lookup_ent E k (a_ents a)) as [e|] eqn:F.
  2:{ simpl in S. destruct S; discriminate. }
  destruct (stale E (a_ttl a) e (aw_reads aw)) eqn:St.
  { simpl in S. destruct S; discriminate. }
  unfold bind at 1. rewrite <- Rd in St. rewrite (find_stray B F St L). auto.
Qed.
Lemma misuse_insert k v l : contents E c w l -> has E k l = true -> 2 <= length l ->
  exec E (Insert d k v) w' = Undef ForeignListIterator.
Proof.
  intros CO HK L. destruct (copies_beside H C) as (aw & a & rd & z & x & s & cs & R & Ha & B & Rd).
  destruct (contents_inv G R CO) as (a' & Ha' & ->). rewrite Ha in Ha'. inversion Ha'; subst a'. rewrite (ents_len (b_rep B)) in L.
  rewrite has_map in HK. destruct (lookup_ent E k (a_ents a)) as [e|] eqn:F; [|discriminate].
  unfold exec. cbn [well_formed]. rewrite copy_alive. cbn [negb body]. unfold bind at 1. rewrite (insert_stray v B F L). auto.
Qed.
Lemma misuse_erase k l : contents E c w l -> has E k l = true ->
  exec E (Erase d k) w' = Undef ForeignListIterator.
Proof.
  intros CO HK. destruct (copies_beside H C) as (aw & a & rd & z & x & s & cs & R & Ha & B & Rd).
  destruct (contents_inv G R CO) as (a' & Ha' & ->). rewrite Ha in Ha'. inversion Ha'; subst a'.
  rewrite has_map in HK. destruct (lookup_ent E k (a_ents a)) as [e|] eqn:F; [|discriminate].
  unfold exec. cbn [well_formed]. rewrite copy_alive. cbn [negb body]. unfold bind at 1. rewrite (erase_key_stray B F). auto.
Qed.
Lemma misuse_shrink n l : contents E c w l -> 0 < n < length l ->
  exec E (Shrink d n) w' = Undef ForeignListIterator.
Proof.
  intros CO L. destruct (copies_beside H C) as (aw & a & rd & z & x & s & cs & R & Ha & B & Rd).
  destruct (contents_inv G R CO) as (a' & Ha' & ->). rewrite Ha in Ha'. inversion Ha'; subst a'. rewrite (ents_len (b_rep B)) in L.
  unfold exec. cbn [well_formed]. rewrite copy_alive. cbn [negb body]. unfold bind at 1.
  unfold shrink. erewrite bind_val; [|exact (size_w B)].
  replace (Nat.leb (length cs) n) with false by (symmetry; apply Nat.leb_gt; lia).
  replace (Nat.eqb n 0) with false by (symmetry; apply Nat.eqb_neq; lia). rewrite (lru_while_stray B); [auto|lia].
Qed.
Lemma misuse_set_capacity n l : contents E c w l -> n < length l ->
  exec E (SetCapacity d n) w' = Undef ForeignListIterator.
Proof.
  intros CO L. destruct (copies_beside H C) as (aw & a & rd & z & x & s & cs & R & Ha & B & Rd).
  destruct (contents_inv G R CO) as (a' & Ha' & ->). rewrite Ha in Ha'. inversion Ha'; subst a'. rewrite (ents_len (b_rep B)) in L.
  unfold exec. cbn [well_formed]. rewrite copy_alive. cbn [negb body]. unfold bind at 1.
  unfold set_capacity. erewrite bind_val; [|exact (size_w B)]. unfold bind at 1. rewrite (lru_while_stray B L). auto.
Qed.
End Calls.
End Misuse.
