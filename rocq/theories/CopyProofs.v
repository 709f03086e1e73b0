(** Copies simulate the reference machine as long as they are used with care. *)
From Coq Require Import List Arith ZArith Bool Permutation Lia.
Import ListNotations.
From Verif Require Import Monad Types Model Api Spec Ref Lists SimBase SimRel SimOps SimIns SimErase SimIter SimNew SimObs SimExec RefEval SimRun LruProofs Flat Global Safe Frame SpecCopy CopyBlind CopyFrame CopyEval.
Set Implicit Arguments.
Unset Strict Implicit.
Local Open Scope cpp_scope.

Section Sound.
Context {K V : Type}.
Variable E : env K V.
Hypothesis G : good E.

Notation entry := (entry K V).
Notation world := (world K V).
Notation store := (store K V).
Notation acache := (acache K V).
Notation aworld := (aworld K V).
Notation cell := (@cell K V).
Notation rel := (rel E).
Implicit Types (w z : world) (s : store) (a : acache) (aw : aworld) (o : op K V).

(** Cache [d] of [w] may have wrong list iterators and a wrong last accessed
    element; all else is as in the reference world. *)
Definition sound d w aw : Prop :=
  rel w aw \/
  exists rd z a, tw d rd w z /\ rel z aw /\ slot (aw_caches aw) d = Some a.

Definition awput d a aw : aworld := MkAW (upd (aw_caches aw) d (Some a)) (aw_stats aw) (aw_log aw) (aw_reads aw).
Definition awadd a aw : aworld := MkAW (aw_caches aw ++ [Some a]) (aw_stats aw) (aw_log aw) (aw_reads aw).

Lemma slot_app_other A (l : list (option A)) x e : e <> length l -> slot (l ++ [Some x]) e = slot l e.
Proof.
  intros N. destruct (Nat.lt_ge_cases e (length l)).
  - apply slot_app_lt; auto.
  - rewrite !slot_overflow; auto. rewrite app_length; simpl; lia.
Qed.

Lemma copy_sound w aw c a : rel w aw -> slot (aw_caches aw) c = Some a ->
  exists w' z, exec E (Copy c) w = Val (RNat (length (w_caches w))) w' /\
    tw (length (w_caches w)) (length (w_stores w)) w' z /\ rel z (awadd a aw).
Proof.
  intros R Ha. destruct (rel_get _ R Ha) as (x & s & l & At & Rp). pose proof At as (Hx & Hs).
  pose proof (copy_ev G At (rp_store Rp)) as C.
  exists (copied E (w_caches w ++ [Some (copy_cache (length (w_stores w)) x)]) (w_stores w) s l w).
  exists (mended E (upd (w_caches w ++ [Some (copy_cache (length (w_stores w)) x)]) (length (w_caches w))
             (Some (mended_cache (length (w_stores w)) x l a))) (w_stores w) s l w).
  split; [|split].
  - unfold exec. cbn [well_formed]. unfold alive. rewrite Hx. cbn [body negb]. erewrite bind_val; [|exact C]. reflexivity.
  - apply copied_twin; auto. apply slot_app_new.
  - rewrite upd_app_new. eapply rel_place with (d := length (w_caches w)) (l := l); try exact R; try exact Ha; auto; simpl.
    + rewrite !app_length, (rel_len R). auto.
    + apply slot_app_new.
    + simpl. apply slot_app_new.
    + apply mended_rep; auto.
    + rewrite (rel_len R). apply slot_app_new.
    + intros e N. rewrite !slot_app_other by (rewrite <- ?(rel_len R); auto). auto.
    + intros e y N Hy. destruct (rel_get' _ R Hy) as (b & s' & l' & _ & (_ & Hs') & _). pose proof (slot_lt _ _ Hs'). split; [simpl; lia|]. rewrite slot_app_lt; auto.
Qed.

Lemma copy_assign_sound w aw c d a b : rel w aw -> c <> d -> slot (aw_caches aw) c = Some a -> slot (aw_caches aw) d = Some b ->
  same_kind w d c = true ->
  exists w' z, exec E (CopyAssign d c) w = Val RUnit w' /\
    tw d (length (w_stores w)) w' z /\ rel z (awput d a aw).
Proof.
  intros R N Ha Hb KI. destruct (rel_get _ R Ha) as (x & s & l & At & Rp). pose proof At as (Hx & Hs).
  destruct (rel_get _ R Hb) as (y & t & m & At' & Rp'). pose proof At' as (Hy & Ht).
  assert (NR : c_rid x <> c_rid y).
  { intros Q. apply N. exact (rel_inj R _ _ Hx Hy Q). }
  pose proof (copy_assign_ev G (not_eq_sym N) At At' (rp_store Rp) NR) as C.
  exists (copied E (upd (w_caches w) d (Some (copy_cache (length (w_stores w)) x))) (upd (w_stores w) (c_rid y) None) s l w).
  exists (mended E (upd (upd (w_caches w) d (Some (copy_cache (length (w_stores w)) x))) d
             (Some (mended_cache (length (w_stores w)) x l a))) (upd (w_stores w) (c_rid y) None) s l w).
  split; [|split].
  - unfold exec. cbn [well_formed]. rewrite KI. cbn [body negb andb]. erewrite bind_val; [|exact C]. reflexivity.
  - replace (length (w_stores w)) with (length (upd (w_stores w) (c_rid y) None)) by apply upd_length.
    apply copied_twin; auto. rewrite (slot_upd_same _ _ _ Hy). auto.
  - rewrite upd_upd. eapply rel_place with (d := d) (l := l); try exact R; try exact Ha; auto; simpl.
    + rewrite !upd_length, (rel_len R). auto.
    + rewrite (slot_upd_same _ _ _ Hy). auto.
    + simpl. replace (length (w_stores w)) with (length (upd (w_stores w) (c_rid y) None)) by apply upd_length. apply slot_app_new.
    + rewrite upd_length. apply mended_rep; auto.
    + rewrite (slot_upd_same _ _ _ Hb). auto.
    + intros e Ne. rewrite !slot_upd_other by auto. auto.
    + intros e v Ne Hv. destruct (rel_get' _ R Hv) as (b' & s' & l' & _ & (_ & Hs') & _). pose proof (slot_lt _ _ Hs'). split; [simpl; lia|].
      rewrite slot_app_lt by (rewrite upd_length; auto). rewrite slot_upd_other; auto. intros Q. apply Ne. symmetry. exact (rel_inj R _ _ Hy Hv Q).
Qed.

(** ** Calls on other caches *)
Definition simS {A B} d (Q : A -> B -> Prop) (r : res world A) (ar : res aworld B) : Prop :=
  match r, ar with
  | Val a w, Val b aw => sound d w aw /\ Q a b
  | Exc e w, Exc e' aw => e = e' /\ sound d w aw
  | Undef u, Undef u' => u = u'
  | Term e, Term e' => e = e'
  | _, _ => False
  end.
Lemma simr_simS A B d (Q : A -> B -> Prop) r ar : simr E (fun p q _ _ => Q p q) r ar -> simS d Q r ar.
Proof. unfold simr, simS, sound. destruct r, ar; tauto. Qed.

Definition hide d rd w : world := with_stores (fun l => upd l rd None) (with_caches (fun l => upd l d None) w).
Definition ahide d aw : aworld := MkAW (upd (aw_caches aw) d None) (aw_stats aw) (aw_log aw) (aw_reads aw).

Lemma slot_upd_none A (l : list (option A)) i : slot (upd l i None) i = None.
Proof.
  destruct (Nat.lt_ge_cases i (length l)).
  - rewrite slot_upd_lt; auto.
  - apply slot_overflow. rewrite upd_length. auto.
Qed.
Lemma rel_hide d z aw x : rel z aw -> slot (w_caches z) d = Some x -> rel (hide d (c_rid x) z) (ahide d aw).
Proof.
  intros R Hx. constructor; simpl.
  - rewrite !upd_length. apply (rel_len R).
  - intros e. destruct (Nat.eq_dec d e) as [<-|N].
    + rewrite !slot_upd_none. auto.
    + rewrite !(slot_upd_other _ _ N). pose proof (rel_slot R e) as Q. destruct (slot (w_caches z) e) as [y|] eqn:Y, (slot (aw_caches aw) e); auto.
      destruct Q as (t & l & Q1 & Q2). exists t, l. split; auto. rewrite slot_upd_other; auto.
      intros Q. apply N. exact (rel_inj R _ _ Hx Y Q).
  - intros e f y v. destruct (Nat.eq_dec d e) as [<-|N]; [rewrite slot_upd_none; discriminate|].
    destruct (Nat.eq_dec d f) as [<-|N']; [rewrite slot_upd_none; discriminate|].
    rewrite !slot_upd_other by auto. apply (rel_inj R).
  - apply (rel_stats R).
  - apply (rel_log R).
  - apply (rel_reads R).
  - intros e b i. destruct (Nat.eq_dec d e) as [<-|N]; [rewrite slot_upd_none; discriminate|].
    rewrite slot_upd_other by auto. apply (rel_sts R).
Qed.
Lemma free_hide d z aw x s : rel z aw -> slot (w_caches z) d = Some x -> slot (w_stores z) (c_rid x) = Some s ->
  free d (c_rid x) (hide d (c_rid x) z).
Proof.
  intros R Hx Hs. constructor; simpl.
  - apply slot_upd_none.
  - apply slot_upd_none.
  - rewrite upd_length. exact (slot_lt _ _ Hx).
  - rewrite upd_length. exact (slot_lt _ _ Hs).
  - intros e y. destruct (Nat.eq_dec d e) as [<-|N]; [rewrite slot_upd_none; discriminate|].
    rewrite slot_upd_other by auto. intros Y Q. apply N. symmetry. exact (rel_inj R _ _ Y Hx Q).
Qed.
Lemma graft_hide d rd x s w : slot (w_caches w) d = Some x -> slot (w_stores w) rd = Some s ->
  graft d rd x s (hide d rd w) = w.
Proof.
  intros Hx Hs. destruct w. unfold graft, hide, with_stores, with_caches; simpl in *. rewrite !upd_upd, !upd_slot; auto.
Qed.
Lemma tw_refl d rd w : (forall x, slot (w_caches w) d = Some x -> c_rid x = rd) -> tw d rd w w.
Proof.
  intros H. constructor; auto.
  - intros c. destruct (slot (w_caches w) c) as [x|] eqn:X; simpl; auto. split; [repeat split|]. split; auto. intros ->. auto.
  - intros r. destruct (slot (w_stores w) r) as [x|]; simpl; auto. apply st_refl.
Qed.
Lemma tw_graft d rd x y s t w : slot (w_caches w) d = None -> same_cache x y -> c_rid x = rd -> same_store s t ->
  tw d rd (graft d rd x s w) (graft d rd y t w).
Proof.
  intros Hd C Rx S. unfold graft. apply tw_upd_store.
  - apply tw_upd_cache.
    + apply tw_refl. rewrite Hd. discriminate.
    + split; auto. split; auto. intros Q; destruct (Q eq_refl).
  - split; auto. intros Q; destruct (Q eq_refl).
Qed.

Lemma twin_parts d rd w z aw a : tw d rd w z -> rel z aw -> slot (aw_caches aw) d = Some a ->
  exists xw xz sw sz, same_cache xw xz /\ c_rid xw = rd /\ c_rid xz = rd /\ same_store sw sz /\
    slot (w_caches z) d = Some xz /\ slot (w_stores z) rd = Some sz /\
    slot (w_caches w) d = Some xw /\ slot (w_stores w) rd = Some sw.
Proof.
  intros T R Ha. destruct (rel_get _ R Ha) as (xz & sz & l & (Hx & Hs) & _).
  pose proof (tw_c T d) as C. rewrite Hx in C. destruct (slot (w_caches w) d) as [xw|]; [|contradiction].
  destruct C as (C & _ & C2). specialize (C2 eq_refl). assert (Rz : c_rid xz = rd) by (destruct C; congruence).
  pose proof (tw_s T rd) as S. rewrite Rz in Hs. rewrite Hs in S. destruct (slot (w_stores w) rd) as [sw|]; [|contradiction].
  destruct S as (S & _). exists xw, xz, sw, sz. auto 12.
Qed.
Lemma graft_twin d rd w z xw sw : tw d rd w z -> c_rid xw = rd -> slot (w_caches w) d = Some xw -> slot (w_stores w) rd = Some sw ->
  (exists y, slot (w_caches z) d = Some y) -> (exists y, slot (w_stores z) rd = Some y) -> graft d rd xw sw (hide d rd z) = w.
Proof.
  intros T Rx Hx Hs (y & Hy) (t & Ht). symmetry. apply (tw_eq (d := d) (rd := rd)).
  - replace w with (with_stores (fun l => upd l rd (Some sw)) (with_caches (fun l => upd l d (Some xw)) w)) at 1
      by (destruct w; unfold with_stores, with_caches; simpl in *; rewrite !upd_slot; auto).
    replace (graft d rd xw sw (hide d rd z)) with (with_stores (fun l => upd l rd (Some sw)) (with_caches (fun l => upd l d (Some xw)) z))
      by (destruct z; unfold graft, hide, with_stores, with_caches; simpl; rewrite !upd_upd; auto).
    apply tw_upd_store; [|apply st_refl]. apply tw_upd_cache; auto. apply cc_refl. auto.
  - unfold graft, hide, with_stores, with_caches; simpl. rewrite upd_upd, (slot_upd_same _ _ _ Hy). auto.
  - unfold graft, hide, with_stores, with_caches; simpl. rewrite upd_upd, (slot_upd_same _ _ _ Ht). auto.
Qed.

Lemma other_step d o w aw : sound d w aw -> copy_free o = true -> ~ In d (mentions o) ->
  exists ch, simS d (out_rel o) (exec E o w) (astep E ch o aw).
Proof.
  intros [R|(rd & z & a & T & R & Ha)] CF N.
  - destruct (exec_step G R CF) as (ch & S). exists ch. apply simr_simS. exact S.
  - destruct (twin_parts T R Ha) as (xw & xz & sw & sz & C & Rw & Rz & S & Hz & Hsz & Hw & Hsw).
    destruct (exec_step G R CF) as (ch & SZ). exists ch.
    pose proof (rel_hide R Hz) as R0. rewrite Rz in R0.
    pose proof (free_hide R Hz (eq_ind_r (fun r => slot (w_stores z) r = Some sz) Hsz Rz)) as F. rewrite Rz in F.
    destruct (exec_step G R0 CF) as (ch0 & S0).
    assert (ME : existsb (Nat.eqb d) (mentions o) = false).
    { destruct (existsb (Nat.eqb d) (mentions o)) eqn:X; auto. exfalso. apply N. apply existsb_exists in X as (e & I & Q). apply Nat.eqb_eq in Q. subst. auto. }
    pose proof (exec_frame (good_cb G) xz sz ME F) as FZ. pose proof (exec_frame (good_cb G) xw sw ME F) as FW.
    rewrite (graft_hide Hz Hsz) in FZ.
    assert (GW : graft d rd xw sw (hide d rd z) = w) by (apply graft_twin; eauto).
    rewrite GW in FW.
    destruct (exec E o (hide d rd z)) as [r w1|e w1|u|e] eqn:X.
    + destruct FZ as (F1 & _ & QZ), FW as (_ & _ & QW). rewrite QZ in SZ. rewrite QW.
      destruct (astep E ch o aw) as [r' aw'|? ?|?|?]; simpl in SZ; try contradiction. destruct SZ as (SZ & OK). simpl. split; auto.
      right. exists rd, (graft d rd xz sz w1).
      assert (HD : slot (w_caches (graft d rd xz sz w1)) d = Some xz).
      { unfold graft, with_stores, with_caches; simpl. apply slot_upd_lt. apply (fr_dl F1). }
      destruct (rel_get' _ SZ HD) as (a' & _ & _ & Ha' & _). exists a'. split; auto. apply tw_graft; auto. apply (fr_d F1).
    + destruct FZ as (F1 & QZ), FW as (_ & QW). rewrite QZ in SZ. rewrite QW.
      destruct (astep E ch o aw) as [r' aw'|? aw'|?|?]; simpl in SZ; try contradiction. destruct SZ as (OK & SZ). simpl. split; auto.
      right. exists rd, (graft d rd xz sz w1).
      assert (HD : slot (w_caches (graft d rd xz sz w1)) d = Some xz).
      { unfold graft, with_stores, with_caches; simpl. apply slot_upd_lt. apply (fr_dl F1). }
      destruct (rel_get' _ SZ HD) as (a' & _ & _ & Ha' & _). exists a'. split; auto. apply tw_graft; auto. apply (fr_d F1).
    + assert (NG : ~ gone u).
      { pose proof (step_safe ch0 o (awf_rel R0)) as A. destruct (astep E ch0 o (ahide d aw)) as [? ?|? ?|u'|?]; simpl in S0; try contradiction.
        subst u'. intros [-> | ->]; destruct A as [(c & _ & Q & _)|(c & k & _ & Q & _)]; discriminate. }
      destruct FZ as [FZ|FZ]; [destruct (NG FZ)|]. destruct FW as [FW|FW]; [destruct (NG FW)|].
      rewrite FZ in SZ. rewrite FW. destruct (astep E ch o aw); simpl in *; auto.
    + rewrite FZ in SZ. rewrite FW. destruct (astep E ch o aw); simpl in *; auto.
Qed.

(** ** Harmless calls on the copy *)
Lemma astep_alive ch o aw d : (forall c, o <> Destroy c) -> slot (aw_caches aw) d <> None ->
  match astep E ch o aw with Val _ aw' | Exc _ aw' => slot (aw_caches aw') d <> None | _ => True end.
Proof.
  intros N A. unfold astep.
  assert (U : forall (l : list (option acache)) c x y, slot l c = Some y -> slot l d <> None -> slot (upd l c (Some x)) d <> None).
  { intros l c x y H H'. destruct (Nat.eq_dec c d) as [<-|Ne]; [rewrite (slot_upd_same _ _ _ H); discriminate|rewrite slot_upd_other; auto]. }
  assert (AP : forall l (x : acache), slot l d <> None -> slot (l ++ [Some x]) d <> None).
  { intros l x H. destruct (slot l d) eqn:Q; [|congruence]. rewrite slot_app_lt; [congruence|exact (slot_lt _ _ Q)]. }
  destruct (a_well_formed aw o); simpl; auto.
  destruct (target o) as [c|] eqn:T.
  { unfold two. destruct (slot (aw_caches aw) c) as [b|] eqn:Hb; auto.
    destruct (local E ch o b (aw_reads aw)) as (((r & b') & x) & i). simpl.
    assert (X : slot (aw_caches (awith c b' (noted E b x (ticks i aw)))) d <> None).
    { simpl. rewrite noted_caches. simpl. eapply U; eauto. }
    destruct r; auto. }
  destruct (stats_target o) as [c|] eqn:ST.
  { unfold two. destruct (slot (aw_caches aw) c) as [b|]; auto. destruct (a_stats b); auto.
    destruct (slot (aw_stats aw) n); auto. destruct (on_stats E o s) as (r & x'). destruct r; simpl; auto. }
  destruct (building o) as [[[cap ttl] l]|].
  { match goal with |- context [l_inserts ?x1 ?x2 ?x3 ?x4 ?x5] => destruct (l_inserts x1 x2 x3 x4 x5) as ((m & a') & n') end. simpl. auto. }
  destruct o; try discriminate; auto; unfold two;
    try (destruct (slot (aw_caches aw) c) as [b|] eqn:Hb; auto).
  - destruct (junk E); auto. simpl. apply AP. eapply U; eauto.
  - exfalso. eapply N. reflexivity.
  - exfalso. eapply N. reflexivity.
  - destruct (slot (aw_caches aw) d0) as [b'|] eqn:Hb'; auto. destruct (Nat.eqb_spec c d0); auto. simpl.
    eapply U; [|eapply U; eauto]. rewrite slot_upd_other; eauto.
  - destruct (slot (aw_caches aw) d0) as [b'|] eqn:Hb'; auto. destruct (Nat.eqb_spec c d0); auto. simpl.
    eapply U; [|eapply U; eauto]. rewrite slot_upd_other; eauto.
  - destruct (slot (aw_caches aw) d0) as [b'|] eqn:Hb'; auto.
  - simpl. eapply U; eauto.
Qed.

Lemma pres_bind A B d rd (m : Monad.M world A) (k : A -> Monad.M world B) R R' w z :
  pres d rd R (m w) (m z) -> (forall p q, R p q -> par d rd (k p) (k q) R') -> pres d rd R' (bind m k w) (bind m k z).
Proof.
  intros H C. unfold bind. unfold pres in H. destruct (m w), (m z); try easy. destruct H. apply C; auto.
Qed.
Lemma pres_exec d rd o w z : pres d rd eq (body E o w) (body E o z) -> tw d rd w z -> pres d rd eq (exec E o w) (exec E o z).
Proof. intros H T. unfold exec. rewrite (tw_well_formed _ T). destruct (well_formed z o); simpl; auto. Qed.

Lemma contents_twin d rd w z aw l : tw d rd w z -> rel z aw -> contents E d w l ->
  exists a, slot (aw_caches aw) d = Some a /\ l = map pair_of (a_ents a).
Proof.
  intros T R C. apply (contents_inv G R). unfold contents in *.
  pose proof (p_exec (observer_blind E (o := Ordered d) eq_refl) T) as P. rewrite C in P.
  unfold pres in P. destruct (exec E (Ordered d) z) as [r z'|? ?|?|?] eqn:X; try contradiction. destruct P as (_ & <-).
  f_equal. pose proof (exec_step G R (o := Ordered d) eq_refl) as (ch & S). rewrite X in S.
  unfold exec in X. destruct (well_formed z (Ordered d)) eqn:W; [|discriminate].
  cbn [well_formed] in W. unfold alive in W. destruct (slot (w_caches z) d) as [x|] eqn:Hx; [|discriminate].
  destruct (rel_get' _ R Hx) as (a & s & m & Ha & At & Rp). cbn [body] in X. unfold bind in X.
  erewrite traverse_ordered_ev in X by eauto using rp_store. inversion X. auto.
Qed.

Hypothesis HB : hash_blind E.

Lemma absent_found d rd w z aw l k : tw d rd w z -> rel z aw -> contents E d w l -> has E k l = false ->
  map_find E d k z = Val None z.
Proof.
  intros T R C H. destruct (contents_twin T R C) as (a & Ha & ->). destruct (rel_get _ R Ha) as (x & s & m & At & Rp).
  rewrite (map_find_ev G k At (rp_store Rp)). rewrite (has_map E) in H. rewrite (rp_ents Rp) in H.
  destruct (lookup_ent E k (ents m)) eqn:L; [discriminate|]. apply find_cell_none in L. rewrite L. auto.
Qed.
Lemma size_found d rd w z aw l : tw d rd w z -> rel z aw -> contents E d w l -> size d z = Val (length l) z.
Proof.
  intros T R C. destruct (contents_twin T R C) as (a & Ha & ->). destruct (rel_get _ R Ha) as (x & s & m & At & Rp).
  erewrite size_ev by eauto. rewrite (rep_size (rp_store Rp)), map_length, (rp_ents Rp). unfold ents. rewrite map_length. auto.
Qed.

Lemma harmless_copy_free d w o : harmless E d w o -> copy_free o = true.
Proof. intros []; auto; match goal with H : observer ?o = true |- _ => destruct o; auto; discriminate | H : registers ?o = true |- _ => destruct o; auto; discriminate end. Qed.
Lemma exec_same o w z d rd : tw d rd w z -> body E o w = body E o z -> well_formed z o = true -> exec E o w = exec E o z.
Proof. intros T B W. unfold exec. rewrite (tw_well_formed _ T), W. auto. Qed.

Lemma reset_same d rd o w z aw a : tw d rd w z -> rel z aw -> slot (aw_caches aw) d = Some a ->
  (o = Clear d \/ (exists l, o = AssignRange d l) \/ (exists l, o = AssignMove d l) \/ o = Destroy d) ->
  exec E o w = exec E o z.
Proof.
  intros T R Ha H. destruct (twin_parts T R Ha) as (xw & xz & sw & sz & _ & Rw & _ & _ & Hz & _ & Hw & Hsw).
  assert (O : owns d rd w) by (exists xw, sw; auto).
  apply (exec_same T).
  - destruct H as [->|[(l & ->)|[(l & ->)| ->]]]; cbn [body]; unfold bind.
    + destruct (clear_same T O) as (w1 & -> & ->). auto.
    + rewrite (assign_range_same E l T O). auto.
    + rewrite (assign_move_same E l T O). auto.
    + destruct (destroy_same T O) as (w1 & -> & ->). auto.
  - destruct H as [->|[(l & ->)|[(l & ->)| ->]]]; simpl; unfold alive; rewrite Hz; auto.
Qed.

Lemma pres_step d rd o w z aw : tw d rd w z -> rel z aw -> (exists a, slot (aw_caches aw) d = Some a) -> copy_free o = true ->
  (forall c, o <> Destroy c) -> pres d rd eq (exec E o w) (exec E o z) ->
  exists ch, simS d (out_rel o) (exec E o w) (astep E ch o aw).
Proof.
  intros T R (a & Ha) CF ND P. destruct (exec_step G R CF) as (ch & S). exists ch.
  pose proof (astep_alive ch (aw := aw) (d := d) ND) as A. rewrite Ha in A. specialize (A ltac:(discriminate)).
  unfold pres in P. destruct (exec E o w) as [r w1|e w1|u|e], (exec E o z) as [r' z1|e' z1|u'|e']; try contradiction;
    destruct (astep E ch o aw) as [q aw1|q aw1|q|q]; simpl in S |- *; try contradiction; try congruence.
  - destruct P as (T1 & ->), S as (S1 & S2). split; auto. right. destruct (slot (aw_caches aw1) d) as [a1|] eqn:A1; [|congruence].
    exists rd, z1, a1. auto.
  - destruct P as (-> & T1), S as (S1 & S2). split; auto. right. destruct (slot (aw_caches aw1) d) as [a1|] eqn:A1; [|congruence].
    exists rd, z1, a1. auto.
Qed.

Lemma harmless_step d o w aw : sound d w aw -> harmless E d w o ->
  exists ch, simS d (out_rel o) (exec E o w) (astep E ch o aw).
Proof.
  intros S H. pose proof (harmless_copy_free H) as CF. destruct S as [R|(rd & z & a & T & R & Ha)].
  - destruct (exec_step G R CF) as (ch & S). exists ch. apply simr_simS. exact S.
  - assert (RS : (o = Clear d \/ (exists l, o = AssignRange d l) \/ (exists l, o = AssignMove d l) \/ o = Destroy d) ->
       exists ch, simS d (out_rel o) (exec E o w) (astep E ch o aw)).
    { intros Q. rewrite (reset_same T R Ha Q). destruct (exec_step G R CF) as (ch & S). exists ch. apply simr_simS. exact S. }
    assert (PR : (forall c, o <> Destroy c) -> pres d rd eq (body E o w) (body E o z) ->
       exists ch, simS d (out_rel o) (exec E o w) (astep E ch o aw)).
    { intros ND P. eapply pres_step; eauto. apply pres_exec; auto. }
    destruct H as [o H|l k v C H|l k v C H|l k C H|l n C H| | | | | | | |o H H'| | | | | | |];
      try (apply RS; eauto 6; fail);
      try (apply PR; [intros; discriminate|]; apply admin_blind; simpl; auto; fail).
    + apply PR; [intros c ->; discriminate|]. apply observer_blind; auto.
    + apply PR; [intros; discriminate|]. apply insert_body; auto. eapply absent_found; eauto.
    + apply PR; [intros; discriminate|]. apply emplace_body; auto. eapply absent_found; eauto.
    + apply PR; [intros; discriminate|]. apply find_body; auto. apply (good_cb G). eapply absent_found; eauto.
    + apply PR; [intros; discriminate|]. cbn [body]. unfold bind.
      apply (pres_ret (f := fun _ => RUnit)) with (R := eq); auto. eapply set_capacity_blind; eauto. eapply size_found; eauto.
    + apply PR; [intros c ->; discriminate|]. apply stats_blind; auto.
Qed.
End Sound.
