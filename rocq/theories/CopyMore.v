(** Histories with copies. *)
From Coq Require Import List Arith ZArith Bool Permutation Lia.
Import ListNotations.
From Verif Require Import Monad Types Model Api Spec SpecTimed SpecPair Ref Lists SimBase SimRel SimOps SimIns SimErase SimIter SimNew SimObs SimExec RefEval SimRun LruProofs Effects Flat Global Safe Frame PairProofs SpecCopy CopyBlind CopyFrame CopyEval CopyProofs.
Set Implicit Arguments.
Unset Strict Implicit.
Local Open Scope cpp_scope.

Section More.
Context {K V : Type}.
Variable E : env K V.
Hypothesis G : good E.

Notation entry := (entry K V).
Notation world := (world K V).
Notation store := (store K V).
Notation acache := (acache K V).
Notation aworld := (aworld K V).
Notation cell := (@cell K V).
Notation rel := (rel E).
Notation sound := (sound E).
Implicit Types (w z : world) (s : store) (a : acache) (aw : aworld) (o : op K V).

(** ** Twins look the same *)
Lemma twin_val E' d rd o w z r : observer o = true -> tw d rd w z ->
  ((exists w', exec E' o w = Val r w') <-> (exists z', exec E' o z = Val r z')).
Proof.
  intros O T. pose proof (p_exec (observer_blind E' (o := o) O) T) as P. unfold pres in P.
  split; intros (w' & X); rewrite X in P.
  - destruct (exec E' o z) as [r' z'|? ?|?|?]; try contradiction. destruct P as (_ & <-). eauto.
  - destruct (exec E' o w) as [r' z'|? ?|?|?]; try contradiction. destruct P as (_ & ->). eauto.
Qed.
Lemma twin_pure d rd o w z r : pure_observer o = true -> observer o = true -> tw d rd w z ->
  (exec E o w = Val r w <-> exec E o z = Val r z).
Proof.
  intros PO O T. pose proof (twin_val E r O T) as Q.
  pose proof (pure_observer_same E PO w) as PW. pose proof (pure_observer_same E PO z) as PZ.
  split; intros X.
  - destruct Q as (Q & _). destruct Q as (z' & Y); [eauto|]. rewrite Y in PZ. cbn in PZ. subst z'. auto.
  - destruct Q as (_ & Q). destruct Q as (w' & Y); [eauto|]. rewrite Y in PW. cbn in PW. subst w'. auto.
Qed.
Lemma twin_elements d rd w z c : tw d rd w z -> same_elements E c w c z.
Proof.
  intros T. split; [|split].
  - intros l. apply (twin_pure (o := Ordered c) _ eq_refl eq_refl T).
  - intros n. apply (twin_pure (o := Capacity c) _ eq_refl eq_refl T).
  - intros k t. unfold born, old.
    assert (TT : forall x, ttl_of c w (Some x) <-> ttl_of c z (Some x)).
    { intros x. unfold ttl_of. pose proof (tw_c T c) as C. destruct (slot (w_caches w) c) as [y|], (slot (w_caches z) c) as [y'|]; try contradiction.
      - destruct C as ((_ & _ & _ & _ & Q) & _). split; intros (? & X & Y); inversion X; subst; eexists; split; eauto; congruence.
      - split; intros (? & X & _); discriminate. }
    split; intros (x & D & Q); exists x; (split; [apply TT; exact D|]); intros u; rewrite <- Q;
      [symmetry|]; apply (twin_val (frozen u (exact E)) _ (o := HasExpired c k) eq_refl T).
Qed.
Lemma elements_sym c w d z : same_elements E c w d z -> same_elements E d z c w.
Proof. intros (A & B & C). split; [|split]; intros; symmetry; auto. Qed.
Lemma elements_trans c w d z e u : same_elements E c w d z -> same_elements E d z e u -> same_elements E c w e u.
Proof. intros (A & B & C) (A' & B' & C'). split; [|split]; intros; [rewrite A|rewrite B|rewrite C]; auto. Qed.
Lemma elements_refl c w : same_elements E c w c w.
Proof. split; [|split]; tauto. Qed.

Lemma sound_twin d w aw : sound d w aw -> exists z, rel z aw /\ forall c, same_elements E c w c z.
Proof.
  intros [R|(rd & z & a & T & R & _)].
  - exists w. split; auto. intros. apply elements_refl.
  - exists z. split; auto. intros. apply (twin_elements c T).
Qed.
Lemma sound_elements d w aw c a d' w' aw' e b : sound d w aw -> sound d' w' aw' ->
  slot (aw_caches aw) c = Some a -> slot (aw_caches aw') e = Some b ->
  a_ents a = a_ents b -> a_cap a = a_cap b -> (a_ttl a = None <-> a_ttl b = None) -> same_elements E c w e w'.
Proof.
  intros S S' Ha Hb Q1 Q2 Q3. destruct (sound_twin S) as (z & R & T), (sound_twin S') as (z' & R' & T').
  eapply elements_trans; [apply T|]. eapply elements_trans; [|apply elements_sym, T'].
  eapply same_elements_of; eauto.
Qed.
Lemma sound_alive d w aw c : sound d w aw -> alive w c = a_alive aw c.
Proof.
  intros [R|(rd & z & a & T & R & _)]; [apply (rel_alive _ R)|]. rewrite (tw_alive c T). apply (rel_alive _ R).
Qed.

(** ** Making a copy *)
Lemma copies_ev w aw c d w' : rel w aw -> copies E c d w w' ->
  exists a z rd aw', slot (aw_caches aw) c = Some a /\ tw d rd w' z /\ rel z aw' /\ c <> d /\
    slot (aw_caches aw') d = Some a /\ (forall e, e <> d -> slot (aw_caches aw') e = slot (aw_caches aw) e) /\
    aw_reads aw' = aw_reads aw /\ aw_stats aw' = aw_stats aw /\ aw_log aw' = aw_log aw.
Proof.
  intros R [H|N H].
  - pose proof H as H0. unfold exec in H0. cbn [well_formed] in H0. destruct (alive w c) eqn:A; [|discriminate]. clear H0.
    destruct (alive_inv R A) as (a & Ha). destruct (copy_sound G R Ha) as (w1 & z & X & T & RZ).
    rewrite X in H. inversion H; subst d w1. exists a, z, (length (w_stores w)), (awadd a aw).
    pose proof (slot_lt _ _ Ha) as L. rewrite <- (rel_len R) in L.
    do 3 (split; [assumption|]). split; [try lia; auto|]. split; [|split; [|auto]]; simpl.
    + rewrite (rel_len R). apply slot_app_new.
    + intros e Ne. rewrite slot_app_other; auto. rewrite <- (rel_len R). auto.
  - pose proof H as H0. unfold exec in H0. cbn [well_formed] in H0. destruct (same_kind w d c) eqn:SK; [|discriminate]. clear H0.
    pose proof SK as SK'. unfold same_kind in SK'. apply andb_prop in SK' as (A1 & _). apply andb_prop in A1 as (A1 & A2).
    destruct (alive_inv R A2) as (a & Ha), (alive_inv R A1) as (b & Hb).
    destruct (copy_assign_sound G R N Ha Hb SK) as (w1 & z & X & T & RZ).
    rewrite X in H. inversion H; subst w1. exists a, z, (length (w_stores w)), (awput d a aw).
    do 3 (split; [assumption|]). split; [try lia; auto|]. split; [|split; [|auto]]; simpl.
    + rewrite (slot_upd_same _ _ _ Hb). auto.
    + intros e Ne. rewrite slot_upd_other; auto.
Qed.

Lemma books_of w aw c a d rd w' z aw' : rel w aw -> tw d rd w' z -> rel z aw' ->
  forall e, slot (aw_caches aw) c = Some a -> slot (aw_caches aw') e = Some a -> same_books c w e w'.
Proof.
  intros R T RZ e Ha He. destruct (rel_get _ R Ha) as (x & s & l & (Hx & _) & Rp). destruct (rel_get _ RZ He) as (y & t & m & (Hy & _) & Rq).
  pose proof (tw_c T e) as C. rewrite Hy in C. destruct (slot (w_caches w') e) as [y'|] eqn:Y; [|contradiction].
  destruct C as ((_ & _ & C1 & C2 & C3) & _). exists x, y'. split; auto. split; auto.
  rewrite C1, C2, C3, (rp_stats Rp), (rp_cbs Rp), (rp_ttl Rp), (rp_stats Rq), (rp_cbs Rq), (rp_ttl Rq). auto.
Qed.

Lemma copy_same w c d w' : reachable E w -> copies E c d w w' ->
  same_elements E c w d w' /\ same_books c w d w' /\
  (forall e, e <> d -> alive w e = true -> same_elements E e w e w' /\ same_books e w e w') /\
  w_stats w' = w_stats w /\ w_log w' = w_log w.
Proof.
  intros H C. destruct (reach_rel G H) as (aw & R). destruct (copies_ev R C) as (a & z & rd & aw' & Ha & T & RZ & N & Hd & O & Q1 & Q2 & Q3).
  assert (S : sound d w' aw') by (right; exists rd, z, a; auto).
  assert (S0 : sound d w aw) by (left; auto).
  split; [|split; [|split; [|split]]].
  - eapply sound_elements; eauto. tauto.
  - eapply books_of; eauto.
  - intros e Ne A. destruct (alive_inv R A) as (b & Hb). split.
    + eapply sound_elements; eauto; [rewrite O; eauto|tauto].
    + eapply books_of; eauto. rewrite O; eauto.
  - rewrite (tw_st T), (rel_stats RZ), (rel_stats R). auto.
  - rewrite (tw_log T), (rel_log RZ), (rel_log R). auto.
Qed.

Lemma backward_of w aw c a : rel w aw -> slot (aw_caches aw) c = Some a ->
  exec E (Backward c) w = Val (REnts (rev (map pair_of (a_ents a)))) w.
Proof.
  intros R Ha. destruct (rel_get _ R Ha) as (x & s & ls & At & Rp). rewrite (exec_wf _ R). simpl. rewrite (slot_alive Ha), (rp_ents Rp).
  unfold bind. erewrite traverse_backward_ev by eauto using rp_store. reflexivity.
Qed.
Lemma unordered_of w aw c a : rel w aw -> slot (aw_caches aw) c = Some a ->
  exists u, exec E (Unordered c) w = Val (REnts u) w /\ Permutation u (map pair_of (a_ents a)).
Proof.
  intros R Ha. destruct (rel_get _ R Ha) as (x & s & ls & At & Rp). rewrite (exec_wf _ R). simpl. rewrite (slot_alive Ha), (rp_ents Rp).
  destruct (traverse_unordered_ev At (rp_store Rp)) as (t & Et & P). exists t. unfold bind. rewrite Et. split; auto.
Qed.

Lemma copy_traversals w c d w' l : reachable E w -> copies E c d w w' -> contents E c w l ->
  exec E (Ordered d) w' = Val (REnts l) w' /\ exec E (Backward d) w' = Val (REnts (rev l)) w' /\
  (exists u, exec E (Unordered d) w' = Val (REnts u) w' /\ Permutation u l) /\
  exec E (Size d) w' = Val (RNat (length l)) w'.
Proof.
  intros H C L. destruct (reach_rel G H) as (aw & R). destruct (copies_ev R C) as (a & z & rd & aw' & Ha & T & RZ & N & Hd & O & Q1 & Q2 & Q3).
  destruct (contents_inv G R L) as (a' & Ha' & ->). rewrite Ha in Ha'. inversion Ha'; subst a'.
  assert (X := contents_of G RZ Hd).
  split; [|split; [|split]].
  - apply (twin_pure (o := Ordered d) _ eq_refl eq_refl T). exact X.
  - apply (twin_pure (o := Backward d) _ eq_refl eq_refl T). apply (backward_of RZ Hd).
  - destruct (unordered_of RZ Hd) as (u & U & P). exists u. split; auto.
    apply (twin_pure (o := Unordered d) _ eq_refl eq_refl T). exact U.
  - apply (twin_pure (o := Size d) _ eq_refl eq_refl T). rewrite map_length. exact (size_of RZ Hd).
Qed.

Lemma copy_equal w c d w' : equality_good E -> reachable E w -> copies E c d w w' ->
  exec E (Equal d c) w' = Val (RBool true) w' /\ exec E (Equal c d) w' = Val (RBool true) w'.
Proof.
  intros EQ H C. destruct (reach_rel G H) as (aw & R). destruct (copies_ev R C) as (a & z & rd & aw' & Ha & T & RZ & N & Hd & O & Q1 & Q2 & Q3).
  assert (Hc : slot (aw_caches aw') c = Some a) by (rewrite O; auto).
  assert (EE : ent_eqs E (is_timed a) (a_ents a) (a_ents a) = true).
  { apply ent_eqs_iff; auto; try (eapply rel_dkeys; eauto).
    clear - G EQ. induction (a_ents a) as [|e l IH]; constructor; auto.
    unfold ent_eq. rewrite (eq_key EQ), (good_refl G), (eq_refl_v EQ), Z.eqb_refl. simpl. apply orb_true_r. }
  assert (SK : forall p q, slot (aw_caches aw') p = Some a -> slot (aw_caches aw') q = Some a -> same_kind z p q = true).
  { intros p q Hp Hq. unfold same_kind. rewrite !(rel_alive _ RZ), !(rel_timed _ RZ). unfold a_alive, a_timed. rewrite Hp, Hq. apply eqb_reflx. }
  split.
  - apply (twin_pure (o := Equal d c) _ eq_refl eq_refl T).
    destruct (equal_step G EQ RZ (SK d c Hd Hc) Hd Hc) as (w1 & X & _). rewrite EE in X.
    pose proof (pure_observer_same E (o := Equal d c) eq_refl z) as P. rewrite X in P. cbn in P. subst w1. auto.
  - apply (twin_pure (o := Equal c d) _ eq_refl eq_refl T).
    destruct (equal_step G EQ RZ (SK c d Hc Hd) Hc Hd) as (w1 & X & _). rewrite EE in X.
    pose proof (pure_observer_same E (o := Equal c d) eq_refl z) as P. rewrite X in P. cbn in P. subst w1. auto.
Qed.

(** ** Careful histories *)
Hypothesis HB : hash_blind E.

Lemma resets_step d o w aw : sound d w aw -> resets d o -> exists ch, simr E (ok o) (exec E o w) (astep E ch o aw).
Proof.
  intros S H. assert (CF : copy_free o = true) by (destruct H; auto).
  destruct S as [R|(rd & z & a & T & R & Ha)]; [apply (exec_step G R CF)|].
  rewrite (reset_same T R Ha); [apply (exec_step G R CF)|]. destruct H; eauto 6.
Qed.
Definition special o (u : ub) : Prop :=
  (exists c, o = Move c /\ u = Indeterminate /\ junk E = None) \/
  (exists c k, o = FindEntry c k /\ u = PastTheEnd /\ lenient_end E = false).
Lemma sound_awf d w aw : sound d w aw -> awf E aw.
Proof. intros S. destruct (sound_twin S) as (z & R & _). eapply awf_rel; eauto. Qed.
Lemma sound_empty d w aw c a : sound d w aw -> slot (aw_caches aw) c = Some a -> a_ents a = [] -> contents E c w [].
Proof.
  intros S Ha Q. destruct (sound_twin S) as (z & R & T). apply (T c). pose proof (contents_of G R Ha) as C. rewrite Q in C. exact C.
Qed.

Lemma undefined_rel ops : forall w aw outs0 u, rel w aw -> forallb copy_free ops = true ->
  run E ops w = Undefined outs0 u ->
  exists pre o post w', ops = pre ++ o :: post /\ run E pre w = Finished outs0 w' /\ special o u.
Proof.
  induction ops as [|o t IH]; intros w aw outs0 u R F; cbn [run]; [discriminate|].
  simpl in F. apply andb_prop in F as (F1 & F2).
  destruct (exec_step G R F1) as (ch & S). pose proof (step_safe ch o (awf_rel R)) as A.
  destruct (exec E o w) as [r w'|e w'|u'|e] eqn:X; destruct (astep E ch o aw) as [r' aw'|e' aw'|u''|e']; simpl in S; try contradiction.
  - intros Q. destruct (run E t w') as [|outs1 u1|] eqn:Y; simpl in Q; inversion Q; subst.
    destruct S as (S & _). destruct (IH w' aw' outs1 u S F2 Y) as (pre & o' & post & w1 & -> & P & Z).
    exists (o :: pre), o', post, w1. cbn [run]. rewrite X, P. auto.
  - intros Q. destruct (run E t w') as [|outs1 u1|] eqn:Y; simpl in Q; inversion Q; subst.
    destruct S as (_ & S). destruct (IH w' aw' outs1 u S F2 Y) as (pre & o' & post & w1 & -> & P & Z).
    exists (o :: pre), o', post, w1. cbn [run]. rewrite X, P. auto.
  - intros Q; inversion Q; subst. exists [], o, t, w. auto.
  - discriminate.
Qed.
Lemma terminated_rel ops : forall w aw outs0 (e : exn), rel w aw -> forallb copy_free ops = true ->
  run E ops w = Terminated outs0 e ->
  e = EmptyCache /\ exists pre o post w' c, ops = pre ++ o :: post /\ run E pre w = Finished outs0 w' /\
    (o = Front c \/ o = Back c) /\ contents E c w' [].
Proof.
  induction ops as [|o t IH]; intros w aw outs0 u R F; cbn [run]; [discriminate|].
  simpl in F. apply andb_prop in F as (F1 & F2).
  destruct (exec_step G R F1) as (ch & S). pose proof (step_safe ch o (awf_rel R)) as A.
  destruct (exec E o w) as [r w'|e w'|u'|e] eqn:X; destruct (astep E ch o aw) as [r' aw'|e' aw'|u''|e']; simpl in S; try contradiction.
  - intros Q. destruct (run E t w') as [| |outs1 u1] eqn:Y; simpl in Q; inversion Q; subst.
    destruct S as (S & _). destruct (IH w' aw' outs1 u S F2 Y) as (-> & pre & o' & post & w1 & c & -> & P & Z).
    split; auto. exists (o :: pre), o', post, w1, c. cbn [run]. rewrite X, P. auto.
  - intros Q. destruct (run E t w') as [| |outs1 u1] eqn:Y; simpl in Q; inversion Q; subst.
    destruct S as (_ & S). destruct (IH w' aw' outs1 u S F2 Y) as (-> & pre & o' & post & w1 & c & -> & P & Z).
    split; auto. exists (o :: pre), o', post, w1, c. cbn [run]. rewrite X, P. auto.
  - discriminate.
  - intros Q; inversion Q; subst. destruct A as (A & c & a & O & Ha & N). split; [congruence|].
    exists [], o, t, w, c. split; auto. split; auto. split; auto. pose proof (contents_of G R Ha) as C. rewrite N in C. exact C.
Qed.

Lemma careful_undefined d ops w : careful E d ops w -> forall aw outs0 u, sound d w aw ->
  run E ops w = Undefined outs0 u ->
  exists pre o post w', ops = pre ++ o :: post /\ run E pre w = Finished outs0 w' /\ special o u.
Proof.
  induction 1 as [w|o t w CF N _ IH|o t w H _ IH|o t w H F]; intros aw outs0 u S; [discriminate|..]; cbn [run].
  1, 2: assert (SS : exists ch, simS E d (out_rel o) (exec E o w) (astep E ch o aw)) by (first [apply (other_step G S CF N)|apply (harmless_step G HB S H)]);
    destruct SS as (ch & SS); pose proof (step_safe ch o (sound_awf S)) as A; unfold call in IH;
    destruct (exec E o w) as [r w'|e w'|u'|e] eqn:X; destruct (astep E ch o aw) as [r' aw'|e' aw'|u''|e']; simpl in SS; try contradiction;
    [ intros Q; destruct (run E t w') as [|outs1 u1|] eqn:Y; simpl in Q; inversion Q; subst;
      destruct SS as (SS & _); destruct (IH (Returned r) w' eq_refl aw' outs1 u SS Y) as (pre & o' & post & w1 & -> & P & Z);
      exists (o :: pre), o', post, w1; cbn [run]; rewrite X, P; auto
    | intros Q; destruct (run E t w') as [|outs1 u1|] eqn:Y; simpl in Q; inversion Q; subst;
      destruct SS as (_ & SS); destruct (IH (Threw e) w' eq_refl aw' outs1 u SS Y) as (pre & o' & post & w1 & -> & P & Z);
      exists (o :: pre), o', post, w1; cbn [run]; rewrite X, P; auto
    | intros Q; inversion Q; subst; exists [], o, t, w; auto
    | discriminate ].
  destruct (resets_step S H) as (ch & SS). pose proof (step_safe ch o (sound_awf S)) as A.
  destruct (exec E o w) as [r w'|e w'|u'|e] eqn:X; destruct (astep E ch o aw) as [r' aw'|e' aw'|u''|e']; simpl in SS; try contradiction.
  - intros Q; destruct (run E t w') as [|outs1 u1|] eqn:Y; simpl in Q; inversion Q; subst.
    destruct SS as (SS & _); destruct (undefined_rel SS F Y) as (pre & o' & post & w1 & -> & P & Z).
    exists (o :: pre), o', post, w1; cbn [run]; rewrite X, P; auto.
  - intros Q; destruct (run E t w') as [|outs1 u1|] eqn:Y; simpl in Q; inversion Q; subst.
    destruct SS as (_ & SS); destruct (undefined_rel SS F Y) as (pre & o' & post & w1 & -> & P & Z).
    exists (o :: pre), o', post, w1; cbn [run]; rewrite X, P; auto.
  - intros Q; inversion Q; subst; exists [], o, t, w; auto.
  - discriminate.
Qed.
Lemma careful_terminated d ops w : careful E d ops w -> forall aw outs0 (e : exn), sound d w aw ->
  run E ops w = Terminated outs0 e ->
  e = EmptyCache /\ exists pre o post w' c, ops = pre ++ o :: post /\ run E pre w = Finished outs0 w' /\
    (o = Front c \/ o = Back c) /\ contents E c w' [].
Proof.
  induction 1 as [w|o t w CF N _ IH|o t w H _ IH|o t w H F]; intros aw outs0 u S; [discriminate|..]; cbn [run].
  1, 2: assert (SS : exists ch, simS E d (out_rel o) (exec E o w) (astep E ch o aw)) by (first [apply (other_step G S CF N)|apply (harmless_step G HB S H)]);
    destruct SS as (ch & SS); pose proof (step_safe ch o (sound_awf S)) as A; unfold call in IH;
    destruct (exec E o w) as [r w'|e w'|u'|e] eqn:X; destruct (astep E ch o aw) as [r' aw'|e' aw'|u''|e']; simpl in SS; try contradiction;
    [ intros Q; destruct (run E t w') as [| |outs1 u1] eqn:Y; simpl in Q; inversion Q; subst;
      destruct SS as (SS & _); destruct (IH (Returned r) w' eq_refl aw' outs1 u SS Y) as (-> & pre & o' & post & w1 & c & -> & P & Z);
      split; auto; exists (o :: pre), o', post, w1, c; cbn [run]; rewrite X, P; auto
    | intros Q; destruct (run E t w') as [| |outs1 u1] eqn:Y; simpl in Q; inversion Q; subst;
      destruct SS as (_ & SS); destruct (IH (Threw e) w' eq_refl aw' outs1 u SS Y) as (-> & pre & o' & post & w1 & c & -> & P & Z);
      split; auto; exists (o :: pre), o', post, w1, c; cbn [run]; rewrite X, P; auto
    | discriminate
    | intros Q; inversion Q; subst; destruct A as (A & c & a & O & Ha & Em); split; [congruence|];
      exists [], o, t, w, c; split; auto; split; auto; split; auto; eapply sound_empty; eauto ].
  destruct (resets_step S H) as (ch & SS). pose proof (step_safe ch o (sound_awf S)) as A.
  destruct (exec E o w) as [r w'|e w'|u'|e] eqn:X; destruct (astep E ch o aw) as [r' aw'|e' aw'|u''|e']; simpl in SS; try contradiction.
  - intros Q; destruct (run E t w') as [| |outs1 u1] eqn:Y; simpl in Q; inversion Q; subst.
    destruct SS as (SS & _); destruct (terminated_rel SS F Y) as (-> & pre & o' & post & w1 & c & -> & P & Z).
    split; auto. exists (o :: pre), o', post, w1, c; cbn [run]; rewrite X, P; auto.
  - intros Q; destruct (run E t w') as [| |outs1 u1] eqn:Y; simpl in Q; inversion Q; subst.
    destruct SS as (_ & SS); destruct (terminated_rel SS F Y) as (-> & pre & o' & post & w1 & c & -> & P & Z).
    split; auto. exists (o :: pre), o', post, w1, c; cbn [run]; rewrite X, P; auto.
  - discriminate.
  - intros Q; inversion Q; subst; destruct A as (A & c & a & O & Ha & Em); split; [congruence|];
      exists [], o, t, w, c; split; auto; split; auto; split; auto; eapply sound_empty; eauto.
Qed.
Lemma copies_sound w c d w' : reachable E w -> copies E c d w w' -> exists aw, sound d w' aw.
Proof.
  intros H C. destruct (reach_rel G H) as (aw & R). destruct (copies_ev R C) as (a & z & rd & aw' & Ha & T & RZ & N & Hd & _).
  exists aw'. right. exists rd, z, a. auto.
Qed.
Lemma copy_safe w c d w' ops : reachable E w -> copies E c d w w' -> careful E d ops w' ->
  (forall outs u, run E ops w' = Undefined outs u ->
     exists pre o post w1, ops = pre ++ o :: post /\ run E pre w' = Finished outs w1 /\
       ((exists c, o = Move c /\ u = Indeterminate /\ junk E = None) \/
        (exists c k, o = FindEntry c k /\ u = PastTheEnd /\ lenient_end E = false))) /\
  (forall outs e, run E ops w' = Terminated outs e ->
     e = EmptyCache /\ exists pre o post w1 c, ops = pre ++ o :: post /\ run E pre w' = Finished outs w1 /\
       (o = Front c \/ o = Back c) /\ contents E c w1 []).
Proof.
  intros H C F. destruct (copies_sound H C) as (aw & S). split; intros outs u Q.
  - exact (careful_undefined F S Q).
  - exact (careful_terminated F S Q).
Qed.

(** ** Independence *)
Lemma step_caches ch o aw d a : ~ In d (mentions o) -> slot (aw_caches aw) d = Some a ->
  match astep E ch o aw with Val _ aw' | Exc _ aw' => slot (aw_caches aw') d = Some a | _ => True end.
Proof.
  intros N A. unfold astep.
  assert (U : forall (l : list (option acache)) c x, In c (mentions o) -> slot l d = Some a -> slot (upd l c x) d = Some a).
  { intros l c x I H. rewrite slot_upd_other; auto. congruence. }
  assert (AP : forall l (x : acache), slot l d = Some a -> slot (l ++ [Some x]) d = Some a).
  { intros l x H. rewrite slot_app_lt; auto. exact (slot_lt _ _ H). }
  destruct (a_well_formed aw o); simpl; auto.
  destruct (target o) as [c|] eqn:T.
  { assert (I : In c (mentions o)) by (destruct o; inversion T; subst; simpl; auto).
    unfold two. destruct (slot (aw_caches aw) c) as [b|] eqn:Hb; auto.
    destruct (local E ch o b (aw_reads aw)) as (((r & b') & x) & i). simpl.
    assert (X : slot (aw_caches (awith c b' (noted E b x (ticks i aw)))) d = Some a).
    { simpl. rewrite noted_caches. simpl. auto. }
    destruct r; auto. }
  destruct (stats_target o) as [c|] eqn:ST.
  { unfold two. destruct (slot (aw_caches aw) c) as [b|]; auto. destruct (a_stats b); auto.
    destruct (slot (aw_stats aw) n); auto. destruct (on_stats E o s) as (r & x'). destruct r; simpl; auto. }
  destruct (building o) as [[[cap ttl] l]|].
  { match goal with |- context [l_inserts ?x1 ?x2 ?x3 ?x4 ?x5] => destruct (l_inserts x1 x2 x3 x4 x5) as ((m & a') & n') end. simpl. auto. }
  destruct o; try discriminate; auto; unfold two; simpl in U;
    try (destruct (slot (aw_caches aw) c) as [b|] eqn:Hb; auto); try (simpl; auto; fail).
  - destruct (junk E); auto. simpl. apply AP. auto.
  - destruct (slot (aw_caches aw) d0) as [b'|] eqn:Hb'; auto. destruct (Nat.eqb_spec c d0); auto. simpl. auto.
  - destruct (slot (aw_caches aw) d0) as [b'|] eqn:Hb'; auto. destruct (Nat.eqb_spec c d0); auto. simpl. auto.
  - destruct (slot (aw_caches aw) d0) as [b'|] eqn:Hb'; auto.
Qed.

Lemma apart_rel ops : forall w aw outs w' e a, rel w aw -> forallb copy_free ops = true ->
  run E ops w = Finished outs w' -> (forall o, In o ops -> ~ In e (mentions o)) -> slot (aw_caches aw) e = Some a ->
  exists aw', rel w' aw' /\ slot (aw_caches aw') e = Some a.
Proof.
  induction ops as [|o t IH]; intros w aw outs w' e a R F; cbn [run]; [intros Q; inversion Q; subst; eauto|].
  simpl in F. apply andb_prop in F as (F1 & F2). destruct (exec_step G R F1) as (ch & S).
  intros Q M Ha. pose proof (step_caches ch (M o (or_introl eq_refl)) Ha) as A.
  destruct (exec E o w) as [r w1|x w1|u'|x]; destruct (astep E ch o aw) as [r' aw'|e' aw'|u''|e']; simpl in S; try contradiction; try discriminate.
  - destruct S as (S & _). destruct (run E t w1) as [outs1 w2| |] eqn:Y; simpl in Q; inversion Q; subst.
    eapply (IH w1 aw'); eauto. intros; apply M; right; auto.
  - destruct S as (_ & S). destruct (run E t w1) as [outs1 w2| |] eqn:Y; simpl in Q; inversion Q; subst.
    eapply (IH w1 aw'); eauto. intros; apply M; right; auto.
Qed.
Lemma careful_apart d ops w : careful E d ops w -> forall aw outs w' e a, sound d w aw ->
  run E ops w = Finished outs w' -> (forall o, In o ops -> ~ In e (mentions o)) -> slot (aw_caches aw) e = Some a ->
  exists aw', sound d w' aw' /\ slot (aw_caches aw') e = Some a.
Proof.
  induction 1 as [w|o t w CF N _ IH|o t w H _ IH|o t w H F]; intros aw outs w' e a S; cbn [run]; [intros Q; inversion Q; subst; eauto|..].
  1, 2: assert (SS : exists ch, simS E d (out_rel o) (exec E o w) (astep E ch o aw)) by (first [apply (other_step G S CF N)|apply (harmless_step G HB S H)]);
    destruct SS as (ch & SS); unfold call in IH;
    intros Q M Ha; pose proof (step_caches ch (M o (or_introl eq_refl)) Ha) as A;
    destruct (exec E o w) as [r w1|x w1|u'|x]; destruct (astep E ch o aw) as [r' aw'|e' aw'|u''|e']; simpl in SS; try contradiction; try discriminate;
    destruct (run E t w1) as [outs1 w2| |] eqn:Y; simpl in Q; inversion Q; subst;
    [ destruct SS as (SS & _); eapply (IH (Returned r) w1 eq_refl aw'); eauto; intros; apply M; right; auto
    | destruct SS as (_ & SS); eapply (IH (Threw x) w1 eq_refl aw'); eauto; intros; apply M; right; auto ].
  destruct (resets_step S H) as (ch & SS). intros Q M Ha. pose proof (step_caches ch (M o (or_introl eq_refl)) Ha) as A.
  destruct (exec E o w) as [r w1|x w1|u'|x]; destruct (astep E ch o aw) as [r' aw'|e' aw'|u''|e']; simpl in SS; try contradiction; try discriminate;
    destruct (run E t w1) as [outs1 w2| |] eqn:Y; simpl in Q; inversion Q; subst.
  - destruct SS as (SS & _). destruct (apart_rel (ops := t) (e := e) (a := a) SS F Y) as (aw2 & R2 & X); auto. { intros; apply M; right; auto. }
    exists aw2. split; auto. left. auto.
  - destruct SS as (_ & SS). destruct (apart_rel (ops := t) (e := e) (a := a) SS F Y) as (aw2 & R2 & X); auto. { intros; apply M; right; auto. }
    exists aw2. split; auto. left. auto.
Qed.
Lemma copy_apart w c d w1 ops outs w2 e : reachable E w -> copies E c d w w1 -> careful E d ops w1 ->
  run E ops w1 = Finished outs w2 -> alive w1 e = true -> (forall o, In o ops -> ~ In e (mentions o)) ->
  same_elements E e w1 e w2.
Proof.
  intros H C F X A M. destruct (copies_sound H C) as (aw & S). rewrite (sound_alive e S) in A. unfold a_alive in A.
  destruct (slot (aw_caches aw) e) as [a|] eqn:Ha; [|discriminate].
  destruct (careful_apart F S X M Ha) as (aw' & S' & Ha'). eapply sound_elements; eauto. tauto.
Qed.
End More.
