(** Swap, move and comparison. *)
From Coq Require Import List Arith ZArith Bool Permutation Lia.
Import ListNotations.
From Verif Require Import Monad Types Model Api Spec SpecStats SpecTimed SpecPair Ref Lists SimBase SimRel SimOps SimIns SimErase SimIter SimNew SimObs SimExec RefEval SimRun LruProofs CallProofs LruMore Flat Global Safe Frame StatProofs StatMore TimedTrack TimedProofs.
Set Implicit Arguments.
Unset Strict Implicit.
Local Open Scope cpp_scope.

Section Pair.
Context {K V : Type}.
Variable E : env K V.
Hypothesis G : good E.

Notation entry := (entry K V).
Notation world := (world K V).
Notation acache := (acache K V).
Notation aworld := (aworld K V).
Notation rel := (rel E).
Notation mp := (map (@pair_of K V)).
Implicit Types (w : world) (aw : aworld) (a : acache) (e : entry) (o : op K V).

Lemma exact_good : good (exact E).
Proof. destruct G as [G1 G2 G3 G4 G5 G6]. constructor; auto. Qed.

Lemma ttl_iff w aw c a d : rel w aw -> slot (aw_caches aw) c = Some a -> (ttl_of c w d <-> a_ttl a = d).
Proof.
  intros R Ha. split; [apply (ttl_inv R Ha)|]. intros <-.
  destruct (rel_get _ R Ha) as (x & s & l & At & Rp). exists x. split; [apply At|apply (rp_ttl Rp)].
Qed.

Lemma born_iff w aw c a k t : rel w aw -> slot (aw_caches aw) c = Some a ->
  (born E c w k t <-> exists e d, lookup_ent E k (a_ents a) = Some e /\ a_ttl a = Some d /\ e_time e = t).
Proof.
  intros R Ha. assert (R' : Verif.SimRel.rel (exact E) w aw) by (apply (rel_env (E := E)); auto).
  assert (O : forall z, old (exact E) c w k z <-> exists e d, lookup_ent E k (a_ents a) = Some e /\ a_ttl a = Some d /\ (d < z - e_time e)%Z).
  { intros z. apply (old_iff exact_good k z R' Ha). }
  unfold born. split.
  - intros (d & T & Q). apply (ttl_iff _ R Ha) in T.
    assert (X : (d < (d + 1 + t) - t)%Z) by lia. apply Q in X. apply O in X. destruct X as (e & d' & L & T' & X).
    exists e, d. split; auto. split; auto. rewrite T in T'. inversion T'; subst d'.
    assert (Y : (d < (d + 1 + e_time e) - t)%Z). { apply Q. apply O. exists e, d. split; auto. split; auto. lia. } lia.
  - intros (e & d & L & T & <-). exists d. split; [apply (ttl_iff _ R Ha); auto|]. intros z. rewrite O. split.
    + intros (e' & d' & L' & T' & X). congruence.
    + intros X. eauto.
Qed.

Lemma same_elements_of w aw c a w' aw' d b : rel w aw -> rel w' aw' ->
  slot (aw_caches aw) c = Some a -> slot (aw_caches aw') d = Some b ->
  a_ents a = a_ents b -> a_cap a = a_cap b -> (a_ttl a = None <-> a_ttl b = None) -> same_elements E c w d w'.
Proof.
  intros R R' Ha Hb Q1 Q2 Q3. split; [|split].
  - intros l. split; intros C.
    + destruct (contents_inv G R C) as (a' & Ha' & ->). rewrite Ha in Ha'; inversion Ha'; subst. rewrite Q1. apply (contents_of G R' Hb).
    + destruct (contents_inv G R' C) as (a' & Ha' & ->). rewrite Hb in Ha'; inversion Ha'; subst. rewrite <- Q1. apply (contents_of G R Ha).
  - intros n. split; intros C.
    + apply (capacity_inv R Ha) in C. subst. rewrite Q2. apply (capacity_of R' Hb).
    + apply (capacity_inv R' Hb) in C. subst. rewrite <- Q2. apply (capacity_of R Ha).
  - intros k t. rewrite (born_iff k t R Ha), (born_iff k t R' Hb), Q1. split; intros (e & x & L & T & Q).
    + destruct (a_ttl b) eqn:T'; eauto 6. exfalso. rewrite T in Q3. assert (Some x = None) by (apply Q3; auto). discriminate.
    + destruct (a_ttl a) eqn:T'; eauto 6. exfalso. rewrite T in Q3. assert (Some x = None) by (apply Q3; auto). discriminate.
Qed.

Lemma keeps_of w aw c a w' aw' b : rel w aw -> rel w' aw' ->
  slot (aw_caches aw) c = Some a -> slot (aw_caches aw') c = Some b ->
  a_stats a = a_stats b -> a_cbs a = a_cbs b -> keeps_books c w w'.
Proof.
  intros R R' Ha Hb Q1 Q2. destruct (rel_get _ R Ha) as (x & s & l & At & Rp), (rel_get _ R' Hb) as (y & s' & l' & At' & Rp').
  exists x, y. split; [apply At|]. split; [apply At'|].
  rewrite (rp_stats Rp), (rp_stats Rp'), (rp_cbs Rp), (rp_cbs Rp'). auto.
Qed.

Lemma plain_val o w aw r aw' : rel w aw -> plain o = true -> astep E 0 o aw = Val r aw' ->
  exists w', exec E o w = Val r w' /\ rel w' aw'.
Proof.
  intros R P Q. pose proof (plain_step G R P) as S. rewrite Q in S.
  destruct (exec E o w); simpl in S; try easy. destruct S as (S1 & ->). eauto.
Qed.

(** ** Swap *)

Definition swapped a b : acache := with_ttl' (a_ttl b) (take_from b a).

Lemma kinds w aw c d : rel w aw -> same_kind w c d = true ->
  a_well_formed aw (Swap c d) = true /\ exists a b, slot (aw_caches aw) c = Some a /\ slot (aw_caches aw) d = Some b /\
  (a_ttl a = None <-> a_ttl b = None).
Proof.
  intros R S. assert (W : a_well_formed aw (Swap c d) = true).
  { rewrite <- (rel_well_formed _ R). exact S. }
  split; auto. simpl in W. destruct (kind_get W) as (a & b & Ha & Hb). exists a, b. split; auto. split; auto.
  unfold a_timed in W. rewrite Ha, Hb in W. apply andb_prop in W as (_ & W). apply eqb_prop in W.
  destruct (a_ttl a), (a_ttl b); split; intros; congruence.
Qed.

Lemma swap_self c w : reachable E w -> alive w c = true -> exists w', exec E (Swap c c) w = Val RUnit w' /\ same_seen E w w'.
Proof.
  intros H A. destruct (reach_rel G H) as (aw & R). destruct (alive_inv R A) as (a & Ha).
  assert (S : same_kind w c c = true) by (unfold same_kind; rewrite A, eqb_reflx; auto).
  destruct (kinds R S) as (W & _).
  destruct (@plain_val (Swap c c) w aw RUnit aw R) as (w' & X & R'); auto.
  - unfold astep. rewrite W. simpl. unfold two. rewrite Ha, Nat.eqb_refl. auto.
  - exists w'. split; auto. eapply rel_same_seen; eauto.
Qed.

Lemma pair_put_c c d a b x y aw : c <> d -> slot (aw_caches aw) c = Some a -> slot (aw_caches aw) d = Some b ->
  slot (aw_caches (pair_put c d x y aw)) c = Some x.
Proof. intros N Ha Hb. unfold pair_put; simpl. rewrite slot_upd_other by auto. erewrite slot_upd_same; eauto. Qed.
Lemma pair_put_d c d a b x y aw : c <> d -> slot (aw_caches aw) c = Some a -> slot (aw_caches aw) d = Some b ->
  slot (aw_caches (pair_put c d x y aw)) d = Some y.
Proof. intros N Ha Hb. unfold pair_put; simpl. erewrite slot_upd_same; eauto. rewrite slot_upd_other; eauto. Qed.

Lemma swap_step w aw c d a b : rel w aw -> same_kind w c d = true -> c <> d ->
  slot (aw_caches aw) c = Some a -> slot (aw_caches aw) d = Some b ->
  exists w', exec E (Swap c d) w = Val RUnit w' /\ rel w' (pair_put c d (swapped a b) (swapped b a) aw).
Proof.
  intros R S N Ha Hb. apply (plain_val R); auto. destruct (kinds R S) as (W & _).
  unfold astep. rewrite W. cbn [negb target stats_target building]. unfold two. rewrite Ha, Hb.
  apply Nat.eqb_neq in N. rewrite N. auto.
Qed.

Lemma swap_exchanges w c d : reachable E w -> same_kind w c d = true -> c <> d ->
  exists w', exec E (Swap c d) w = Val RUnit w' /\
    same_elements E c w' d w /\ same_elements E d w' c w /\
    (forall t, ttl_of c w' t <-> ttl_of d w t) /\ (forall t, ttl_of d w' t <-> ttl_of c w t) /\
    keeps_books c w w' /\ keeps_books d w w' /\
    w_stats w' = w_stats w /\ w_log w' = w_log w.
Proof.
  intros H S N. destruct (reach_rel G H) as (aw & R). destruct (kinds R S) as (W & a & b & Ha & Hb & T).
  destruct (swap_step R S N Ha Hb) as (w' & X & R'). exists w'. split; auto.
  pose proof (pair_put_c (swapped a b) (swapped b a) N Ha Hb) as Hc.
  pose proof (pair_put_d (swapped a b) (swapped b a) N Ha Hb) as Hd.
  split; [eapply same_elements_of; eauto; simpl; tauto|].
  split; [eapply same_elements_of; eauto; simpl; tauto|].
  split; [intros t; rewrite (ttl_iff t R' Hc), (ttl_iff t R Hb); simpl; tauto|].
  split; [intros t; rewrite (ttl_iff t R' Hd), (ttl_iff t R Ha); simpl; tauto|].
  split; [eapply keeps_of; eauto|]. split; [eapply keeps_of; eauto|].
  rewrite (rel_stats R'), (rel_log R'), (rel_stats R), (rel_log R). auto.
Qed.

Lemma swapped_back a b : swapped (swapped a b) (swapped b a) = a.
Proof. destruct a, b. reflexivity. Qed.
Lemma pair_put_back c d a b x y aw : c <> d -> slot (aw_caches aw) c = Some a -> slot (aw_caches aw) d = Some b ->
  pair_put c d a b (pair_put c d x y aw) = aw.
Proof.
  intros N Ha Hb. unfold pair_put, awith; simpl. destruct aw as [cs st lg rd]; simpl in *. f_equal.
  rewrite (@upd_comm _ (upd cs c (Some x)) d c) by auto. rewrite !upd_upd.
  rewrite (@upd_slot _ cs c a Ha). apply upd_slot; auto.
Qed.

Lemma swap_twice w c d : reachable E w -> same_kind w c d = true ->
  exists w' w'', exec E (Swap c d) w = Val RUnit w' /\ exec E (Swap c d) w' = Val RUnit w'' /\ same_seen E w w''.
Proof.
  intros H S. destruct (reach_rel G H) as (aw & R). destruct (kinds R S) as (W & a & b & Ha & Hb & T).
  destruct (Nat.eq_dec c d) as [<-|N].
  - assert (A : alive w c = true) by (unfold same_kind in S; apply andb_prop in S as (S & _); apply andb_prop in S; tauto).
    destruct (swap_self H A) as (w' & X & Y). exists w'.
    assert (H' : reachable E w') by (eapply reachable_step; eauto; reflexivity).
    assert (A' : alive w' c = true).
    { destruct (call_step G R (o := Swap c c) (oc := Returned RUnit) eq_refl X) as (aw' & _ & R' & Q).
      unfold astep in Q. rewrite W in Q. simpl in Q. unfold two in Q. rewrite Ha, Nat.eqb_refl in Q. subst aw'.
      rewrite (rel_alive _ R'). unfold a_alive. rewrite Ha. auto. }
    destruct (swap_self H' A') as (w'' & X' & Y'). exists w''. split; auto. split; auto.
    intros ops F. rewrite (Y ops F). apply Y'; auto.
  - destruct (swap_step R S N Ha Hb) as (w' & X & R').
    assert (S' : same_kind w' c d = true).
    { change (well_formed w' (Swap c d : op K V) = true). rewrite (rel_well_formed _ R'). simpl. unfold a_alive, a_timed.
      rewrite (pair_put_c (swapped a b) (swapped b a) N Ha Hb), (pair_put_d (swapped a b) (swapped b a) N Ha Hb). simpl.
      destruct (a_ttl a) eqn:Ta, (a_ttl b) eqn:Tb; auto; exfalso.
      - assert (Some z = None) by (apply T; auto). discriminate.
      - assert (Some z = None) by (apply T; auto). discriminate. }
    destruct (swap_step R' S' N (pair_put_c _ _ N Ha Hb) (pair_put_d _ _ N Ha Hb)) as (w'' & X' & R'').
    rewrite !swapped_back, (pair_put_back _ _ N Ha Hb) in R''.
    exists w', w''. split; auto. split; auto. eapply rel_same_seen; eauto.
Qed.

(** ** Move *)

Lemma move_constructs w c n : reachable E w -> alive w c = true -> junk E = Some n ->
  exists d w', exec E (Move c) w = Val (RNat d) w' /\ alive w d = false /\
    same_elements E d w' c w /\ (forall t, ttl_of d w' t <-> ttl_of c w t) /\
    contents E c w' [] /\ capacity_is E c w' n /\ (forall t, ttl_of c w' t <-> ttl_of c w t) /\
    keeps_books c w w' /\ exec E (IsMonitoring d) w' = Val (RBool false) w' /\
    w_stats w' = w_stats w /\ w_log w' = w_log w /\ w_reads w' = w_reads w.
Proof.
  intros H A J. destruct (reach_rel G H) as (aw & R). destruct (alive_inv R A) as (a & Ha).
  set (d := length (aw_caches aw)).
  assert (Q : astep E 0 (Move c) aw = Val (RNat d) (anew (take_from a (fresh_a 0 (a_ttl a))) 0 (awith c (take_from (fresh_a n None) a) aw))).
  { unfold astep. simpl. unfold a_alive. rewrite Ha. simpl. unfold two. rewrite Ha, J. auto. }
  destruct (plain_val R (o := Move c) eq_refl Q) as (w' & X & R'). exists d, w'. split; auto.
  assert (L : c < d) by (eapply slot_lt; eauto).
  assert (D0 : slot (aw_caches aw) d = None).
  { unfold slot, d. rewrite nth_overflow; auto. }
  match type of R' with Verif.SimRel.rel _ _ ?x => set (aw' := x) in * end.
  assert (Hd : slot (aw_caches aw') d = Some (take_from a (fresh_a 0 (a_ttl a)))).
  { unfold aw', anew; simpl. replace d with (length (upd (aw_caches aw) c (Some (take_from (fresh_a n None) a)))) by (rewrite upd_length; auto).
    apply slot_app_new. }
  assert (Hc : slot (aw_caches aw') c = Some (take_from (fresh_a n None) a)).
  { unfold aw', anew; simpl. rewrite slot_app_lt by (rewrite upd_length; auto). erewrite slot_upd_same; eauto. }
  split. { rewrite (rel_alive _ R). unfold a_alive. rewrite D0. auto. }
  split; [eapply same_elements_of; eauto; simpl; tauto|].
  split; [intros t; rewrite (ttl_iff t R' Hd), (ttl_iff t R Ha); simpl; tauto|].
  split; [apply (contents_of G R' Hc)|]. split; [apply (capacity_of R' Hc)|].
  split; [intros t; rewrite (ttl_iff t R' Hc), (ttl_iff t R Ha); simpl; tauto|].
  split; [eapply keeps_of; eauto|].
  split; [|rewrite (rel_stats R'), (rel_log R'), (rel_reads R'), (rel_stats R), (rel_log R), (rel_reads R); auto].
  unfold exec. assert (AL : alive w' d = true) by (rewrite (rel_alive _ R'); unfold a_alive; rewrite Hd; auto).
  simpl. rewrite AL. destruct (rel_get _ R' Hd) as (x & s & l & At & Rp).
  unfold is_monitoring, bind. erewrite get_cache_ev by apply At. rewrite (rp_stats Rp). reflexivity.
Qed.

Lemma move_undefined w c : reachable E w -> alive w c = true -> junk E = None -> exec E (Move c) w = Undef Indeterminate.
Proof.
  intros H A J. destruct (reach_rel G H) as (aw & R). destruct (alive_inv R A) as (a & Ha).
  pose proof (plain_step G R (o := Move c) eq_refl) as S. unfold astep in S. simpl in S. unfold a_alive in S. rewrite Ha in S.
  simpl in S. unfold two in S. rewrite Ha, J in S. destruct (exec E (Move c) w); simpl in S; try easy. subst; auto.
Qed.

Lemma move_assigns w c d : reachable E w -> same_kind w c d = true -> c <> d ->
  exists w', exec E (MoveAssign c d) w = Val RUnit w' /\
    same_elements E c w' d w /\ same_elements E d w' c w /\
    (forall t, ttl_of c w' t <-> ttl_of d w t) /\ (forall t, ttl_of d w' t <-> ttl_of d w t) /\
    keeps_books c w w' /\ keeps_books d w w' /\
    w_stats w' = w_stats w /\ w_log w' = w_log w /\ w_reads w' = w_reads w.
Proof.
  intros H S N. destruct (reach_rel G H) as (aw & R). destruct (kinds R S) as (W & a & b & Ha & Hb & T).
  assert (Q : astep E 0 (MoveAssign c d) aw = Val RUnit (pair_put c d (with_ttl' (a_ttl b) (take_from b a)) (take_from a b) aw)).
  { unfold astep. change (a_well_formed aw (MoveAssign c d)) with (a_well_formed aw (Swap c d)). rewrite W.
    cbn [negb target stats_target building]. unfold two. rewrite Ha, Hb. rewrite (proj2 (Nat.eqb_neq c d) N). auto. }
  destruct (plain_val R (o := MoveAssign c d) eq_refl Q) as (w' & X & R'). exists w'. split; auto.
  match type of R' with Verif.SimRel.rel _ _ (pair_put _ _ ?x ?y _) =>
    pose proof (pair_put_c x y N Ha Hb) as Hc; pose proof (pair_put_d x y N Ha Hb) as Hd end.
  split; [eapply same_elements_of; eauto; simpl; tauto|].
  split; [eapply same_elements_of; eauto; simpl; tauto|].
  split; [intros t; rewrite (ttl_iff t R' Hc), (ttl_iff t R Hb); simpl; tauto|].
  split; [intros t; rewrite (ttl_iff t R' Hd), (ttl_iff t R Hb); simpl; tauto|].
  split; [eapply keeps_of; eauto|]. split; [eapply keeps_of; eauto|].
  rewrite (rel_stats R'), (rel_log R'), (rel_reads R'), (rel_stats R), (rel_log R), (rel_reads R). auto.
Qed.

(** ** Times of insertion *)

Lemma birth w0 o0 oc0 w1 c0 k v : puts c0 k v o0 -> reachable E w0 -> call E o0 w0 oc0 w1 ->
  absent E k c0 w0 -> present E k c0 w1 -> timed w1 c0 = true ->
  forall ops c w2 d, kept E k c0 w1 ops c w2 -> ttl_of c w2 (Some d) -> born E c w2 k (clock E (w_reads w0)).
Proof.
  intros P H C AB PR TM ops c w2 d KP TO. destruct (reach_rel G H) as (aw & R).
  pose proof (adds_put oc0 P) as AD. pose proof (adds_free AD) as CF.
  destruct (call_any G R CF C) as (ch & oc' & aw1 & R1 & ST & OC).
  assert (oc' = oc0) by (destruct OC as [|(x & ->)]; auto; inversion P). subst oc'. clear OC.
  destruct (present_some G R1 PR) as (a1 & e1 & Ha1 & L1).
  rewrite (timed_rel R1 Ha1) in TM.
  assert (TT : a_ttl a1 <> None) by (destruct (a_ttl a1); easy).
  assert (D : forall d b, slot (aw_caches aw) d = Some b -> dkeys E (a_ents b)) by (intros x b Hb; exact (rel_dkeys R Hb)).
  destruct (step_birth G CF D ST AD (absent_none G R AB) Ha1 L1 TT) as (i0 & B & T0 & PU).
  rewrite (rel_reads R), <- (PU _ _ P), <- T0.
  destruct (kept_time G KP R1 Ha1 L1) as (aw2 & a2 & e2 & R2 & Ha2 & L2 & T2).
  apply (born_iff k _ R2 Ha2). exists e2, d. split; auto. split; auto. apply (ttl_inv R2 Ha2 TO).
Qed.

(** ** Comparison *)

Hypothesis EQ : equality_good E.

Lemma lookup_app_skip k (l1 l2 : list entry) : (forall e, In e l1 -> key_equal E k (e_key e) = false) ->
  lookup_ent E k (l1 ++ l2) = lookup_ent E k l2.
Proof.
  unfold lookup_ent. induction l1 as [|e l1 IH]; simpl; intros H; auto.
  rewrite H by auto. apply IH. auto.
Qed.

Lemma f2_length {A B} (P : A -> B -> Prop) x y : Forall2 P x y -> length x = length y.
Proof. intros F. induction F; simpl; auto. Qed.
Lemma app_split {A} (a a' b b' : list A) : a ++ b = a' ++ b' -> length a = length a' -> a = a' /\ b = b'.
Proof.
  revert a'; induction a as [|x a IH]; intros [|x' a'] Q L; simpl in *; try discriminate; auto.
  inversion Q; subst. destruct (IH a') as (-> & ->); auto.
Qed.
(** With distinct keys, looking up the key of the n-th entry of one list in the
    other finds the n-th entry of the other if the keys agree position by position. *)
Lemma ent_eqs_iff t (x y : list entry) : dkeys E x -> dkeys E y ->
  (ent_eqs E t x y = true <-> Forall2 (fun e e' => ent_eq E t e e' = true) x y).
Proof.
  intros Dx Dy. unfold ent_eqs. rewrite !andb_true_iff, !forallb_forall, Nat.eqb_eq. split.
  - intros ((L & A) & B).
    assert (KA : Forall2 (fun e e' => key_equal E (e_key e) (e_key e') = true) x y).
    { clear A Dx Dy. revert y L B. induction x as [|e x IH]; intros [|e' y] L B; simpl in L; try lia; constructor.
      - rewrite <- (eq_key EQ). apply (B (e, e')). simpl; auto.
      - apply IH; auto. intros p I. apply B. simpl; auto. }
    assert (P : forall x1 x2 y1 y2, x = x1 ++ x2 -> y = y1 ++ y2 -> length x1 = length y1 ->
                Forall2 (fun e e' => ent_eq E t e e' = true) x2 y2).
    { intros x1 x2. revert x1. induction x2 as [|e x2 IH]; intros x1 y1 y2 Qx Qy Ln.
      - subst. rewrite !app_length in L. destruct y2; simpl in L; try lia. constructor.
      - destruct y2 as [|e' y2]; [subst; rewrite !app_length in L; simpl in L; lia|].
        constructor.
        + specialize (A e). rewrite Qx in A at 1. specialize (A (in_elt _ _ _)).
          assert (KK : key_equal E (e_key e) (e_key e') = true).
          { subst x y. apply Forall2_app_inv_l in KA as (u & v & F1 & F2 & Q).
            pose proof (f2_length F1) as Lu. apply app_split in Q as (<- & <-); [|congruence]. inversion F2; auto. }
          assert (LK : lookup_ent E (e_key e) y = Some e').
          { apply (in_lookup G Dy); [subst y; apply in_elt|]. auto. }
          rewrite LK in A. exact A.
        + apply (IH (x1 ++ [e]) (y1 ++ [e'])); rewrite <- ?app_assoc; simpl; auto. rewrite !app_length; simpl; lia. }
    apply (P [] x [] y); auto.
  - intros F. split; [split|].
    + eapply f2_length; eauto.
    + intros e I. apply in_split in I as (x1 & x2 & ->). apply Forall2_app_inv_l in F as (y1 & y2 & F1 & F2 & ->).
      inversion F2 as [|? e' ? y3 Q F3]; subst.
      assert (KK : key_equal E (e_key e) (e_key e') = true).
      { unfold ent_eq in Q. apply andb_prop in Q as (Q & _). apply andb_prop in Q as (Q & _). rewrite <- (eq_key EQ). auto. }
      rewrite (in_lookup G Dy (in_elt _ _ _) KK). auto.
    + intros (e, e') I. clear Dx Dy. induction F as [|p q x y Q F IH]; simpl in I; [easy|].
      destruct I as [I|I]; auto. inversion I; subst. unfold ent_eq in Q. apply andb_prop in Q as (Q & _).
      apply andb_prop in Q as (Q & _). auto.
Qed.

Lemma equal_step w c d aw a b : rel w aw -> same_kind w c d = true ->
  slot (aw_caches aw) c = Some a -> slot (aw_caches aw) d = Some b ->
  exists w', exec E (Equal c d) w = Val (RBool (ent_eqs E (is_timed a) (a_ents a) (a_ents b))) w' /\ rel w' aw.
Proof.
  intros R S Ha Hb. apply (plain_val R); auto. destruct (kinds R S) as (W & _).
  unfold astep. change (a_well_formed aw (Equal c d)) with (a_well_formed aw (Swap c d)). rewrite W.
  cbn [negb target stats_target building]. unfold two. rewrite Ha, Hb. f_equal. f_equal.
  destruct (Nat.eqb_spec c d) as [<-|N]; auto. simpl. rewrite Ha in Hb; inversion Hb; subst b.
  symmetry. destruct (awf_rel R Ha) as (_ & D). apply ent_eqs_iff; auto.
  clear - G EQ. induction (a_ents a) as [|e l IH]; constructor; auto.
  unfold ent_eq. rewrite (eq_key EQ), (good_refl G), (eq_refl_v EQ), Z.eqb_refl. simpl. apply orb_true_r.
Qed.

Lemma Forall2_iff {A B} (P Q : A -> B -> Prop) x y : (forall p q, In p x -> In q y -> (P p q <-> Q p q)) ->
  (Forall2 P x y <-> Forall2 Q x y).
Proof.
  intros H. split; intros F.
  - induction F; constructor; [apply H; simpl; auto|apply IHF; intros; apply H; simpl; auto].
  - induction F; constructor; [apply H; simpl; auto|apply IHF; intros; apply H; simpl; auto].
Qed.
Lemma Forall2_mp (P : (K * V) -> (K * V) -> Prop) (x y : list entry) :
  Forall2 P (mp x) (mp y) <-> Forall2 (fun e e' => P (pair_of e) (pair_of e')) x y.
Proof.
  split.
  - revert y; induction x as [|e x IH]; intros [|e' y] F; inversion F; subst; constructor; auto.
  - intros F; induction F; simpl; constructor; auto.
Qed.

Lemma equal_untimed w c d l m : reachable E w -> same_kind w c d = true -> timed w c = false ->
  contents E c w l -> contents E d w m ->
  exists b w', exec E (Equal c d) w = Val (RBool b) w' /\ (b = true <-> Forall2 (equal_pair E) l m).
Proof.
  intros H S T C D. destruct (reach_rel G H) as (aw & R).
  destruct (contents_inv G R C) as (a & Ha & ->), (contents_inv G R D) as (b & Hb & ->).
  destruct (equal_step R S Ha Hb) as (w' & X & _). eexists _, w'. split; [exact X|].
  rewrite ent_eqs_iff by (eapply rel_dkeys; eauto). rewrite Forall2_mp. apply Forall2_iff. intros e e' _ _.
  unfold equal_pair, ent_eq. rewrite (rel_timed _ R) in T. unfold a_timed in T. rewrite Ha in T.
  replace (is_timed a) with false by (unfold is_timed; destruct (a_ttl a); auto; discriminate).
  simpl. rewrite andb_true_r, andb_true_iff. tauto.
Qed.

Lemma equal_timed w c d l m : reachable E w -> same_kind w c d = true -> timed w c = true ->
  contents E c w l -> contents E d w m ->
  exists b w', exec E (Equal c d) w = Val (RBool b) w' /\ (b = true <-> Forall2 (equal_times E c d w) l m).
Proof.
  intros H S T C D. destruct (reach_rel G H) as (aw & R).
  destruct (contents_inv G R C) as (a & Ha & ->), (contents_inv G R D) as (b & Hb & ->).
  destruct (equal_step R S Ha Hb) as (w' & X & _). eexists _, w'. split; [exact X|].
  pose proof (rel_dkeys R Ha) as Da. pose proof (rel_dkeys R Hb) as Db.
  rewrite ent_eqs_iff by auto. rewrite Forall2_mp. apply Forall2_iff. intros e e' I I'.
  destruct (kinds R S) as (_ & a' & b' & Ha' & Hb' & TT). rewrite Ha in Ha'; rewrite Hb in Hb'. inversion Ha'; inversion Hb'; subst a' b'.
  rewrite (rel_timed _ R) in T. unfold a_timed in T. rewrite Ha in T.
  destruct (a_ttl a) as [ta|] eqn:Ta; [|discriminate].
  destruct (a_ttl b) as [tb|] eqn:Tb; [|assert (Some ta = None) by (apply TT; auto); discriminate].
  unfold equal_times, equal_pair, ent_eq, is_timed. rewrite Ta. simpl. rewrite !andb_true_iff, Z.eqb_eq.
  assert (La : lookup_ent E (e_key e) (a_ents a) = Some e) by (apply (in_lookup G Da I); apply (good_refl G)).
  assert (Lb : lookup_ent E (e_key e') (a_ents b) = Some e') by (apply (in_lookup G Db I'); apply (good_refl G)).
  assert (BA : forall t, born E c w (e_key e) t <-> e_time e = t).
  { intros t. rewrite (born_iff _ t R Ha). split; [intros (x & y & L & _ & <-); congruence|intros <-; eauto]. }
  assert (BB : forall t, born E d w (e_key e') t <-> e_time e' = t).
  { intros t. rewrite (born_iff _ t R Hb). split; [intros (x & y & L & _ & <-); congruence|intros <-; eauto]. }
  split.
  - intros ((A1 & A2) & A3). split; auto. intros t. rewrite BA, BB, A3. tauto.
  - intros ((A1 & A2) & A3). split; auto. symmetry. apply BB, A3, BA. auto.
Qed.

Lemma ent_eqs_sym t (x y : list entry) : dkeys E x -> dkeys E y -> ent_eqs E t x y = true -> ent_eqs E t y x = true.
Proof.
  intros Dx Dy. rewrite !ent_eqs_iff by auto. intros F. induction F as [|e e' x y Q F IH]; constructor; auto.
  - unfold ent_eq in *. rewrite (eq_key EQ) in *. rewrite (good_sym G), (eq_sym_v EQ), Z.eqb_sym. auto.
  - destruct Dx as (_ & Dx), Dy as (_ & Dy). auto.
Qed.

Lemma equal_refl w c : reachable E w -> alive w c = true -> exists w', exec E (Equal c c) w = Val (RBool true) w'.
Proof.
  intros H A. destruct (reach_rel G H) as (aw & R). destruct (alive_inv R A) as (a & Ha).
  destruct (@plain_val (Equal c c) w aw (RBool true) aw R) as (w' & X & _); eauto.
  unfold astep. simpl. unfold a_alive. rewrite Ha, eqb_reflx. simpl. unfold two. rewrite Ha, Nat.eqb_refl. auto.
Qed.
Lemma equal_sym w c d w' : reachable E w -> exec E (Equal c d) w = Val (RBool true) w' ->
  exists w'', exec E (Equal d c) w = Val (RBool true) w''.
Proof.
  intros H X. destruct (reach_rel G H) as (aw & R).
  assert (S : same_kind w c d = true). { unfold exec in X. simpl in X. destruct (same_kind w c d); auto. discriminate. }
  assert (S' : same_kind w d c = true).
  { unfold same_kind in *. apply andb_prop in S as (S1 & S2). apply andb_prop in S1 as (S1 & S3). rewrite S1, S3. simpl.
    apply eqb_prop in S2. rewrite S2. apply eqb_reflx. }
  destruct (kinds R S) as (_ & a & b & Ha & Hb & T).
  destruct (equal_step R S Ha Hb) as (w1 & X1 & _), (equal_step R S' Hb Ha) as (w2 & X2 & _).
  exists w2. rewrite X2. f_equal. f_equal. rewrite X in X1. inversion X1 as [Q]. symmetry in Q.
  replace (is_timed b) with (is_timed a).
  - apply ent_eqs_sym; auto; eapply rel_dkeys; eauto.
  - unfold is_timed. destruct (a_ttl a) eqn:Ta, (a_ttl b) eqn:Tb; auto; exfalso;
      assert (Some z = None) by (apply T; auto); discriminate.
Qed.
Lemma equal_trans w c d (e : nat) w1 w2 : reachable E w -> exec E (Equal c d) w = Val (RBool true) w1 ->
  exec E (Equal d e) w = Val (RBool true) w2 -> exists w3, exec E (Equal c e) w = Val (RBool true) w3.
Proof.
  intros H X Y. destruct (reach_rel G H) as (aw & R).
  assert (S : same_kind w c d = true). { unfold exec in X. simpl in X. destruct (same_kind w c d); auto. discriminate. }
  assert (S' : same_kind w d e = true). { unfold exec in Y. simpl in Y. destruct (same_kind w d e); auto. discriminate. }
  assert (S'' : same_kind w c e = true).
  { unfold same_kind in *. apply andb_prop in S as (S1 & S2). apply andb_prop in S1 as (S1 & S3).
    apply andb_prop in S' as (U1 & U2). apply andb_prop in U1 as (U1 & U3). rewrite S1, U3. simpl.
    apply eqb_prop in S2. apply eqb_prop in U2. rewrite S2, U2. apply eqb_reflx. }
  destruct (kinds R S) as (_ & a & b & Ha & Hb & T). destruct (kinds R S') as (_ & b' & x & Hb' & Hx & T').
  rewrite Hb in Hb'. inversion Hb'; subst b'.
  destruct (equal_step R S Ha Hb) as (v1 & X1 & _), (equal_step R S' Hb Hx) as (v2 & X2 & _), (equal_step R S'' Ha Hx) as (v3 & X3 & _).
  exists v3. rewrite X3. f_equal. f_equal. rewrite X in X1; rewrite Y in X2. inversion X1 as [Q]; inversion X2 as [Q']. symmetry in Q, Q'.
  replace (is_timed b) with (is_timed a) in Q'
    by (unfold is_timed; destruct (a_ttl a) eqn:Ta, (a_ttl b) eqn:Tb; auto; exfalso;
      assert (Some z = None) by (apply T; auto); discriminate).
  pose proof (rel_dkeys R Ha) as Da. pose proof (rel_dkeys R Hb) as Db. pose proof (rel_dkeys R Hx) as Dx.
  apply ent_eqs_iff in Q, Q'; auto. apply ent_eqs_iff; auto.
  clear - Q Q' EQ G. revert Q'. generalize (a_ents x). induction Q as [|p q l m Pq F IH]; intros n Q'; inversion Q'; subst; constructor; auto.
  unfold ent_eq in *. rewrite (eq_key EQ) in *.
  apply andb_prop in Pq as (P1 & P2). apply andb_prop in P1 as (P1 & P3).
  apply andb_prop in H1 as (R1 & R2). apply andb_prop in R1 as (R1 & R3).
  rewrite (good_trans G _ _ _ P1 R1), (eq_trans_v EQ _ _ _ P3 R3). simpl.
  destruct (is_timed a); auto. simpl in *. apply Z.eqb_eq in P2, R2. apply Z.eqb_eq. congruence.
Qed.

End Pair.
