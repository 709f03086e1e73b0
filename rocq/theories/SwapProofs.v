(** std::swap of two caches (C78). *)
From Coq Require Import List Arith ZArith Bool Permutation Lia.
Import ListNotations.
From Verif Require Import Monad Types Model Api Spec SpecTimed SpecPair Ref Lists SimBase SimRel SimOps SimNew SimObs SimExec RefEval SimRun LruProofs CallProofs LruMore Flat Global Safe Frame Settings PairProofs Refs SpecRefs.
Set Implicit Arguments.
Unset Strict Implicit.
Local Open Scope cpp_scope.

Section SwapProofs.
Context {K V : Type}.
Variable E : env K V.
Hypothesis G : good E.
Variables (husk : V -> V) (khusk : K -> K).
Notation world := (world K V).
Notation acache := (acache K V).
Notation aworld := (aworld K V).
Notation rel := (rel E).
Notation rexec := (rexec E husk khusk).
Implicit Types (w : world) (aw : aworld) (a : acache) (o : op K V).

Lemma move_step w aw c a n : rel w aw -> slot (aw_caches aw) c = Some a -> junk E = Some n ->
  exists w', exec E (Move c) w = Val (RNat (length (aw_caches aw))) w' /\
    rel w' (anew (take_from a (fresh_a 0 (a_ttl a))) 0 (awith c (take_from (fresh_a n None) a) aw)).
Proof.
  intros R Ha J. apply (plain_val G R (o := Move c) eq_refl).
  unfold astep. simpl. unfold a_alive. rewrite Ha. simpl. unfold two. rewrite Ha, J. auto.
Qed.
Lemma assign_step w aw c d a b : rel w aw -> c <> d -> slot (aw_caches aw) c = Some a -> slot (aw_caches aw) d = Some b ->
  a_ttl a = None -> a_ttl b = None ->
  exists w', exec E (MoveAssign c d) w = Val RUnit w' /\ rel w' (pair_put c d (take_from b a) (take_from a b) aw).
Proof.
  intros R N Ha Hb Ta Tb. apply (plain_val G R (o := MoveAssign c d) eq_refl).
  unfold astep. simpl. unfold a_alive, a_timed. rewrite Ha, Hb, Ta, Tb. simpl. unfold two. rewrite Ha, Hb.
  rewrite (proj2 (Nat.eqb_neq c d) N). do 2 f_equal. destruct a, b; simpl in *; subst; reflexivity.
Qed.
Lemma destroy_step w aw c a : rel w aw -> slot (aw_caches aw) c = Some a ->
  exists w', exec E (Destroy c) w = Val RUnit w' /\
    rel w' (MkAW (upd (aw_caches aw) c None) (aw_stats aw) (aw_log aw) (aw_reads aw)).
Proof.
  intros R Ha. apply (plain_val G R (o := Destroy c) eq_refl).
  unfold astep. simpl. unfold a_alive. rewrite Ha. reflexivity.
Qed.

Lemma pair_put_other c d e (x y : acache) aw : e <> c -> e <> d -> slot (aw_caches (pair_put c d x y aw)) e = slot (aw_caches aw) e.
Proof. intros. unfold pair_put; simpl. rewrite !slot_upd_other by auto. auto. Qed.

(** The four steps of std::swap as calls. *)
Lemma std_swap_calls w c d t w1 w2 w3 w4 : rwell_formed w (PSwap c d : rcall K V) = true ->
  exec E (Move c) w = Val (RNat t) w1 -> exec E (MoveAssign c d) w1 = Val RUnit w2 ->
  exec E (MoveAssign d t) w2 = Val RUnit w3 -> exec E (Destroy t) w3 = Val RUnit w4 ->
  rexec (PSwap c d) w = Val RUnit w4.
Proof.
  intros W X1 X2 X3 X4. unfold Refs.rexec. rewrite W. cbn [rbody]. unfold std_swap, exec in *.
  destruct (well_formed w (Move c)) ; [|discriminate]. destruct (well_formed w1 (MoveAssign c d)) ; [|discriminate].
  destruct (well_formed w2 (MoveAssign d t)) ; [|discriminate]. destruct (well_formed w3 (Destroy t)) ; [|discriminate].
  cbn [body] in *. unfold bind in *.
  destruct (move_new E c w) as [t' ?| | |]; try discriminate. inversion X1; subst.
  destruct (move_assign c d w1); try discriminate. inversion X2; subst.
  destruct (move_assign d t w2); try discriminate. inversion X3; subst.
  destruct (destroy t w3); try discriminate. inversion X4; subst. reflexivity.
Qed.

Theorem std_swap_result w c d n : reachable E w -> alive w c = true -> alive w d = true ->
  timed w c = false -> timed w d = false -> junk E = Some n ->
  exists w', rexec (PSwap c d) w = Val RUnit w' /\ reachable E w' /\
    same_elements E c w' d w /\ same_elements E d w' c w /\ keeps_books c w w' /\ keeps_books d w w' /\
    (forall e, alive w e = true -> e <> c -> e <> d -> same_elements E e w' e w /\ keeps_books e w w') /\
    w_stats w' = w_stats w /\ w_log w' = w_log w /\ w_reads w' = w_reads w.
Proof.
  intros H Ac Ad Tc Td J. destruct (reach_rel G H) as (aw & R).
  destruct (alive_inv R Ac) as (a & Ha). destruct (alive_inv R Ad) as (b & Hb).
  assert (Ta : a_ttl a = None) by (apply (untimed_inv R Ha Tc)).
  assert (Tb : a_ttl b = None) by (apply (untimed_inv R Hb Td)).
  assert (W : rwell_formed w (PSwap c d : rcall K V) = true) by (simpl; rewrite Ac, Ad, Tc, Td; auto).
  set (t := length (aw_caches aw)). pose proof (slot_lt _ _ Ha) as Lc. pose proof (slot_lt _ _ Hb) as Ld.
  destruct (move_step R Ha J) as (w1 & X1 & R1). fold t in X1.
  set (a1 := take_from (fresh_a n None) a) in *. set (t1 := take_from a (fresh_a 0 (a_ttl a))) in *.
  set (aw1 := anew t1 0 (awith c a1 aw)) in *.
  assert (L1 : length (upd (aw_caches aw) c (Some a1)) = t) by (rewrite upd_length; auto).
  assert (S1t : slot (aw_caches aw1) t = Some t1).
  { unfold aw1, anew; simpl. rewrite <- L1. apply slot_app_new. }
  assert (S1 : forall e, e < t -> slot (aw_caches aw1) e = slot (upd (aw_caches aw) c (Some a1)) e).
  { intros e L. unfold aw1, anew; simpl. rewrite slot_app_lt by (rewrite L1; auto). auto. }
  assert (S1c : slot (aw_caches aw1) c = Some a1) by (rewrite S1 by auto; erewrite slot_upd_same; eauto).
  pose proof (reachable_step H (o := Move c) eq_refl X1) as H1.
  destruct (Nat.eq_dec c d) as [<-|N].
  - (* one cache *)
    rewrite Ha in Hb. inversion Hb; subst b. clear Hb.
    assert (K1 : alive w1 c = true) by (rewrite (rel_alive _ R1); unfold a_alive; rewrite S1c; auto).
    assert (X2 : exec E (MoveAssign c c) w1 = Val RUnit w1) by (apply move_assign_self; auto).
    assert (Nt : c <> t) by lia.
    destruct (assign_step R1 Nt S1c S1t) as (w3 & X3 & R3); [simpl; auto|simpl; auto|].
    set (aw3 := pair_put c t _ _ aw1) in *.
    destruct (destroy_step R3 (pair_put_d _ _ Nt S1c S1t)) as (w4 & X4 & R4).
    exists w4. split; [eapply std_swap_calls; eauto|].
    pose proof (reachable_step H1 (o := MoveAssign c t) eq_refl X3) as H3.
    pose proof (reachable_step H3 (o := Destroy t) eq_refl X4) as H4. split; auto.
    assert (Sc : slot (upd (aw_caches aw3) t None) c = Some (take_from t1 a1)).
    { rewrite slot_upd_other by auto. apply (pair_put_c _ _ Nt S1c S1t). }
    split; [eapply same_elements_of; eauto; simpl; tauto|].
    split; [eapply same_elements_of; eauto; simpl; tauto|].
    split; [eapply keeps_of; eauto|]. split; [eapply keeps_of; eauto|].
    split; [|rewrite (rel_stats R4), (rel_log R4), (rel_reads R4), (rel_stats R), (rel_log R), (rel_reads R); auto].
    intros e Ae N1 _. destruct (alive_inv R Ae) as (x & Hx). pose proof (slot_lt _ _ Hx) as Le.
    assert (Se : slot (upd (aw_caches aw3) t None) e = Some x).
    { unfold t in *. rewrite slot_upd_other by lia. unfold aw3, pair_put; simpl. rewrite !slot_upd_other by lia.
      rewrite S1 by auto. rewrite slot_upd_other by auto. auto. }
    split; [eapply same_elements_of; eauto; simpl; tauto|eapply keeps_of; eauto].
  - assert (S1d : slot (aw_caches aw1) d = Some b) by (rewrite S1 by auto; rewrite slot_upd_other; auto).
    destruct (assign_step R1 N S1c S1d) as (w2 & X2 & R2); [simpl; auto|auto|].
    pose proof (pair_put_c (take_from b a1) (take_from a1 b) N S1c S1d) as S2c.
    pose proof (pair_put_d (take_from b a1) (take_from a1 b) N S1c S1d) as S2d.
    set (aw2 := pair_put c d _ _ aw1) in *.
    assert (S2t : slot (aw_caches aw2) t = Some t1).
    { unfold t, aw2, pair_put in *; simpl. rewrite !slot_upd_other by lia. auto. }
    assert (Nt : d <> t) by (unfold t; lia).
    destruct (assign_step R2 Nt S2d S2t) as (w3 & X3 & R3); [simpl; auto|simpl; auto|].
    pose proof (pair_put_c (take_from t1 (take_from a1 b)) (take_from (take_from a1 b) t1) Nt S2d S2t) as S3d.
    pose proof (pair_put_d (take_from t1 (take_from a1 b)) (take_from (take_from a1 b) t1) Nt S2d S2t) as S3t.
    set (aw3 := pair_put d t _ _ aw2) in *.
    destruct (destroy_step R3 S3t) as (w4 & X4 & R4).
    exists w4. split; [eapply std_swap_calls; eauto|].
    pose proof (reachable_step H1 (o := MoveAssign c d) eq_refl X2) as H2.
    pose proof (reachable_step H2 (o := MoveAssign d t) eq_refl X3) as H3.
    pose proof (reachable_step H3 (o := Destroy t) eq_refl X4) as H4. split; auto.
    assert (Sd : slot (upd (aw_caches aw3) t None) d = Some (take_from t1 (take_from a1 b))).
    { rewrite slot_upd_other by auto. auto. }
    assert (Sc : slot (upd (aw_caches aw3) t None) c = Some (take_from b a1)).
    { assert (Ct : c <> t) by (unfold t; lia). rewrite slot_upd_other by auto. unfold aw3.
      rewrite pair_put_other by auto. exact S2c. }
    split; [eapply same_elements_of; eauto; simpl; tauto|].
    split; [eapply same_elements_of; eauto; simpl; tauto|].
    split; [eapply keeps_of; eauto|]. split; [eapply keeps_of; eauto|].
    split; [|rewrite (rel_stats R4), (rel_log R4), (rel_reads R4), (rel_stats R), (rel_log R), (rel_reads R); auto].
    intros e Ae N1 N2. destruct (alive_inv R Ae) as (x & Hx). pose proof (slot_lt _ _ Hx) as Le.
    assert (Se : slot (upd (aw_caches aw3) t None) e = Some x).
    { assert (Et : e <> t) by (unfold t; lia). rewrite slot_upd_other by auto. unfold aw3.
      rewrite pair_put_other by auto. unfold aw2. rewrite pair_put_other by auto.
      rewrite S1 by auto. rewrite slot_upd_other by auto. auto. }
    split; [eapply same_elements_of; eauto; simpl; tauto|eapply keeps_of; eauto].
Qed.

Theorem std_swap_undefined w c d : alive w c = true -> alive w d = true ->
  timed w c = false -> timed w d = false -> junk E = None -> rexec (PSwap c d) w = Undef Indeterminate.
Proof.
  intros Ac Ad Tc Td J. unfold Refs.rexec. simpl. rewrite Ac, Ad, Tc, Td. simpl.
  unfold std_swap, move_new, bind, get_cache. unfold alive in Ac. destruct (slot (w_caches w) c); [|discriminate].
  rewrite J. reflexivity.
Qed.
End SwapProofs.
