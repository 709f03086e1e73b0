(** Monitoring, statistics and callbacks, continued: the properties. *)
From Coq Require Import List Arith ZArith Bool Permutation Lia.
Import ListNotations.
From Verif Require Import Monad Types Model Api Spec SpecStats Ref Lists SimBase SimRel SimOps SimIns SimErase SimIter SimNew SimObs SimExec RefEval SimRun LruProofs CallProofs LruMore Flat Global Safe Frame StatProofs.
Set Implicit Arguments.
Unset Strict Implicit.
Local Open Scope cpp_scope.

Section More.
Context {K V : Type}.
Variable E : env K V.
Hypothesis G : good E.

Notation acache := (acache K V).
Notation aworld := (aworld K V).
Notation world := (world K V).
Implicit Types (a : acache) (aw : aworld) (w : world) (o : op K V) (L : @ledger K).

Lemma stats_ev w aw c a : rel E w aw -> slot (aw_caches aw) c = Some a ->
  stats c w = match a_stats a with Some s => Val s w | None => Exc NotMonitoring w end.
Proof.
  intros R Ha. destruct (rel_get _ R Ha) as (x & s & l & At & Rp).
  unfold stats, bind. erewrite get_cache_ev by (apply At). rewrite (rp_stats Rp). destruct (a_stats a); auto.
Qed.
Lemma get_stats_ev w aw s : rel E w aw ->
  get_stats s w = match slot (aw_stats aw) s with Some x => Val x w | None => Undef NullPointer end.
Proof. intros R. unfold get_stats. rewrite (rel_stats R). auto. Qed.

Definition reading o : bool :=
  match o with Totals _ | StatsFor _ _ | StatsIsMonitoring _ _ | StatsNumber _ => true | _ => false end.
Lemma reading_ev o w aw c a : rel E w aw -> slot (aw_caches aw) c = Some a -> stats_target o = Some c ->
  reading o = true ->
  exec E o w = match a_stats a with
               | None => Exc NotMonitoring w
               | Some s => match slot (aw_stats aw) s with
                           | None => Undef NullPointer
                           | Some x => match fst (on_stats E o x) with
                                       | Val r _ => Val r w | Exc e _ => Exc e w | Undef u => Undef u | Term e => Term e end
                           end
               end.
Proof.
  intros R Ha ST RD. rewrite (exec_wf _ R).
  assert (A : a_alive aw c = true) by (eapply slot_alive; eauto).
  destruct o; inversion ST; subst; try discriminate; simpl a_well_formed; rewrite A; cbn [body];
    unfold bind; rewrite (stats_ev R Ha); destruct (a_stats a) as [s|]; auto;
    rewrite (get_stats_ev s R); destruct (slot (aw_stats aw) s) as [y|]; auto.
  simpl. destruct (stats_for E y k); auto.
Qed.
Lemma monitoring_ev w aw c a : rel E w aw -> slot (aw_caches aw) c = Some a ->
  exec E (IsMonitoring c) w = Val (RBool (match a_stats a with Some _ => true | None => false end)) w.
Proof.
  intros R Ha. rewrite (exec_wf _ R). simpl. rewrite (slot_alive Ha).
  destruct (rel_get _ R Ha) as (x & s & l & At & Rp).
  unfold is_monitoring, bind. erewrite get_cache_ev by (apply At). rewrite (rp_stats Rp).
  destruct (a_stats a); auto.
Qed.

(** Histories. *)
Section Hist.
Variables (ops : list (op K V)) (outs : list (outcome K V)) (w : world).
Hypothesis CF : forallb copy_free ops = true.
Hypothesis RN : run E ops init_world = Finished outs w.
Let L := ledger_of ops outs.

Lemma totals c : eqop_good E -> countable ops -> alive w c = true ->
  exec E (Totals c) w =
    match attached L c with
    | None => Exc NotMonitoring w
    | Some s => Val (RTotals (size_t (Z.of_nat (n_accesses (books L s))))
                             (size_t (Z.of_nat (n_hits (books L s))))
                             (size_t (Z.of_nat (n_misses (books L s))))) w
    end.
Proof.
  intros Q D A. destruct (ledger_holds G CF RN) as (aw & R & I & B). specialize (B Q D).
  destruct (alive_inv R A) as (a & Ha). destruct (proj1 I _ _ Ha) as (As & _). fold L in As, B.
  erewrite reading_ev by (eauto; reflexivity). rewrite As.
  destruct (a_stats a) as [s|] eqn:Ss; auto.
  pose proof (rel_st R Ha Ss) as Hs. destruct (slot (aw_stats aw) s) as [x|] eqn:Hx; [|congruence].
  specialize (B _ _ Hx). simpl. rewrite (misses_diff B). unfold total_accesses, total_hits.
  rewrite (m_acc B), (m_hits B). reflexivity.
Qed.

Lemma stats_for_key c k : eqop_good E -> countable ops -> alive w c = true ->
  exec E (StatsFor c k) w =
    match attached L c with
    | None => Exc NotMonitoring w
    | Some s => match key_count E k (books L s) with
                | None => Exc UnmonitoredKey w
                | Some (h, m) => Val (RKeyStats (size_t (Z.of_nat h)) (size_t (Z.of_nat m))
                                                (size_t (Z.of_nat (h + m)))) w
                end
    end.
Proof.
  intros Q D A. destruct (ledger_holds G CF RN) as (aw & R & I & B). specialize (B Q D).
  destruct (alive_inv R A) as (a & Ha). destruct (proj1 I _ _ Ha) as (As & _). fold L in As, B.
  erewrite reading_ev by (eauto; reflexivity). rewrite As.
  destruct (a_stats a) as [s|] eqn:Ss; auto.
  pose proof (rel_st R Ha Ss) as Hs. destruct (slot (aw_stats aw) s) as [x|] eqn:Hx; [|congruence].
  specialize (B _ _ Hx). simpl. unfold stats_for. rewrite (m_keys B).
  destruct (key_count E k (books L s)) as [(h & m)|]; simpl; auto. rewrite accesses_sum. reflexivity.
Qed.

Lemma stats_monitoring c k : eqop_good E -> countable ops -> alive w c = true ->
  exec E (StatsIsMonitoring c k) w =
    match attached L c with
    | None => Exc NotMonitoring w
    | Some s => Val (RBool (match key_count E k (books L s) with Some _ => true | None => false end)) w
    end.
Proof.
  intros Q D A. destruct (ledger_holds G CF RN) as (aw & R & I & B). specialize (B Q D).
  destruct (alive_inv R A) as (a & Ha). destruct (proj1 I _ _ Ha) as (As & _). fold L in As, B.
  erewrite reading_ev by (eauto; reflexivity). rewrite As.
  destruct (a_stats a) as [s|] eqn:Ss; auto.
  pose proof (rel_st R Ha Ss) as Hs. destruct (slot (aw_stats aw) s) as [x|] eqn:Hx; [|congruence].
  specialize (B _ _ Hx). simpl. unfold stats_is_monitoring. rewrite (m_keys B).
  destruct (key_count E k (books L s)); auto.
Qed.

Lemma ukeys_unique l : ukeys E l -> unique_keys E (map fst l).
Proof.
  induction l as [|p l IH]; simpl; auto. intros (A & B). split; auto.
  intros k' I. apply in_map_iff in I as (q & <- & I). auto.
Qed.
Lemma stats_number c : eqop_good E -> countable ops -> alive w c = true ->
  match attached L c with
  | None => exec E (StatsNumber c) w = Exc NotMonitoring w
  | Some s => exists ks, exec E (StatsNumber c) w = Val (RNat (length ks)) w /\ unique_keys E ks /\
                forall k, key_count E k (books L s) <> None <-> exists k', In k' ks /\ key_eqop E k k' = true
  end.
Proof.
  intros Q D A. destruct (ledger_holds G CF RN) as (aw & R & I & B). specialize (B Q D).
  destruct (alive_inv R A) as (a & Ha). destruct (proj1 I _ _ Ha) as (As & _). fold L in As, B.
  erewrite reading_ev by (eauto; reflexivity). rewrite As.
  destruct (a_stats a) as [s|] eqn:Ss; auto.
  pose proof (rel_st R Ha Ss) as Hs. destruct (slot (aw_stats aw) s) as [x|] eqn:Hx; [|congruence].
  specialize (B _ _ Hx). exists (map fst (st_keys x)). simpl. unfold number_of_monitored_keys.
  rewrite map_length. split; auto. split; [apply ukeys_unique; apply B|].
  intros k. pose proof (m_keys B k) as M. split.
  - intros H. destruct (key_count E k (books L s)) as [h|]; [|congruence]. simpl in M.
    apply find_in in M as (k' & I' & Q'). exists k'. split; auto. apply (in_map fst) in I'. auto.
  - intros (k' & I' & Q') H. rewrite H in M. simpl in M. rewrite find_none in M.
    apply in_map_iff in I' as (p & <- & I'). rewrite M in Q' by auto. discriminate.
Qed.

Lemma monitored c : alive w c = true ->
  exec E (IsMonitoring c) w = Val (RBool (match attached L c with Some _ => true | None => false end)) w.
Proof.
  intros A. destruct (ledger_holds G CF RN) as (aw & R & I & _).
  destruct (alive_inv R A) as (a & Ha). destruct (proj1 I _ _ Ha) as (As & _). fold L in As.
  rewrite (monitoring_ev R Ha), As. auto.
Qed.

Lemma stats_access_thrown o c : alive w c = true -> uses_stats o = Some c -> attached L c = None ->
  exec E o w = Exc NotMonitoring w.
Proof.
  intros A U N. destruct (ledger_holds G CF RN) as (aw & R & I & _).
  destruct (alive_inv R A) as (a & Ha). destruct (proj1 I _ _ Ha) as (As & _). fold L in As.
  rewrite N in As. rewrite (exec_wf _ R).
  assert (AL : a_alive aw c = true) by (eapply slot_alive; eauto).
  destruct o; inversion U; subst; simpl a_well_formed; rewrite AL; cbn [body]; unfold stats_update_or, bind;
    rewrite (stats_ev R Ha), <- As; auto.
Qed.
Lemma stats_access_not_thrown o c w' : alive w c = true -> uses_stats o = Some c ->
  exec E o w = Exc NotMonitoring w' -> attached L c = None.
Proof.
  intros A U N. destruct (ledger_holds G CF RN) as (aw & R & I & _).
  destruct (alive_inv R A) as (a & Ha). destruct (proj1 I _ _ Ha) as (As & _). fold L in As.
  rewrite As. destruct (a_stats a) as [s|] eqn:Ss; auto. exfalso.
  rewrite (exec_wf _ R) in N.
  assert (AL : a_alive aw c = true) by (eapply slot_alive; eauto).
  pose proof (rel_st R Ha Ss) as Hs.
  destruct o; inversion U; subst; simpl a_well_formed in N; rewrite AL in N; cbn [body] in N; unfold stats_update_or, bind in N;
    rewrite (stats_ev R Ha), Ss, (get_stats_ev s R) in N; destruct (slot (aw_stats aw) s) as [x|]; try congruence;
    try discriminate N.
  - destruct (stats_for E x k); discriminate N.
  - destruct (stats_unmonitor E k x); discriminate N.
  - destruct (stats_reset_key E k x); discriminate N.
Qed.

End Hist.

(** ** One access *)
Lemma asks_spec o c k : asks o = Some (c, k) -> target o = Some c /\ plain o = true /\
  (forall aw, a_well_formed aw o = a_alive aw c).
Proof. destruct o; intros H; inversion H; subst; auto. Qed.

Lemma call_step o w aw oc w' : rel E w aw -> plain o = true -> call E o w oc w' ->
  exists aw', outcome_in (astep E 0 o aw) = Some oc /\ rel E w' aw' /\
    match astep E 0 o aw with Val _ w | Exc _ w => w = aw' | _ => False end.
Proof.
  intros R P C. pose proof (plain_step G R P) as S. unfold call in C.
  destruct oc; rewrite C in S; destruct (astep E 0 o aw); simpl in S; try easy; destruct S; subst; eauto.
Qed.
Lemma call_local o c a w aw oc w' : rel E w aw -> plain o = true -> target o = Some c ->
  slot (aw_caches aw) c = Some a -> a_well_formed aw o = true -> call E o w oc w' ->
  exists a' x m, outcome_in (fst (fst (fst (local E 0 o a (aw_reads aw))))) = Some oc /\
    snd (fst (fst (local E 0 o a (aw_reads aw)))) = a' /\ snd (fst (local E 0 o a (aw_reads aw))) = x /\
    rel E w' (awith c a' (noted E a x (ticks m aw))).
Proof.
  intros R P T Ha WF C. destruct (call_step R P C) as (aw' & O & R' & X).
  revert O X. unfold astep. rewrite WF, T. unfold two. rewrite Ha. cbn [negb].
  destruct (local E 0 o a (aw_reads aw)) as (((r & a') & x) & m). simpl. intros O X.
  exists a', x, m. destruct r; simpl in *; try easy; subst; auto.
Qed.

Lemma access_happens w c k o oc w' l : reachable E w -> timed w c = false -> asks o = Some (c, k) ->
  call E o w oc w' -> contents E c w l -> access_of o oc = Some (c, k, has E k l).
Proof.
  intros H T A C CT. destruct (open_cache G H CT) as (aw & a & R & Ha & ->).
  destruct (asks_spec A) as (TG & P & WF).
  assert (WF' : a_well_formed aw o = true) by (rewrite WF; eapply slot_alive; eauto).
  destruct (call_local R P TG Ha WF' C) as (a' & x & m & O & _ & _ & R').
  pose proof (untimed_inv R Ha T) as U. pose proof (rel_cinv R Ha) as Ci. rewrite has_map.
  assert (HOT : forall e, a_hot_ent E a k = Some e -> lookup_ent E k (a_ents a) = Some e)
    by (intros; eapply hot_lookup; eauto).
  revert O. destruct o; inversion A; subst; cbn [local].
  - unfold l_find. rewrite U. destruct (lookup_ent E k (a_ents a)); simpl; intros O; inversion O; subst; reflexivity.
  - rewrite U. destruct (lookup_ent E k (a_ents a)); simpl; [intros O; inversion O; subst; reflexivity|].
    destruct (lenient_end E); intros O; inversion O; subst; reflexivity.
  - unfold l_contains. rewrite U. destruct (a_hot_ent E a k); [rewrite (HOT _ eq_refl)|destruct (lookup_ent E k (a_ents a))];
      simpl; intros O; inversion O; subst; reflexivity.
  - unfold l_lookup. rewrite U. destruct (a_hot_ent E a k); [rewrite (HOT _ eq_refl)|destruct (lookup_ent E k (a_ents a))];
      simpl; intros O; inversion O; subst; reflexivity.
  - unfold l_lookup. rewrite U. destruct (a_hot_ent E a k); [rewrite (HOT _ eq_refl)|destruct (lookup_ent E k (a_ents a))];
      simpl; intros O; inversion O; subst; reflexivity.
  - unfold l_find. rewrite U. destruct (lookup_ent E k (a_ents a)); simpl; intros O; inversion O; subst; reflexivity.
Qed.

Lemma access_asks o oc c k hit : access_of o oc = Some (c, k, hit) -> asks o = Some (c, k).
Proof. destruct o; simpl; try discriminate; destruct oc as [r|[]]; try discriminate; try (intros H; inversion H; subst; auto; fail); destruct r as [ | |[]| | | | |[]| | | | ]; intros H; inversion H; subst; auto. Qed.
Lemma access_alive o oc c k hit w w' : access_of o oc = Some (c, k, hit) -> call E o w oc w' -> alive w c = true.
Proof.
  intros A C. pose proof (access_asks A) as AS. destruct (alive w c) eqn:AL; auto. exfalso.
  assert (X : exec E o w = Val RIll w).
  { unfold exec. destruct o; inversion AS; subst; simpl; rewrite AL; auto. }
  unfold call in C. destruct oc; rewrite X in C; inversion C; subst.
  destruct o; discriminate.
Qed.

Definition note_counts (x : @note K V) (r : Z * Z * Z) : Z * Z * Z :=
  match x with Quiet => r | HitOf _ _ => counts true r | MissOf _ => counts false r end.

Lemma note_totals w aw c a o w' a' x m d r : rel E w aw -> slot (aw_caches aw) c = Some a ->
  asks o <> None -> snd (fst (fst (local E 0 o a (aw_reads aw)))) = a' ->
  rel E w' (awith c a' (noted E a x (ticks m aw))) ->
  totals_are E d w r ->
  (~ separate w c d -> totals_are E d w' (note_counts x r)) /\
  (separate w c d -> totals_are E d w' r).
Proof.
  unfold totals_are. intros R Ha AS Q1 R' X.
  assert (AD : alive w d = true).
  { destruct (alive w d) eqn:AD; auto. revert X. unfold exec. simpl. rewrite AD. discriminate. }
  destruct (alive_inv R AD) as (b & Hb).
  assert (Hb' : exists b', slot (aw_caches (awith c a' (noted E a x (ticks m aw)))) d = Some b' /\ a_stats b' = a_stats b).
  { pose proof (proj2 (local_attr E 0 o a (aw_reads aw))) as ST. simpl in ST. rewrite Q1 in ST.
    assert (ST' : a_stats a' = a_stats a) by (destruct o; try (destruct AS; reflexivity); auto).
    simpl. rewrite noted_caches. simpl. destruct (Nat.eq_dec c d) as [->|N].
    - rewrite Hb in Ha; inversion Ha; subst b. erewrite slot_upd_same by eauto. eauto.
    - rewrite slot_upd_other by auto. eauto. }
  destruct Hb' as (b' & Hb' & Sb).
  rewrite (reading_ev (o := Totals d) R Hb eq_refl eq_refl) in X.
  rewrite !(reading_ev (o := Totals d) R' Hb' eq_refl eq_refl). rewrite Sb.
  destruct (a_stats b) as [s|] eqn:Ss; [|discriminate].
  destruct (slot (aw_stats aw) s) as [y|] eqn:Hy; [|discriminate]. simpl in X. inversion X as [[X1 X2 X3]]. clear X.
  destruct (rel_get _ R Ha) as (cx & cs & cl & At & Rp). destruct (rel_get _ R Hb) as (dx & ds & dl & Dt & Dp).
  split; intros SEP.
  - assert (Sa : a_stats a = Some s).
    { destruct (a_stats a) as [s'|] eqn:Sa.
      - destruct (Nat.eq_dec s s') as [->|N]; auto. exfalso. apply SEP. intros x1 y1 s1 E1 E2.
        rewrite (at_slot At) in E1. rewrite (at_slot Dt) in E2. inversion E1; inversion E2; subst.
        rewrite (rp_stats Rp), (rp_stats Dp), Sa, Ss. congruence.
      - exfalso. apply SEP. intros x1 y1 s1 E1 E2.
        rewrite (at_slot At) in E1. inversion E1; subst. rewrite (rp_stats Rp), Sa. congruence. }
    destruct r as ((ra & rh) & rm). simpl in X1, X2, X3.
    destruct x; simpl; [rewrite Hy; simpl; subst; auto| |]; rewrite Sa; simpl; rewrite Hy;
      erewrite slot_upd_same by eauto; simpl; unfold total_misses, total_accesses, total_hits in *; simpl;
      rewrite <- X1, <- X2, <- X3; f_equal; f_equal; unfold wrap64, size_t in *; rewrite ?Z.add_0_r.
    + rewrite <- Zminus_mod. f_equal. lia.
    + rewrite Zminus_mod_idemp_l, Zplus_mod_idemp_l. f_equal. lia.
  - assert (Sa : a_stats a <> Some s).
    { intros Sa. eapply (SEP cx dx s); [apply At|apply Dt|rewrite (rp_stats Rp); auto|rewrite (rp_stats Dp); auto]. }
    assert (Q : slot (aw_stats (noted E a x (ticks m aw))) s = Some y).
    { destruct x; simpl; auto; rewrite counted_same; auto. }
    simpl. rewrite Q. simpl. rewrite X1, X2, X3. auto.
Qed.

Lemma step_totals w c k o oc w' hit d r : reachable E w -> timed w c = false \/ by_find o = true ->
  call E o w oc w' -> access_of o oc = Some (c, k, hit) -> totals_are E d w r ->
  (~ separate w c d -> totals_are E d w' (counts hit r)) /\ (separate w c d -> totals_are E d w' r).
Proof.
  intros H U C A X. destruct (reach_rel G H) as (aw & R).
  pose proof (access_alive A C) as AL. destruct (alive_inv R AL) as (a & Ha).
  destruct (asks_spec (access_asks A)) as (TG & P & WF).
  assert (U' : a_ttl a = None \/ by_find o = true) by (destruct U; [left; eapply untimed_inv; eauto|auto]).
  assert (WF' : a_well_formed aw o = true) by (rewrite WF; eapply slot_alive; eauto).
  destruct (call_local R P TG Ha WF' C) as (a' & x & m & O & Q1 & Q2 & R').
  destruct (local_note G (rel_cinv R Ha) TG U' O) as (_ & RP). rewrite A, Q2 in RP. clear Q2.
  assert (AS : asks o <> None) by (rewrite (access_asks A); discriminate).
  replace (counts hit r) with (note_counts x r).
  - eapply note_totals; eauto.
  - destruct hit; simpl in RP; [destruct RP as (e & _ & ->)|subst x]; auto.
Qed.

(** ** Switching *)
Lemma n_monitors (ks : list K) : n_accesses (rev (map (@BMonitor K) ks)) = 0 /\ n_hits (rev (map (@BMonitor K) ks)) = 0.
Proof.
  assert (H : forall b : list (@bevent K), (forall e, In e b -> exists k, e = BMonitor k) -> n_accesses b = 0 /\ n_hits b = 0).
  { induction b as [|e b IH]; auto. intros H. destruct IH; [intros; apply H; simpl; auto|].
    destruct (H e) as (k & ->); simpl; auto. }
  apply H. intros e I. rewrite <- in_rev in I. apply in_map_iff in I as (k & <- & _). eauto.
Qed.

Lemma key_monitors k (ks : list K) : key_count E k (rev (map (@BMonitor K) ks)) =
  if existsb (key_eqop E k) ks then Some (0, 0) else None.
Proof.
  rewrite <- (rev_involutive ks) at 2. rewrite <- map_rev. induction (rev ks) as [|j l IH]; simpl; auto.
  rewrite IH, existsb_app. simpl. destruct (existsb (key_eqop E k) (rev l)); simpl; auto.
  destruct (key_eqop E k j); auto.
Qed.
Lemma monitor_starts w c ks : reachable E w -> alive w c = true -> eqop_good E ->
  exists s w', call E (MonitorNew c ks) w (Returned (RNat s)) w' /\
    exec E (IsMonitoring c) w' = Val (RBool true) w' /\ totals_are E c w' (0, 0, 0)%Z /\
    forall k, exec E (StatsFor c k) w' =
      if existsb (key_eqop E k) ks then Val (RKeyStats 0 0 0) w' else Exc UnmonitoredKey w'.
Proof.
  intros H AL Q. destruct (reach_rel G H) as (aw & R). destruct (alive_inv R AL) as (a & Ha).
  pose proof (plain_step (o := MonitorNew c ks) G R eq_refl) as S.
  assert (X : astep E 0 (MonitorNew c ks) aw = Val (RNat (length (aw_stats aw)))
          (MkAW (upd (aw_caches aw) c (Some (with_st (Some (length (aw_stats aw))) a)))
                (aw_stats aw ++ [Some (new_stats E ks)]) (aw_log aw) (aw_reads aw))).
  { unfold astep. simpl. rewrite (slot_alive Ha). simpl. unfold two. rewrite Ha. auto. }
  rewrite X in S. destruct (exec E (MonitorNew c ks) w) as [r w'| | |] eqn:EX; simpl in S; try easy.
  destruct S as (R' & ->). do 2 eexists. split; [exact EX|].
  assert (Ha' : slot (aw_caches (MkAW (upd (aw_caches aw) c (Some (with_st (Some (length (aw_stats aw))) a)))
                (aw_stats aw ++ [Some (new_stats E ks)]) (aw_log aw) (aw_reads aw))) c =
                Some (with_st (Some (length (aw_stats aw))) a)) by (simpl; erewrite slot_upd_same; eauto).
  pose proof (matches_new Q ks) as M.
  split; [|split].
  - rewrite (monitoring_ev R' Ha'). auto.
  - unfold totals_are. rewrite (reading_ev (o := Totals c) R' Ha' eq_refl eq_refl). simpl. rewrite slot_app_new. simpl.
    rewrite (misses_diff M). unfold total_accesses, total_hits. rewrite (m_acc M), (m_hits M).
    pose proof (n_monitors ks) as (N1 & N2). pose proof (hits_misses (rev (map (@BMonitor K) ks))) as N3.
    rewrite N1, N2 in *. simpl in N3. rewrite <- N3. reflexivity.
  - intros k. rewrite (reading_ev (o := StatsFor c k) R' Ha' eq_refl eq_refl). simpl. rewrite slot_app_new. simpl.
    unfold stats_for. rewrite (m_keys M), key_monitors. destruct (existsb (key_eqop E k) ks); reflexivity.
Qed.

Lemma stop_leaves w c s : reachable E w -> has_stats w c s ->
  exists w', call E (StopMonitoring c) w (Returned RUnit) w' /\
    exec E (IsMonitoring c) w' = Val (RBool false) w' /\
    (forall d o r, d <> c -> uses_stats o = Some d -> observer o = true -> exec E o w = Val r w -> exec E o w' = Val r w') /\
    exists w'', call E (MonitorShared c s) w' (Returned RUnit) w'' /\ same_seen E w w''.
Proof.
  intros H (x & Hx & Sx). destruct (reach_rel G H) as (aw & R).
  destruct (rel_get' _ R Hx) as (a & st & l & Ha & At & Rp). rewrite (rp_stats Rp) in Sx.
  pose proof (plain_step (o := StopMonitoring c) G R eq_refl) as S.
  assert (X : astep E 0 (StopMonitoring c) aw = Val RUnit (awith c (with_st None a) aw)).
  { unfold astep. simpl. rewrite (slot_alive Ha). simpl. unfold two. rewrite Ha, ticks_0. auto. }
  rewrite X in S. destruct (exec E (StopMonitoring c) w) as [r w'| | |] eqn:EX; simpl in S; try easy.
  destruct S as (R' & ->). eexists. split; [exact EX|].
  assert (Ha' : slot (aw_caches (awith c (with_st None a) aw)) c = Some (with_st None a)) by (simpl; erewrite slot_upd_same; eauto).
  split; [|split].
  - rewrite (monitoring_ev R' Ha'). auto.
  - intros d o r N U O EO.
    destruct (alive w d) eqn:AD.
    2:{ assert (AD' : alive w' d = false).
        { rewrite (rel_alive _ R) in AD. rewrite (rel_alive _ R'). unfold a_alive in *. simpl. rewrite slot_upd_other; auto. }
        revert EO. unfold exec. destruct o; inversion U; subst; simpl; rewrite AD, AD'; intros Z; inversion Z; auto. }
    destruct (alive_inv R AD) as (b & Hb).
    assert (Hb' : slot (aw_caches (awith c (with_st None a) aw)) d = Some b) by (simpl; rewrite slot_upd_other; auto).
    assert (ST : stats_target o = Some d) by (destruct o; inversion U; subst; auto).
    assert (RD : reading o = true) by (destruct o; inversion U; subst; auto).
    rewrite (reading_ev R Hb ST RD) in EO. rewrite (reading_ev R' Hb' ST RD).
    destruct (a_stats b) as [sb|]; [|discriminate]. simpl. destruct (slot (aw_stats aw) sb) as [y|]; [|discriminate].
    destruct (fst (on_stats E o y)); inversion EO; subst; auto.
  - pose proof (plain_step (o := MonitorShared c s) G R' eq_refl) as S'.
    assert (X' : astep E 0 (MonitorShared c s) (awith c (with_st None a) aw) = Val RUnit aw).
    { unfold astep. cbn [a_well_formed]. rewrite (slot_alive Ha').
      pose proof (rel_st R Ha Sx). simpl aw_stats. destruct (slot (aw_stats aw) s) eqn:SA; [|congruence]. cbn [andb negb target]. unfold two. rewrite Ha'. cbn [local]. unfold give, val. rewrite ticks_0. simpl.
      rewrite awith_awith. replace (with_st (Some s) (with_st None a)) with a.
      - rewrite awith_same; auto.
      - unfold with_st; simpl. rewrite <- Sx. destruct a; auto. }
    rewrite X' in S'. destruct (exec E (MonitorShared c s) w') as [r w''| | |] eqn:EX'; simpl in S'; try easy.
    destruct S' as (R'' & ->). eexists. split; [exact EX'|]. eapply rel_same_seen; eauto.
Qed.

(** ** Sums *)
Lemma sum_S n f : sum_over (S n) f = sum_over n f + f n.
Proof. unfold sum_over. rewrite seq_S, map_app, list_sum_app. simpl. lia. Qed.
Lemma sum_add n f g : sum_over n (fun c => f c + g c) = sum_over n f + sum_over n g.
Proof. induction n; auto. rewrite !sum_S, IHn. lia. Qed.
Lemma sum_ext n f g : (forall c, c < n -> f c = g c) -> sum_over n f = sum_over n g.
Proof. induction n; auto. intros H. rewrite !sum_S, IHn, H; auto. Qed.
Lemma sum_zero n : sum_over n (fun _ => 0) = 0.
Proof. induction n; auto. rewrite sum_S, IHn. auto. Qed.
Lemma sum_one n c v : c < n -> sum_over n (fun i => if Nat.eqb c i then v else 0) = v.
Proof.
  induction n; [lia|]. intros H. rewrite sum_S. destruct (Nat.eq_dec c n) as [->|N].
  - rewrite Nat.eqb_refl. erewrite sum_ext; [rewrite sum_zero; auto|].
    intros i Hi. simpl. rewrite (proj2 (Nat.eqb_neq n i)); auto. lia.
  - rewrite IHn by lia. rewrite (proj2 (Nat.eqb_neq c n)); auto.
Qed.

Definition tally (f : list (K * bool) -> nat) : Prop := f [] = 0 /\ forall l l', f (l ++ l') = f l + f l'.
Lemma tally_length : tally (@length (K * bool)).
Proof. split; auto. intros. apply app_length. Qed.
Lemma tally_hits : tally (fun l => length (filter snd l)).
Proof. split; auto. intros. rewrite filter_app, app_length. auto. Qed.

Lemma astep_len ch o aw aw' :
  match astep E ch o aw with Val _ w | Exc _ w => w = aw' | _ => False end ->
  length (aw_caches aw') <= S (length (aw_caches aw)) /\
  (length (aw_stats aw') = length (aw_stats aw) \/
   exists c ks, o = MonitorNew c ks /\ outcome_in (astep E ch o aw) = Some (Returned (RNat (length (aw_stats aw)))) /\
     length (aw_stats aw') = S (length (aw_stats aw))) /\
  (forall c ks s, o = MonitorNew c ks -> outcome_in (astep E ch o aw) = Some (Returned (RNat s)) ->
     s = length (aw_stats aw) /\ length (aw_stats aw') = S (length (aw_stats aw))).
Proof.
  unfold astep. destruct (a_well_formed aw o); cbn [negb]; [|intros <-; repeat split; auto; discriminate].
  destruct (target o) as [c|] eqn:T.
  { unfold two. destruct (slot (aw_caches aw) c) as [a|] eqn:Ha; [|intros <-; repeat split; auto; discriminate].
    destruct (local E ch o a (aw_reads aw)) as (((r & a') & x) & m). intros X.
    assert (Y : aw' = awith c a' (noted E a x (ticks m aw))) by (destruct r; simpl in X; auto; easy).
    subst. simpl. rewrite upd_length, noted_caches. split; [auto|]. split; [left|].
    - destruct x; simpl; auto; unfold counted; destruct (a_stats a); auto;
        destruct (slot (aw_stats aw) n); auto; apply upd_length.
    - intros ? ? ? ->. discriminate. }
  destruct (stats_target o) as [c|] eqn:ST.
  { assert (N : forall c ks, o <> MonitorNew c ks) by (destruct o; discriminate).
    unfold two. destruct (slot (aw_caches aw) c) as [a|] eqn:Ha; [|intros <-; repeat split; auto; exfalso; eapply N; eauto].
    destruct (a_stats a) as [s|]; [|intros <-; repeat split; auto; exfalso; eapply N; eauto].
    destruct (slot (aw_stats aw) s) as [x|]; [|easy].
    destruct (on_stats E o x) as (r & x'). destruct r; simpl; intros X; try easy; subst aw'; simpl; rewrite upd_length;
      repeat split; auto; exfalso; eapply N; eauto. }
  destruct (building o) as [((cap & ttl) & l)|] eqn:B.
  { destruct (l_inserts E l 0 (fresh_a cap ttl) (aw_reads aw)) as ((cnt & a') & n'). intros <-. simpl.
    rewrite app_length. simpl. repeat split; auto; try lia; destruct o; discriminate. }
  destruct o; try discriminate; unfold two;
    repeat match goal with |- context [slot ?t ?i] => destruct (slot t i) end;
    repeat match goal with |- context [Nat.eqb ?t ?i] => destruct (Nat.eqb t i) end;
    try destruct (junk E); intros X; try easy; subst aw'; simpl; rewrite ?app_length, ?upd_length; simpl;
    (split; [lia|]); (split; [auto; try (right; do 2 eexists; repeat split; auto; lia); fail|]); try discriminate.
  all: intros c0 ks' s Q X; inversion X; subst; split; auto; lia.
Qed.

(** What a call adds to the accesses of one object. *)
Lemma record_books c e L s : books (record c e L) s =
  if match attached L c with Some s' => Nat.eqb s' s | None => false end then e :: books L s else books L s.
Proof.
  unfold record. destruct (attached L c) as [s'|]; simpl; auto. unfold fset.
  destruct (Nat.eqb_spec s' s); subst; auto.
Qed.
Lemma books_quiet o oc L s : access_of o oc = None -> (forall c ks s', o = MonitorNew c ks -> oc = Returned (RNat s') -> s' <> s) ->
  n_accesses (books (note_call o oc L) s) = n_accesses (books L s) /\
  n_hits (books (note_call o oc L) s) = n_hits (books L s).
Proof.
  intros A N. unfold note_call. rewrite A. destruct o; auto; destruct oc as [[]|[]]; auto;
    try (rewrite record_books; destruct (match attached L c with Some _ => _ | None => _ end); auto).
  simpl. rewrite fset_other; auto. eapply N; eauto.
Qed.
Lemma sums ops : forall w aw outs w' L N s f g, rel E w aw -> forallb copy_free ops = true ->
  run E ops w = Finished outs w' -> linv L aw -> length (aw_caches aw) + length ops <= N ->
  tally f ->
  g = n_accesses /\ (forall k h, f [(k, h)] = 1) \/ g = n_hits /\ (forall k h, f [(k, h)] = if h then 1 else 0) ->
  g (books (note_calls ops outs L) s) =
    (if Nat.ltb s (length (aw_stats aw)) then g (books L s) else if Nat.ltb s (length (w_stats w')) then 0 else g (books L s))
    + sum_over N (fun c => f (accesses_by c s ops outs L)).
Proof.
  induction ops as [|o ops IH]; intros w aw outs w' L N s f g R F H I LN (F0 & FA) FG.
  - inversion H; subst. simpl. rewrite (sum_ext (g := fun _ => 0)) by auto. rewrite sum_zero, (rel_stats R).
    destruct (Nat.ltb s (length (aw_stats aw))); lia.
  - simpl in F. apply andb_prop in F as (F1 & F2).
    apply run_inv in H as (w1 & r & rs & -> & H & X).
    assert (C : call E o w r w1) by (destruct X as [(x & -> & X)|(e & -> & X)]; exact X). clear X.
    destruct (exec_step G R F1) as (ch & S).
    assert (X : exists oc' aw1, outcome_in (astep E ch o aw) = Some oc' /\
       match astep E ch o aw with Val _ w | Exc _ w => w = aw1 | _ => False end /\ rel E w1 aw1 /\
       note_call o r L = note_call o oc' L /\ access_of o r = access_of o oc' /\
       (forall c ks, o = MonitorNew c ks -> r = oc')).
    { unfold call in C. destruct r as [r|e]; rewrite C in S; destruct (astep E ch o aw) as [r'|e'| |]; simpl in S; try easy.
      - destruct S as (S1 & S2). do 2 eexists. split; [reflexivity|]. split; [reflexivity|]. split; [exact S1|].
        split; [apply note_call_rel; auto|]. unfold ok, out_rel in S2. split.
        + destruct o; subst; auto.
        + intros ? ? ->. subst; auto.
      - destruct S as (S1 & S2). subst e'. do 2 eexists. split; [reflexivity|]. split; [reflexivity|]. split; [exact S2|]. auto. }
    destruct X as (oc & aw1 & X1 & X2 & R1 & X4 & X5 & X6).
    pose proof (linv_step I X1 X2) as I1. rewrite <- X4 in I1.
    destruct (astep_len X2) as (LC & LS & LM). rewrite X1 in LS, LM.
    assert (LN1 : length (aw_caches aw1) + length ops <= N) by (simpl in LN; lia).
    specialize (IH _ _ _ _ _ N s f g R1 F2 H I1 LN1 (conj F0 FA) FG). cbn [note_calls]. rewrite IH. clear IH.
    assert (GR : length (aw_stats aw1) <= length (w_stats w')).
    { clear - H F2 R1 G. revert w1 aw1 rs R1 H. induction ops as [|o ops IH]; intros w1 aw1 rs R1 H.
      - inversion H; subst. rewrite (rel_stats R1). auto.
      - simpl in F2. apply andb_prop in F2 as (F1 & F2).
        apply run_inv in H as (w2 & r & rs' & -> & H & X).
        assert (C : call E o w1 r w2) by (destruct X as [(x & -> & X)|(e & -> & X)]; exact X). clear X.
        destruct (exec_step G R1 F1) as (ch & S).
        assert (X : exists aw2, match astep E ch o aw1 with Val _ w | Exc _ w => w = aw2 | _ => False end /\ rel E w2 aw2).
        { unfold call in C. destruct r as [r|e]; rewrite C in S; destruct (astep E ch o aw1) as [r'|e'| |]; simpl in S; try easy; destruct S; eauto. }
        destruct X as (aw2 & X & R2). destruct (astep_len X) as (_ & LS & _).
        specialize (IH F2 _ _ _ R2 H). destruct LS as [LS|(? & ? & ? & ? & LS)]; lia. }
    assert (SPLIT : sum_over N (fun c => f (accesses_by c s (o :: ops) (r :: rs) L)) =
       match access_of o r with
       | Some (c, k, hit) => if match attached L c with Some s' => Nat.eqb s' s | None => false end then f [(k, hit)] else 0
       | None => 0 end + sum_over N (fun c => f (accesses_by c s ops rs (note_call o r L)))).
    { cbn [accesses_by]. erewrite sum_ext; [|intros c Hc; rewrite FA; reflexivity]. rewrite sum_add. f_equal.
      destruct (access_of o r) as [((c & k) & hit)|] eqn:A.
      - assert (Hc : c < N).
        { pose proof (access_alive A C) as AL. destruct (alive_inv R AL) as (a & Ha). apply slot_lt in Ha. simpl in LN. lia. }
        rewrite <- (sum_one (if match attached L c with Some s' => Nat.eqb s' s | None => false end then f [(k, hit)] else 0) Hc).
        apply sum_ext. intros i Hi. destruct (Nat.eqb_spec c i) as [->|]; simpl; auto.
        destruct (match attached L i with Some _ => _ | None => _ end); auto.
      - erewrite sum_ext; [apply sum_zero|]. auto. }
    rewrite SPLIT. clear SPLIT.
    rewrite Nat.add_assoc. f_equal.
    assert (G1 : forall k h b, g (BAccess k h :: b) = f [(k, h)] + g b).
    { intros k h b. destruct FG as [(-> & ->)|(-> & ->)]; auto. destruct h; auto. }
    destruct (access_of o r) as [((c & k) & hit)|] eqn:A.
    + assert (LE : length (aw_stats aw1) = length (aw_stats aw)).
      { destruct LS as [LS|(c' & ks & -> & _)]; auto. discriminate. }
      rewrite LE. unfold note_call. rewrite A, record_books.
      pose proof (access_alive A C) as AL. destruct (alive_inv R AL) as (a & Ha).
      destruct (proj1 I _ _ Ha) as (As & _).
      destruct (attached L c) as [s'|] eqn:At; [|lia].
      destruct (Nat.eqb_spec s' s) as [->|]; [|lia]. rewrite G1.
      pose proof (rel_st R Ha (eq_sym As)) as Hs.
      rewrite (proj2 (Nat.ltb_lt s (length (aw_stats aw)))); [lia|].
      destruct (slot (aw_stats aw) s) as [y|] eqn:Hy; [|congruence]. eapply slot_lt; eauto.
    + rewrite Nat.add_0_r.
      destruct LS as [LS|(c & ks & -> & Q & LS)].
      * assert (Q : g (books (note_call o r L) s) = g (books L s)).
        { destruct (books_quiet (s := s) L A) as (B1 & B2); [|destruct FG as [(-> & _)|(-> & _)]; auto].
          intros c ks s' -> ->. rewrite <- (X6 _ _ eq_refl) in LM. destruct (LM _ _ _ eq_refl eq_refl). lia. }
        rewrite LS, Q. auto.
      * specialize (X6 _ _ eq_refl). inversion Q as [Q']. subst r oc. simpl.
        destruct (Nat.eq_dec (length (aw_stats aw)) s) as [<-|NE].
        { rewrite fset_same. rewrite LS, (proj2 (Nat.ltb_lt _ _) (Nat.lt_succ_diag_r _)).
          rewrite Nat.ltb_irrefl. rewrite (proj2 (Nat.ltb_lt _ _)) by lia.
          destruct (n_monitors ks). destruct FG as [(-> & _)|(-> & _)]; auto. }
        rewrite fset_other by auto.
        destruct (Nat.ltb_spec s (length (aw_stats aw1))), (Nat.ltb_spec s (length (aw_stats aw))); auto; lia.
Qed.

Lemma shared_sums ops outs w c : forallb copy_free ops = true ->
  run E ops init_world = Finished outs w -> eqop_good E -> countable ops -> alive w c = true ->
  forall s n, attached (ledger_of ops outs) c = Some s -> length ops <= n ->
  exists m, exec E (Totals c) w =
    Val (RTotals (size_t (Z.of_nat (sum_over n (fun d => length (accesses_by d s ops outs blank)))))
                 (size_t (Z.of_nat (sum_over n (fun d => length (filter snd (accesses_by d s ops outs blank))))))
                 m) w.
Proof.
  intros CF RN Q D A s n At Hn. rewrite (totals CF RN Q D A), At. eexists. f_equal. f_equal.
  - f_equal. f_equal. unfold ledger_of.
    rewrite (sums (N := n) s (rel_init E) CF RN linv_init Hn tally_length (or_introl (conj eq_refl (fun _ _ => eq_refl)))).
    simpl. destruct (Nat.ltb s (length (w_stats w))); auto.
  - f_equal. f_equal. unfold ledger_of.
    rewrite (sums (N := n) s (rel_init E) CF RN linv_init Hn tally_hits (g := n_hits)).
    + simpl. destruct (Nat.ltb s (length (w_stats w))); auto.
    + right. split; auto. intros k []; auto.
Qed.

End More.
