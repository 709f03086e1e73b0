(** The counters of reachable statistics objects, and their rates. *)
From Coq Require Import List Arith ZArith Bool Lia.
Import ListNotations.
From Verif Require Import Monad Types Model Api Spec SpecStats Ref Lists SimBase SimRel SimOps SimIns SimErase SimIter SimNew SimObs SimExec RefEval SimRun LruProofs CallProofs LruMore Flat Global Safe Frame StatProofs.
Set Implicit Arguments.
Unset Strict Implicit.

Section Counters.
Context {K V : Type}.
Variable E : env K V.
Hypothesis G : good E.

Notation acache := (acache K V).
Notation aworld := (aworld K V).
Notation world := (world K V).
Implicit Types (a : acache) (aw : aworld) (w : world) (o : op K V).

Definition counted_to (n : Z) (x : statistics K) : Prop := (0 <= st_hits x <= st_acc x /\ st_acc x <= n)%Z.
Definition cinv_to (n : Z) aw : Prop := forall s x, slot (aw_stats aw) s = Some x -> counted_to n x.

Lemma counted_mono n m x : (n <= m)%Z -> counted_to n x -> counted_to m x.
Proof. unfold counted_to. lia. Qed.
Lemma cinv_mono n m aw : (n <= m)%Z -> cinv_to n aw -> cinv_to m aw.
Proof. intros L H s x Hx. eapply counted_mono; eauto. Qed.
Lemma counted_hit n k x : (0 <= n < 2 ^ 64 - 1)%Z -> counted_to n x -> counted_to (n + 1) (stats_register_hit E k x).
Proof.
  unfold counted_to, stats_register_hit, wrap64. simpl st_hits. simpl st_acc. intros N H.
  rewrite !Z.mod_small by lia. lia.
Qed.
Lemma counted_miss n k x : (0 <= n < 2 ^ 64 - 1)%Z -> counted_to n x -> counted_to (n + 1) (stats_register_miss E k x).
Proof.
  unfold counted_to, stats_register_miss, wrap64. simpl st_hits. simpl st_acc. intros N H.
  rewrite !Z.mod_small by lia. lia.
Qed.
Lemma counted_new n ks : (0 <= n)%Z -> counted_to n (new_stats E ks).
Proof.
  intros N. unfold new_stats.
  assert (H : counted_to n (MkStats 0 0 ([] : list (K * (Z * Z))))) by (unfold counted_to; simpl; lia).
  revert H. generalize (MkStats 0 0 ([] : list (K * (Z * Z)))). induction ks as [|k ks IH]; simpl; auto.
  intros x H. apply IH. unfold stats_monitor. destruct (stat_find E k (st_keys x)); auto.
Qed.
Lemma counted_on n o x : counted_to n x -> counted_to n (snd (on_stats E o x)).
Proof.
  intros H. destruct o; simpl; auto.
  - destruct (stats_for E x k); auto.
  - unfold stats_monitor. destruct (stat_find E k (st_keys x)); auto.
  - unfold stats_unmonitor. destruct (stat_find E k (st_keys x)); simpl; auto.
  - unfold stats_reset_key. destruct (stat_find E k (st_keys x)); simpl; auto.
Qed.

Lemma cinv_upd n aw s x x' cs lg rd : cinv_to n aw -> slot (aw_stats aw) s = Some x -> counted_to n x' ->
  cinv_to n (MkAW cs (upd (aw_stats aw) s (Some x')) lg rd).
Proof.
  intros H Hx Hx' i y. simpl. destruct (Nat.eq_dec s i) as [->|N].
  - rewrite (slot_upd_same _ _ _ Hx). intros Q; inversion Q; subst; auto.
  - rewrite slot_upd_other by auto. apply H.
Qed.
Lemma cinv_same n aw aw' : cinv_to n aw -> aw_stats aw' = aw_stats aw -> cinv_to n aw'.
Proof. unfold cinv_to. intros H ->. auto. Qed.
Lemma cinv_noted n c a a' x m aw : (0 <= n < 2 ^ 64 - 1)%Z -> cinv_to n aw ->
  cinv_to (n + 1) (awith c a' (noted E a x (ticks m aw))).
Proof.
  intros N H. assert (M : cinv_to (n + 1) aw) by (apply (cinv_mono (n := n)); auto; lia).
  destruct x as [|k v|k]; [exact M| |].
  - intros i y. simpl. unfold counted. destruct (a_stats a) as [s|]; [|apply M].
    destruct (slot (aw_stats aw) s) as [z|] eqn:Hz; [|apply M].
    apply (cinv_upd (aw := aw) (x' := stats_register_hit E k z) (cs := aw_caches aw) (lg := aw_log aw) (rd := 0) M Hz). apply counted_hit; eauto.
  - intros i y. simpl. unfold counted. destruct (a_stats a) as [s|]; [|apply M].
    destruct (slot (aw_stats aw) s) as [z|] eqn:Hz; [|apply M].
    apply (cinv_upd (aw := aw) (x' := stats_register_miss E k z) (cs := aw_caches aw) (lg := aw_log aw) (rd := 0) M Hz). apply counted_miss; eauto.
Qed.

Lemma cinv_step n ch o aw aw' : (0 <= n < 2 ^ 64 - 1)%Z -> cinv_to n aw ->
  match astep E ch o aw with Val _ w | Exc _ w => w = aw' | _ => False end -> cinv_to (n + 1) aw'.
Proof.
  intros N H. assert (M : cinv_to (n + 1) aw) by (apply (cinv_mono (n := n)); auto; lia).
  unfold astep. destruct (a_well_formed aw o) eqn:WF; cbn [negb]; [|intros <-; auto].
  destruct (target o) as [c|] eqn:T.
  { unfold two. destruct (slot (aw_caches aw) c) as [a|] eqn:Ha; [|intros <-; auto].
    destruct (local E ch o a (aw_reads aw)) as (((r & a') & x) & m). simpl.
    destruct r; simpl; intros <- || intros []; apply cinv_noted; auto. }
  destruct (stats_target o) as [c|] eqn:ST.
  { unfold two. destruct (slot (aw_caches aw) c) as [a|] eqn:Ha; [|intros <-; auto].
    destruct (a_stats a) as [s|]; [|intros <-; auto].
    destruct (slot (aw_stats aw) s) as [x|] eqn:Hx; [|easy].
    pose proof (counted_on o (M s x Hx)) as C. destruct (on_stats E o x) as (r & x'). simpl in C.
    destruct r; simpl; intros <- || intros []; eapply cinv_upd; eauto. }
  destruct (building o) as [((cap & ttl) & l)|] eqn:BU.
  { destruct (l_inserts E l 0 (fresh_a cap ttl) (aw_reads aw)) as ((cnt & a') & n').
    intros <-. apply (cinv_same M). auto. }
  destruct o; try discriminate; unfold two; try (intros <-; apply (cinv_same M); auto; fail).
  - destruct (slot (aw_caches aw) c) as [a|] eqn:Ha; [|intros <-; auto].
    destruct (junk E); [|easy]. intros <-. apply (cinv_same M). auto.
  - destruct (slot (aw_caches aw) c) as [a|] eqn:Ha; [|intros <-; auto].
    destruct (slot (aw_caches aw) d) as [b|] eqn:Hb; [|intros <-; auto].
    destruct (Nat.eqb_spec c d); intros <-; apply (cinv_same M); auto.
  - destruct (slot (aw_caches aw) c) as [a|] eqn:Ha; [|intros <-; auto].
    destruct (slot (aw_caches aw) d) as [b|] eqn:Hb; [|intros <-; auto].
    destruct (Nat.eqb_spec c d); intros <-; apply (cinv_same M); auto.
  - destruct (slot (aw_caches aw) c) as [a|] eqn:Ha; [|intros <-; auto].
    destruct (slot (aw_caches aw) d) as [b|] eqn:Hb; intros <-; auto.
  - destruct (slot (aw_caches aw) c) as [a|] eqn:Ha; intros <-; auto.
    intros s x. simpl. destruct (Nat.lt_ge_cases s (length (aw_stats aw))) as [Hd|Hd].
    + rewrite slot_app_lt by lia. apply M.
    + destruct (Nat.eq_dec s (length (aw_stats aw))) as [->|Ne].
      * rewrite slot_app_new. intros X; inversion X; subst. apply counted_new. lia.
      * intros X. apply slot_lt in X. rewrite app_length in X. simpl in X. lia.
Qed.

Lemma cinv_call n o w aw oc w' : rel E w aw -> copy_free o = true -> call E o w oc w' ->
  (0 <= n < 2 ^ 64 - 1)%Z -> cinv_to n aw -> exists aw', rel E w' aw' /\ cinv_to (n + 1) aw'.
Proof.
  intros R CF C N I. destruct (exec_step G R CF) as (ch & S).
  assert (X : exists aw', match astep E ch o aw with Val _ w | Exc _ w => w = aw' | _ => False end /\ rel E w' aw').
  { unfold call in C. destruct oc as [r|e]; rewrite C in S; destruct (astep E ch o aw) as [r'|e'| |]; simpl in S; try easy.
    - destruct S. eauto.
    - destruct S. eauto. }
  destruct X as (aw' & X & R'). exists aw'. split; auto. eapply cinv_step; eauto.
Qed.

Lemma cinv_run ops : forall n w aw outs w', rel E w aw -> forallb copy_free ops = true ->
  run E ops w = Finished outs w' -> (0 <= n)%Z -> (n + Z.of_nat (length ops) < 2 ^ 64)%Z -> cinv_to n aw ->
  exists aw', rel E w' aw' /\ cinv_to (n + Z.of_nat (length ops)) aw'.
Proof.
  induction ops as [|o ops IH]; intros n w aw outs w' R F H N L I.
  - inversion H; subst. exists aw. simpl. rewrite Z.add_0_r. auto.
  - simpl in F. apply andb_prop in F as (F1 & F2).
    apply run_inv in H as (w1 & r & rs & -> & H & X).
    assert (C : call E o w r w1) by (destruct X as [(x & -> & X)|(e & -> & X)]; exact X).
    change (length (o :: ops)) with (S (length ops)) in *.
    destruct (cinv_call R F1 C (n := n)) as (aw1 & R1 & I1); auto; [lia|].
    destruct (IH (n + 1)%Z _ _ _ _ R1 F2 H) as (aw' & R' & I'); auto; try lia.
    exists aw'. split; auto. replace (n + Z.of_nat (S (length ops)))%Z with (n + 1 + Z.of_nat (length ops))%Z by lia. auto.
Qed.

Lemma cinv_init : cinv_to 0 init_aworld.
Proof. intros s x. rewrite slot_overflow; [discriminate|simpl; lia]. Qed.

Lemma counters ops outs w s x : forallb copy_free ops = true -> run E ops init_world = Finished outs w ->
  (Z.of_nat (length ops) < 2 ^ 64)%Z -> slot (w_stats w) s = Some x ->
  (0 <= total_hits x <= total_accesses x /\ total_accesses x < 2 ^ 64)%Z.
Proof.
  intros F H L Hx. destruct (cinv_run (rel_init E) F H (n := 0%Z)) as (aw & R & I); auto; try lia.
  { apply cinv_init. }
  rewrite (rel_stats R) in Hx. specialize (I s x Hx). unfold counted_to, total_hits, total_accesses in *. lia.
Qed.

End Counters.
