(** A copy, used with care, behaves as the original would; the original behaves as
    if it had not been copied. *)
From Coq Require Import List Arith ZArith Bool Permutation Lia.
Import ListNotations.
From Verif Require Import Monad Types Model Api Spec SpecTimed SpecPair Ref Lists SimBase SimRel SimOps SimIns SimErase SimIter SimNew SimObs SimExec RefEval SimRun LruProofs CallProofs Effects Flat Global Safe Frame PairProofs SpecCopy CopyBlind CopyFrame CopyEval CopyProofs CopyMore.
Set Implicit Arguments.
Unset Strict Implicit.
Local Open Scope cpp_scope.

Section Run.
Context {K V : Type}.
Variable E : env K V.
Hypothesis G : good E.
Hypothesis HB : hash_blind E.

Notation world := (world K V).
Notation acache := (acache K V).
Notation aworld := (aworld K V).
Notation rel := (rel E).
Notation sound := (sound E).
Implicit Types (w z : world) (a : acache) (aw : aworld) (o : op K V).

(** [ops] may be run in [w], related to [aw]. *)
Definition fit d (ops : list (op K V)) w aw : Prop :=
  (sound d w aw /\ careful E d ops w) \/ (rel w aw /\ forallb copy_free ops = true).
Lemma fit_sound d ops w aw : fit d ops w aw -> sound d w aw.
Proof. intros [(S & _)|(R & _)]; auto. left. auto. Qed.

Definition simF d o t (r : res world (out K V)) (ar : res aworld (out K V)) : Prop :=
  match r, ar with
  | Val x w, Val y aw => fit d t w aw /\ out_rel o x y
  | Exc e w, Exc e' aw => e = e' /\ fit d t w aw
  | Undef u, Undef u' => u = u'
  | Term e, Term e' => e = e'
  | _, _ => False
  end.
Lemma fit_step d o t w aw : fit d (o :: t) w aw -> copy_free o = true /\ exists ch, simF d o t (exec E o w) (astep E ch o aw).
Proof.
  intros [(S & F)|(R & F)].
  - inversion F as [|o0 t0 w0 CF N C|o0 t0 w0 H C|o0 t0 w0 H C]; subst.
    + split; auto. destruct (other_step G S CF N) as (ch & SS). exists ch. unfold call in C.
      destruct (exec E o w) as [x w'|e w'|u|e], (astep E ch o aw) as [y aw'|e' aw'|u'|e']; simpl in SS |- *; auto.
      * destruct SS as (SS & Q). split; auto. left. split; auto. apply (C (Returned x)). auto.
      * destruct SS as (-> & SS). split; auto. left. split; auto. apply (C (Threw e')). auto.
    + split; [eapply harmless_copy_free; eauto|]. destruct (harmless_step G HB S H) as (ch & SS). exists ch. unfold call in C.
      destruct (exec E o w) as [x w'|e w'|u|e], (astep E ch o aw) as [y aw'|e' aw'|u'|e']; simpl in SS |- *; auto.
      * destruct SS as (SS & Q). split; auto. left. split; auto. apply (C (Returned x)). auto.
      * destruct SS as (-> & SS). split; auto. left. split; auto. apply (C (Threw e')). auto.
    + split; [destruct H; auto|]. destruct (resets_step G S H) as (ch & SS). exists ch.
      destruct (exec E o w) as [x w'|e w'|u|e], (astep E ch o aw) as [y aw'|e' aw'|u'|e']; simpl in SS |- *; auto.
      * destruct SS as (SS & Q). split; auto. right. auto.
      * destruct SS as (-> & SS). split; auto. right. auto.
  - simpl in F. apply andb_prop in F as (F1 & F2). split; auto. destruct (exec_step G R F1) as (ch & SS). exists ch.
    destruct (exec E o w) as [x w'|e w'|u|e], (astep E ch o aw) as [y aw'|e' aw'|u'|e']; simpl in SS |- *; auto.
    * destruct SS as (SS & Q). split; auto. right. auto.
    * destruct SS as (-> & SS). split; auto. right. auto.
Qed.
Lemma fit_plain d o t w aw : fit d (o :: t) w aw -> plain o = true ->
  match exec E o w, astep E 0 o aw with
  | Val x w, Val y aw => fit d t w aw /\ x = y
  | Exc e w, Exc e' aw => e = e' /\ fit d t w aw
  | Undef u, Undef u' => u = u'
  | Term e, Term e' => e = e'
  | _, _ => False
  end.
Proof.
  intros F P. destruct (fit_step F) as (CF & ch & S). pose proof (sound_awf (fit_sound F)) as AW.
  destruct (plain_spec P) as (_ & P2 & P3).
  rewrite <- (astep_ev ch G AW CF), (aexec_ch E ch P2), (astep_ev 0 G AW CF) in S.
  destruct (exec E o w) as [x w'|e w'|u|e], (astep E 0 o aw) as [y aw'|e' aw'|u'|e']; simpl in S |- *; auto.
  destruct S as (S & Q). auto.
Qed.
Lemma fit_log d ops w aw : fit d ops w aw -> w_log w = aw_log aw.
Proof.
  intros F. destruct (fit_sound F) as [R|(rd & z & a & T & R & _)]; [apply (rel_log R)|].
  rewrite <- (rel_log R). apply (tw_log T).
Qed.

(** Two runs, on two caches. *)
Definition cres (Cr : aworld -> aworld -> Prop) aw1 aw2 (r1 r2 : res aworld (out K V)) : Prop :=
  match r1, r2 with
  | Val r aw1', Val r' aw2' => r = r' /\ Cr aw1' aw2' /\ longer aw1 aw2 aw1' aw2'
  | Exc e aw1', Exc e' aw2' => e = e' /\ Cr aw1' aw2' /\ longer aw1 aw2 aw1' aw2'
  | Undef u, Undef u' => u = u'
  | Term e, Term e' => e = e'
  | _, _ => False
  end.
Lemma two_runs (Cr : aworld -> aworld -> Prop) (P : op K V -> op K V -> Prop)
  (Step : forall o o' aw1 aw2, P o o' -> Cr aw1 aw2 -> cres Cr aw1 aw2 (astep E 0 o aw1) (astep E 0 o' aw2)) :
  forall ops ops', Forall2 P ops ops' -> forall d d' w1 w2 aw1 aw2, fit d ops w1 aw1 -> fit d' ops' w2 aw2 -> Cr aw1 aw2 ->
  forallb plain ops = true -> forallb plain ops' = true -> alike w1 w2 (run E ops w1) (run E ops' w2).
Proof.
  induction 1 as [|o o' t t' PO _ IH]; intros d d' w1 w2 aw1 aw2 F1 F2 C P1 P2; cbn [run].
  - split; auto. exists []. simpl. rewrite !app_nil_r. auto.
  - simpl in P1, P2. apply andb_prop in P1 as (P1 & P1'). apply andb_prop in P2 as (P2 & P2').
    pose proof (fit_plain F1 P1) as X1. pose proof (fit_plain F2 P2) as X2. pose proof (Step o o' aw1 aw2 PO C) as S.
    assert (K0 : forall r w1' w2' aw1' aw2', fit d t w1' aw1' -> fit d' t' w2' aw2' -> Cr aw1' aw2' ->
        longer aw1 aw2 aw1' aw2' -> alike w1 w2 (push r (run E t w1')) (push r (run E t' w2'))).
    { intros r w1' w2' aw1' aw2' Ra Rb Fr (l & L1 & L2).
      destruct (IH d d' w1' w2' aw1' aw2' Ra Rb Fr P1' P2') as (Q & l' & H1 & H2). split.
      - destruct (run E t w1'), (run E t' w2'); simpl in *; congruence.
      - exists (l ++ l'). rewrite <- (fit_log Ra), <- (fit_log F1) in L1.
        rewrite <- (fit_log Rb), <- (fit_log F2) in L2. split.
        + destruct (run E t w1'); simpl in *; auto. rewrite H1, L1, app_assoc. auto.
        + destruct (run E t' w2'); simpl in *; auto. rewrite H2, L2, app_assoc. auto. }
    destruct (exec E o w1) as [r1 w1'|e1 w1'|u1|e1], (astep E 0 o aw1) as [q1 aw1'|f1 aw1'|u1'|f1]; try contradiction;
      destruct (exec E o' w2) as [r2 w2'|e2 w2'|u2|e2], (astep E 0 o' aw2) as [q2 aw2'|f2 aw2'|u2'|f2]; simpl in S; try contradiction.
    + destruct X1 as (Ra & ->), X2 as (Rb & ->), S as (-> & Fr & L). eauto.
    + destruct X1 as (-> & Ra), X2 as (-> & Rb), S as (-> & Fr & L). eauto.
    + subst. split; auto. exists []. simpl. auto.
    + subst. split; auto. exists []. simpl. auto.
Qed.

(** ** The copy does as the original *)
Definition cr c d aw1 aw2 : Prop :=
  slot (aw_caches aw1) c = slot (aw_caches aw2) d /\ aw_reads aw1 = aw_reads aw2 /\ aw_stats aw1 = aw_stats aw2.
Lemma noted_stats a x aw1 aw2 : aw_stats aw1 = aw_stats aw2 -> aw_stats (noted E a x aw1) = aw_stats (noted E a x aw2).
Proof. intros Q. destruct x; simpl; auto; rewrite Q; auto. Qed.
Lemma same_call_target c d o o' : same_call c d o o' ->
  (target o = Some c /\ target o' = Some d /\ (forall a n, local E 0 o a n = local E 0 o' a n)) \/
  (target o = None /\ target o' = None /\ stats_target o = Some c /\ stats_target o' = Some d /\
   (forall x, on_stats E o x = on_stats E o' x)).
Proof.
  intros []; try (left; repeat split; reflexivity); try (right; repeat split; reflexivity).
  destruct x; left; repeat split; reflexivity.
Qed.
Lemma same_call_wf c d o o' aw1 aw2 : same_call c d o o' -> slot (aw_caches aw1) c = slot (aw_caches aw2) d ->
  a_well_formed aw1 o = a_well_formed aw2 o'.
Proof. intros [] Q; try (destruct x); simpl; unfold a_alive, a_timed; rewrite Q; auto. Qed.
Lemma cr_step c d o o' aw1 aw2 : same_call c d o o' -> cr c d aw1 aw2 ->
  cres (cr c d) aw1 aw2 (astep E 0 o aw1) (astep E 0 o' aw2).
Proof.
  intros SC (C1 & C2 & C3).
  assert (SV : forall r, cres (cr c d) aw1 aw2 (Val r aw1) (Val r aw2)) by (intros r; simpl; unfold cr; auto using longer_refl).
  assert (SE : forall r, cres (cr c d) aw1 aw2 (Exc r aw1) (Exc r aw2)) by (intros r; simpl; unfold cr; auto using longer_refl).
  unfold astep. rewrite (same_call_wf SC C1). destruct (a_well_formed aw2 o'); simpl negb; cbv iota; auto.
  destruct (same_call_target SC) as [(-> & -> & Q)|(-> & -> & -> & -> & Q)].
  - unfold two. rewrite C1. destruct (slot (aw_caches aw2) d) as [a|] eqn:Ha; auto. rewrite C2, Q.
    destruct (local E 0 o' a (aw_reads aw2)) as (((r & a') & x) & i).
    assert (X : cr c d (awith c a' (noted E a x (ticks i aw1))) (awith d a' (noted E a x (ticks i aw2)))).
    { split; [|split]; simpl.
      - rewrite !noted_caches. simpl. erewrite !slot_upd_same; eauto.
      - rewrite !noted_reads. simpl. congruence.
      - apply noted_stats. auto. }
    assert (Y : longer aw1 aw2 (awith c a' (noted E a x (ticks i aw1))) (awith d a' (noted E a x (ticks i aw2)))).
    { destruct (noted_log E a x (ticks i aw1)) as (l & L1 & L2). exists l. simpl. rewrite L1, L2; auto. }
    destruct r; simpl; auto.
  - unfold two. rewrite C1. destruct (slot (aw_caches aw2) d) as [a|] eqn:Ha; auto.
    destruct (a_stats a) as [s|] eqn:As; auto. rewrite C3. destruct (slot (aw_stats aw2) s) as [x|] eqn:Hs; [|reflexivity].
    rewrite Q. destruct (on_stats E o' x) as (r & x').
    assert (X : cr c d (wstats s x' aw1) (wstats s x' aw2)).
    { split; [|split]; simpl; congruence. }
    assert (Y : longer aw1 aw2 (wstats s x' aw1) (wstats s x' aw2)) by (exists []; simpl; rewrite !app_nil_r; auto).
    destruct r; simpl; auto.
Qed.
Lemma plain_copy_free (ops : list (op K V)) : forallb plain ops = true -> forallb copy_free ops = true.
Proof.
  rewrite !forallb_forall. intros H o I. specialize (H o I). apply (plain_spec H).
Qed.
Lemma same_call_plain c d o o' : same_call c d o o' -> plain o = plain o'.
Proof. intros []; try (destruct x); auto. Qed.
Lemma same_calls_plain c d (ops ops' : list (op K V)) : Forall2 (same_call c d) ops ops' -> forallb plain ops = forallb plain ops'.
Proof. induction 1; simpl; auto. rewrite IHForall2. erewrite same_call_plain; eauto. Qed.

Lemma copy_behaves w c d w' ops ops' : reachable E w -> copies E c d w w' ->
  Forall2 (same_call c d) ops ops' -> forallb plain ops = true -> careful E d ops' w' ->
  alike w w' (run E ops w) (run E ops' w').
Proof.
  intros H C F P Ca. destruct (reach_rel G H) as (aw & R).
  destruct (copies_ev G R C) as (a & z & rd & aw' & Ha & T & RZ & N & Hd & O & Rd & St & L).
  eapply (two_runs (Cr := cr c d) (P := same_call c d)) with (aw1 := aw) (aw2 := aw') (d := d) (d' := d); auto.
  - intros. apply cr_step; auto.
  - right. split; [exact R|apply plain_copy_free; auto].
  - left. split; [|exact Ca]. right. exists rd, z, a. auto.
  - split; [congruence|]. auto.
  - rewrite <- (same_calls_plain F). auto.
Qed.

(** ** The original does not notice *)
Lemma frs d aw1 aw2 o : concerns d o = true -> fr 0 d aw1 aw2 -> cres (fr 0 d) aw1 aw2 (astep E 0 o aw1) (astep E 0 o aw2).
Proof. intros C F. pose proof (fr_step E C F) as S. rewrite shift_0 in S. exact S. Qed.
Lemma concerns_careful d e ops w : d <> e -> forallb (concerns e) ops = true -> careful E d ops w.
Proof.
  intros N. revert w. induction ops as [|o t IH]; intros w F; [constructor|].
  simpl in F. apply andb_prop in F as (F1 & F2). unfold concerns in F1. apply andb_prop in F1 as (F1 & _). apply andb_prop in F1 as (F0 & F1).
  apply careful_other; auto.
  - apply (plain_spec F0).
  - intros I. rewrite forallb_forall in F1. apply F1 in I. apply Nat.eqb_eq in I. auto.
Qed.
Lemma concerns_plain e (ops : list (op K V)) : forallb (concerns e) ops = true -> forallb plain ops = true.
Proof.
  rewrite !forallb_forall. intros H o I. specialize (H o I). unfold concerns in H.
  apply andb_prop in H as (H & _). apply andb_prop in H. tauto.
Qed.
Lemma Forall2_diag {A} (P : A -> Prop) (l : list A) : (forall x, In x l -> P x) -> Forall2 (fun x y => x = y /\ P x) l l.
Proof. induction l; constructor; simpl in *; auto. Qed.
Lemma copy_unnoticed w c d w' e ops : reachable E w -> copies E c d w w' -> e <> d ->
  forallb (concerns e) ops = true -> alike w w' (run E ops w) (run E ops w').
Proof.
  intros H C N F. destruct (reach_rel G H) as (aw & R).
  destruct (copies_ev G R C) as (a & z & rd & aw' & Ha & T & RZ & Nc & Hd & O & Rd & St & L).
  pose proof (concerns_plain F) as P.
  eapply (two_runs (Cr := fr 0 e) (P := fun x y => x = y /\ concerns e x = true)) with (aw1 := aw) (aw2 := aw') (d := d) (d' := d); auto.
  - intros o o' aw1 aw2 (<- & Q). apply frs; auto.
  - apply Forall2_diag. intros x I. rewrite forallb_forall in F. auto.
  - right. split; [exact R|apply plain_copy_free; auto].
  - left. split; [|eapply concerns_careful; [|exact F]; auto]. right. exists rd, z, a. auto.
  - split; [symmetry; apply O; auto|]. intros b Hb. split.
    + right. simpl. congruence.
    + intros s _. rewrite St. auto.
Qed.

(** Nor does a cache notice what is done to a copy. *)
Lemma copy_unaffected w c d w1 ops outs w2 e : reachable E w -> copies E c d w w1 -> careful E d ops w1 ->
  run E ops w1 = Finished outs w2 -> alive w1 e = true -> (forall o, In o ops -> ~ In e (mentions o)) ->
  same_elements E e w1 e w2.
Proof. intros. eapply copy_apart; eauto. Qed.
End Run.
