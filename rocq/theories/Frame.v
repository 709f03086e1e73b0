(** Calls on one cache do not affect another; the hash order is unobservable. *)
From Coq Require Import List Arith ZArith Bool Permutation Lia.
Import ListNotations.
From Verif Require Import Monad Types Model Api Spec Ref Lists SimBase SimRel SimOps SimIns SimErase SimIter SimNew SimObs SimExec RefEval SimRun LruProofs CallProofs LruMore Flat Global Safe.
Set Implicit Arguments.
Unset Strict Implicit.

Section Env.
Context {K V : Type}.
Notation acache := (acache K V).
Notation aworld := (aworld K V).
Notation world := (world K V).
Implicit Types (E : env K V) (w : world) (a : acache) (aw : aworld) (o : op K V).

(** The representation depends on KeyEqual only. *)
Lemma rel_env E E' w aw : (forall j k, key_equal E j k = key_equal E' j k) -> rel E w aw -> rel E' w aw.
Proof.
  intros Q R. destruct R as [R1 R2 R3 R4 R5 R6 R7]. constructor; auto.
  intros c. specialize (R2 c). destruct (slot (w_caches w) c), (slot (aw_caches aw) c); auto.
  destruct R2 as (s & l & H & Rp). exists s, l. split; auto.
  destruct Rp as [S ? ? ? ? ? ? ? ?]. constructor; auto. destruct S as [? ? ? ? ? D]. constructor; auto.
  clear -Q D. induction (ents l) as [|e t IH]; simpl in *; auto. destruct D as (D1 & D2). split; auto.
  rewrite Forall_forall in *. intros x I. rewrite <- Q. auto.
Qed.

Lemma shift_good m E : good E -> good (shift m E).
Proof. intros []. constructor; auto. Qed.
Lemma shift_0 E : shift 0 E = E.
Proof. destruct E; reflexivity. Qed.
Lemma rehashed_good p r E : (forall l n, Permutation (p l n) (n :: l)) -> good E -> good (rehashed p r E).
Proof. intros P []. constructor; auto. Qed.

Lemma plain_step E o w aw : good E -> rel E w aw -> plain o = true ->
  simr E (fun r r' _ _ => r = r') (exec E o w) (astep E 0 o aw).
Proof.
  intros G R P. destruct (plain_spec P) as (P1 & P2 & P3).
  destruct (exec_sim G (o := o) R P1) as (ch & S). rewrite (aexec_ch E ch P2) in S.
  rewrite astep_ev in S; auto; [|eapply awf_rel; eauto].
  eapply sim_weaken; [exact S|]. simpl. unfold ok. intros. apply P3; auto.
Qed.

End Env.

Section Frame.
Context {K V : Type}.
Variable E : env K V.
Variable m : nat.
Notation acache := (acache K V).
Notation aworld := (aworld K V).
Notation world := (world K V).
Implicit Types (w : world) (a : acache) (aw : aworld) (o : op K V).

(** Clock positions that look the same to cache [a]. *)
Definition at_same a (n n' : nat) : Prop := a_ttl a = None \/ n = m + n'.

Lemma at_same_add a n n' i : at_same a n n' -> at_same a (i + n) (i + n').
Proof. intros [H|H]; [left; auto|right; lia]. Qed.
Lemma stale_same a e n n' : at_same a n n' -> stale E (a_ttl a) e n = stale (shift m E) (a_ttl a) e n'.
Proof. intros [H|H]; unfold stale; [rewrite H; auto|rewrite H; auto]. Qed.
Lemma stamp_same a n n' : at_same a n n' -> stamp_at E a n = stamp_at (shift m E) a n'.
Proof. intros [H|H]; unfold stamp_at; [rewrite H; auto|rewrite H; auto]. Qed.

Lemma find_same k a n n' : at_same a n n' -> l_find E k a n = l_find (shift m E) k a n'.
Proof.
  intros H. unfold l_find. change (lookup_ent (shift m E) k) with (lookup_ent E k).
  destruct (lookup_ent E k (a_ents a)); auto. rewrite (stale_same _ H). reflexivity.
Qed.
Lemma contains_same k a n n' : at_same a n n' -> l_contains E k a n = l_contains (shift m E) k a n'.
Proof.
  intros H. unfold l_contains. change (lookup_ent (shift m E) k) with (lookup_ent E k).
  change (a_hot_ent (shift m E) a k) with (a_hot_ent E a k).
  destruct (a_hot_ent E a k); [|destruct (lookup_ent E k (a_ents a))]; auto; rewrite (stale_same _ H); reflexivity.
Qed.
Lemma lookup_same k a n n' : at_same a n n' -> l_lookup E k a n = l_lookup (shift m E) k a n'.
Proof.
  intros H. unfold l_lookup. change (lookup_ent (shift m E) k) with (lookup_ent E k).
  change (a_hot_ent (shift m E) a k) with (a_hot_ent E a k).
  destruct (a_hot_ent E a k); [|destruct (lookup_ent E k (a_ents a))]; auto; rewrite (stale_same _ H); auto.
  rewrite (stale_same _ (at_same_add (tkn a) H)). reflexivity.
Qed.
Lemma insert_ttl k v t a : a_ttl (snd (insert_c E k v t a)) = a_ttl a.
Proof. unfold insert_c. destruct (Nat.eqb (a_cap a) 0), (lookup_ent E k (a_ents a)); auto. Qed.
Lemma inserts_same l : forall cnt a n n', at_same a n n' -> exists cnt' a' i,
  l_inserts E l cnt a n = (cnt', a', i + n) /\ l_inserts (shift m E) l cnt a n' = (cnt', a', i + n').
Proof.
  induction l as [|p l IH]; intros cnt a n n' H; simpl.
  - exists cnt, a, 0. auto.
  - rewrite <- (stamp_same H).
    change (insert_c (shift m E)) with (insert_c E). change (l_insert_ticks (shift m E)) with (l_insert_ticks E).
    set (r := insert_c E (fst p) (snd p) (stamp_at E a n) a).
    assert (H1 : at_same (snd r) (l_insert_ticks E (fst p) a + n) (l_insert_ticks E (fst p) a + n')).
    { unfold at_same. unfold r. rewrite insert_ttl. apply at_same_add. auto. }
    destruct (IH (if fst (fst r) then S cnt else cnt) _ _ _ H1) as (cnt' & a' & i & A & B).
    rewrite A, B. exists cnt', a', (i + l_insert_ticks E (fst p) a). split; f_equal; lia.
Qed.
Lemma clear_same l : forall a n n' cnt, at_same a n n' -> exists cnt' a' i,
  l_clear E l a n cnt = (cnt', a', i + n) /\ l_clear (shift m E) l a n' cnt = (cnt', a', i + n').
Proof.
  induction l as [|e l IH]; intros a n n' cnt H; simpl.
  - exists cnt, a, 0. auto.
  - rewrite <- (stale_same _ H). destruct (stale E (a_ttl a) e n).
    + change (removed (shift m E)) with (removed E).
      destruct (IH (removed E (e_key e) a) (tkn a + n) (tkn a + n') (S cnt)) as (cnt' & a' & i & A & B).
      { apply (@at_same_add a n n' (tkn a)); auto. }
      rewrite A, B. exists cnt', a', (i + tkn a). split; f_equal; lia.
    + exists cnt, a, (tkn a). auto.
Qed.

Lemma local_same ch o a n n' : at_same a n n' -> local E ch o a n = local (shift m E) ch o a n'.
Proof.
  intros H. destruct o; try reflexivity; cbn [local];
    rewrite ?(find_same _ H), ?(contains_same _ H), ?(lookup_same _ H), ?(stamp_same H); try reflexivity.
  - destruct (inserts_same l 0 (a := with_cap (Nat.max (a_cap a) (length l)) (keep 0 a)) (n := n) (n' := n')) as (cnt' & a' & i & -> & ->); auto.
    rewrite !Nat.add_sub. auto.
  - destruct (inserts_same l 0 (a := with_cap (Nat.max (a_cap a) (length l)) (keep 0 a)) (n := n) (n' := n')) as (cnt' & a' & i & -> & ->); auto.
    rewrite !Nat.add_sub. auto.
  - destruct (inserts_same l 0 H) as (cnt' & a' & i & -> & ->). rewrite !Nat.add_sub. auto.
  - destruct (inserts_same l 0 H) as (cnt' & a' & i & -> & ->). rewrite !Nat.add_sub. auto.
  - change (lookup_ent (shift m E) k) with (lookup_ent E k). destruct (lookup_ent E k (a_ents a)); auto.
    rewrite (stale_same _ H), (stale_same _ (at_same_add (tkn a) H)). reflexivity.
  - destruct (nth_error (a_ents a) n0); auto. rewrite (stale_same _ H). reflexivity.
  - destruct (clear_same (a_ents a) 0 H) as (cnt' & a' & i & -> & ->). rewrite !Nat.add_sub. auto.
  - change (lookup_ent (shift m E) k) with (lookup_ent E k). destruct (lookup_ent E k (a_ents a)); auto.
    rewrite (stale_same _ H). reflexivity.
  - destruct (last_ent (a_ents a)); auto. rewrite (stale_same _ H). reflexivity.
  - destruct (nth_error (a_ents a) n0); auto. rewrite (stale_same _ H). reflexivity.
  - destruct (nth_error (a_ents a) n0); auto. rewrite (stale_same _ H). reflexivity.
Qed.

(** What a call on one cache preserves of it. *)
Lemma inserts_attr E' l : forall cnt a n, let a' := snd (fst (l_inserts E' l cnt a n)) in
  a_ttl a' = a_ttl a /\ a_stats a' = a_stats a /\ a_cbs a' = a_cbs a /\ a_cap a' = a_cap a.
Proof.
  induction l as [|p l IH]; intros cnt a n; simpl; auto.
  specialize (IH (if fst (fst (insert_c E' (fst p) (snd p) (stamp_at E' a n) a)) then S cnt else cnt)
    (snd (insert_c E' (fst p) (snd p) (stamp_at E' a n) a)) (l_insert_ticks E' (fst p) a + n)).
  simpl in IH. destruct IH as (-> & -> & -> & ->).
  unfold insert_c. destruct (Nat.eqb (a_cap a) 0), (lookup_ent E' (fst p) (a_ents a)); auto.
Qed.
Lemma clear_attr E' l : forall a n cnt, let a' := snd (fst (l_clear E' l a n cnt)) in
  a_ttl a' = a_ttl a /\ a_stats a' = a_stats a /\ a_cbs a' = a_cbs a /\ a_cap a' = a_cap a.
Proof.
  induction l as [|e l IH]; intros a n cnt; simpl; auto.
  destruct (stale E' (a_ttl a) e n); simpl; auto. apply (IH (removed E' (e_key e) a)).
Qed.
Lemma local_attr E' ch o a n : let a' := snd (fst (fst (local E' ch o a n))) in
  a_ttl a' = a_ttl a /\
  a_stats a' = match o with MonitorShared _ s => Some s | StopMonitoring _ => None | _ => a_stats a end.
Proof.
  assert (L : forall k, let a' := snd (fst (fst (l_lookup E' k a n))) in a_ttl a' = a_ttl a /\ a_stats a' = a_stats a).
  { intros k. unfold l_lookup. destruct (a_hot_ent E' a k) as [e|]; [|destruct (lookup_ent E' k (a_ents a)) as [e|]]; simpl; auto;
    destruct (stale E' (a_ttl a) e n); simpl; auto. destruct (stale E' (a_ttl a) e (tkn a + n)); auto. }
  assert (F : forall k, let a' := snd (fst (fst (l_find E' k a n))) in a_ttl a' = a_ttl a /\ a_stats a' = a_stats a).
  { intros k. unfold l_find. destruct (lookup_ent E' k (a_ents a)) as [e|]; simpl; auto;
    destruct (stale E' (a_ttl a) e n); simpl; auto. }
  assert (C : forall k, let a' := snd (fst (fst (l_contains E' k a n))) in a_ttl a' = a_ttl a /\ a_stats a' = a_stats a).
  { intros k. unfold l_contains. destruct (a_hot_ent E' a k) as [e|]; [|destruct (lookup_ent E' k (a_ents a)) as [e|]]; simpl; auto;
    destruct (stale E' (a_ttl a) e n); simpl; auto. }
  assert (T : forall A B (f : A -> B) (r : @ans K V A), snd (fst (fst (then_ f r))) = snd (fst (fst r))).
  { intros A B f (((r & a') & x) & i). destruct r; auto. }
  destruct o; cbn [local]; try (simpl; auto; fail); rewrite ?T; auto.
  - pose proof (inserts_attr E' l 0 (with_cap (Nat.max (a_cap a) (length l)) (keep 0 a)) n) as H. simpl in H.
    destruct (l_inserts E' l 0 _ n) as ((? & ?) & ?); simpl in *. tauto.
  - pose proof (inserts_attr E' l 0 (with_cap (Nat.max (a_cap a) (length l)) (keep 0 a)) n) as H. simpl in H.
    destruct (l_inserts E' l 0 _ n) as ((? & ?) & ?); simpl in *. tauto.
  - simpl. unfold insert_c. destruct (Nat.eqb (a_cap a) 0), (lookup_ent E' k (a_ents a)); auto.
  - simpl. unfold insert_c. destruct (Nat.eqb (a_cap a) 0), (lookup_ent E' k (a_ents a)); auto.
  - pose proof (inserts_attr E' l 0 a n) as H. simpl in H.
    destruct (l_inserts E' l 0 _ n) as ((? & ?) & ?); simpl in *. tauto.
  - pose proof (inserts_attr E' l 0 a n) as H. simpl in H.
    destruct (l_inserts E' l 0 _ n) as ((? & ?) & ?); simpl in *. tauto.
  - destruct (lookup_ent E' k (a_ents a)) as [e|]; simpl; auto. destruct (stale E' (a_ttl a) e n); simpl; auto.
    destruct (stale E' (a_ttl a) e (tkn a + n)); simpl; auto.
  - specialize (L k). destruct (l_lookup E' k a n) as (((r & a') & x) & i). destruct r; simpl in *; auto.
  - destruct (lookup_ent E' k (a_ents a)); simpl; auto.
  - specialize (F k). destruct (l_find E' k a n) as (((r & a') & x) & i). destruct r as [[e|] ?| | |]; simpl in *; auto.
  - destruct (nth_error (a_ents a) n0) as [e|]; simpl; auto. destruct (stale E' (a_ttl a) e n); simpl; auto.
  - destruct (Nat.leb (length (a_ents a)) n0); simpl; auto. destruct (nth_error (a_ents a) ch); simpl; auto.
  - pose proof (clear_attr E' (a_ents a) a n 0) as H. simpl in H.
    destruct (l_clear E' (a_ents a) a n 0) as ((? & ?) & ?); simpl in *. tauto.
  - destruct (last_ent (a_ents a)); simpl; auto.
  - destruct (a_ents a); simpl; auto.
  - destruct (lookup_ent E' k (a_ents a)); simpl; auto.
  - destruct (last_ent (a_ents a)); simpl; auto.
  - destruct (nth_error (a_ents a) n0); simpl; auto.
  - destruct (nth_error (a_ents a) n0); simpl; auto.
Qed.

Lemma noted_log E' a x aw : exists l, aw_log (noted E' a x aw) = aw_log aw ++ l /\
  forall E2 aw2, key_eqop E2 = key_eqop E' -> aw_log (noted E2 a x aw2) = aw_log aw2 ++ l.
Proof.
  destruct x; simpl.
  - exists []. split; [symmetry; apply app_nil_r|intros; symmetry; apply app_nil_r].
  - eexists. split; reflexivity.
  - eexists. split; reflexivity.
Qed.
Lemma noted_reads E' a x aw : aw_reads (noted E' a x aw) = aw_reads aw.
Proof. destruct x; auto. Qed.
Lemma counted_same st (f : statistics K -> statistics K) t i : st <> Some i -> slot (counted st f t) i = slot t i.
Proof.
  intros H. destruct st as [j|]; simpl; auto. destruct (slot t j); auto.
  apply slot_upd_other. congruence.
Qed.
Lemma counted_cong st (f : statistics K -> statistics K) t t' i : slot t i = slot t' i -> slot (counted st f t) i = slot (counted st f t') i.
Proof.
  intros H. destruct st as [j|]; simpl; auto. destruct (Nat.eq_dec j i) as [->|N].
  - rewrite <- H. destruct (slot t i) eqn:S; [|congruence].
    erewrite !slot_upd_same; eauto.
  - destruct (slot t j), (slot t' j); rewrite ?slot_upd_other by auto; auto.
Qed.

Definition fr (d : nat) aw1 aw2 : Prop :=
  slot (aw_caches aw1) d = slot (aw_caches aw2) d /\
  forall a, slot (aw_caches aw1) d = Some a -> at_same a (aw_reads aw1) (aw_reads aw2) /\
    forall s, a_stats a = Some s -> slot (aw_stats aw1) s = slot (aw_stats aw2) s.

Definition longer aw1 aw2 aw1' aw2' : Prop :=
  exists l, aw_log aw1' = aw_log aw1 ++ l /\ aw_log aw2' = aw_log aw2 ++ l.
Definition fres d aw1 aw2 (r1 r2 : res aworld (out K V)) : Prop :=
  match r1, r2 with
  | Val r aw1', Val r' aw2' => r = r' /\ fr d aw1' aw2' /\ longer aw1 aw2 aw1' aw2'
  | Exc e aw1', Exc e' aw2' => e = e' /\ fr d aw1' aw2' /\ longer aw1 aw2 aw1' aw2'
  | Undef u, Undef u' => u = u'
  | Term e, Term e' => e = e'
  | _, _ => False
  end.

Lemma longer_refl aw1 aw2 : longer aw1 aw2 aw1 aw2.
Proof. exists []. rewrite !app_nil_r. auto. Qed.
Lemma longer_trans aw1 aw2 aw3 aw4 aw5 aw6 : longer aw1 aw2 aw3 aw4 -> longer aw3 aw4 aw5 aw6 ->
  longer aw1 aw2 aw5 aw6.
Proof.
  intros (l & A & B) (l' & C & D). exists (l ++ l'). rewrite C, D, A, B, !app_assoc. auto.
Qed.
Lemma fres_same d aw1 aw2 r : fr d aw1 aw2 -> fres d aw1 aw2 (Val r aw1) (Val r aw2).
Proof. intros F. simpl. auto using longer_refl. Qed.
Lemma fres_exc d aw1 aw2 e : fr d aw1 aw2 -> fres d aw1 aw2 (Exc e aw1) (Exc e aw2).
Proof. intros F. simpl. auto using longer_refl. Qed.

Lemma fr_step d o aw1 aw2 : concerns d o = true -> fr d aw1 aw2 ->
  fres d aw1 aw2 (astep E 0 o aw1) (astep (shift m E) 0 o aw2).
Proof.
  intros C F. pose proof F as (F1 & F2). unfold concerns in C.
  apply andb_prop in C as (C & C3). apply andb_prop in C as (C1 & C2).
  rewrite forallb_forall in C2.
  assert (ME : forall c, In c (mentions o) -> c = d).
  { intros c I. apply C2 in I. apply Nat.eqb_eq in I. auto. }
  assert (WF : a_well_formed aw1 o = a_well_formed aw2 o).
  { destruct o; try discriminate; simpl in ME; repeat match goal with
      | H : forall c, ?a = c \/ False -> c = d |- _ => pose proof (H a (or_introl eq_refl)); clear H
      | H : forall c, ?a = c \/ ?b = c \/ False -> c = d |- _ =>
          pose proof (H a (or_introl eq_refl)); pose proof (H b (or_intror (or_introl eq_refl))); clear H
      end; subst; simpl; unfold a_alive, a_timed; rewrite F1; auto. }
  unfold astep. rewrite <- WF. destruct (a_well_formed aw1 o) eqn:W; simpl; [|apply fres_same; auto].
  destruct (target o) as [c|] eqn:T.
  { assert (c = d) by (apply ME; destruct o; inversion T; subst; simpl; auto). subst c.
    unfold two. rewrite <- F1. destruct (slot (aw_caches aw1) d) as [a|] eqn:Ha; [|apply fres_same; auto].
    destruct (F2 a eq_refl) as (S1 & S2).
    pose proof (local_attr E 0 o a (aw_reads aw1)) as (A1 & A2).
    rewrite <- (local_same 0 o S1). destruct (local E 0 o a (aw_reads aw1)) as (((r & a') & x) & i).
    simpl in A1, A2.
    assert (X : fr d (awith d a' (noted E a x (ticks i aw1))) (awith d a' (noted (shift m E) a x (ticks i aw2)))).
    { split.
      - simpl. rewrite !noted_caches. simpl. erewrite !slot_upd_same; eauto.
      - intros a2. simpl. rewrite noted_caches. simpl. erewrite slot_upd_same by eauto. intros Q; inversion Q; subst a2.
        rewrite !noted_reads. simpl. split.
        + destruct S1 as [S1|S1]; [left; congruence|right; lia].
        + intros s As. assert (As' : a_stats a = Some s).
          { rewrite A2 in As. destruct o; try discriminate; auto. }
          specialize (S2 s As'). destruct x; simpl; auto; apply counted_cong; auto. }
    assert (Y : longer aw1 aw2 (awith d a' (noted E a x (ticks i aw1))) (awith d a' (noted (shift m E) a x (ticks i aw2)))).
    { destruct (noted_log E a x (ticks i aw1)) as (l & L1 & L2). exists l. simpl. rewrite L1, L2; auto. }
    destruct r; simpl; auto. }
  destruct (stats_target o) as [c|] eqn:ST.
  { assert (c = d) by (apply ME; destruct o; inversion ST; subst; simpl; auto). subst c.
    unfold two. rewrite <- F1. destruct (slot (aw_caches aw1) d) as [a|] eqn:Ha; [|apply fres_same; auto].
    destruct (F2 a eq_refl) as (S1 & S2). destruct (a_stats a) as [s|] eqn:As; [|apply fres_exc; auto].
    specialize (S2 s eq_refl). rewrite <- S2. destruct (slot (aw_stats aw1) s) as [x|] eqn:Hs; [|reflexivity].
    change (on_stats (shift m E) o x) with (on_stats E o x). destruct (on_stats E o x) as (r & x').
    assert (X : fr d (wstats s x' aw1) (wstats s x' aw2)).
    { split; [simpl; congruence|]. intros a2 H2. change (slot (aw_caches aw1) d = Some a2) in H2.
      rewrite Ha in H2. inversion H2; subst a2.
      split; auto. intros s' Hs'. simpl. rewrite As in Hs'. inversion Hs'; subst s'.
      erewrite !slot_upd_same; eauto. }
    assert (Y : longer aw1 aw2 (wstats s x' aw1) (wstats s x' aw2)) by (exists []; simpl; rewrite !app_nil_r; auto).
    destruct r; simpl; auto. }
  destruct o; try discriminate; simpl in ME; simpl building; cbv iota;
    try (assert (c = d) by (apply ME; auto); subst c);
    try (assert (d0 = d) by (apply ME; auto); subst d0); try (apply fres_same; auto; fail).
  - (* Destroy *) simpl. split; auto. split; [|exists []; simpl; rewrite !app_nil_r; auto].
    assert (Q : forall aw, slot (upd (aw_caches aw) d None) d = None).
    { intros aw. destruct (slot (aw_caches aw) d) eqn:S; [erewrite slot_upd_same; eauto|].
      unfold slot in *. destruct (Nat.lt_ge_cases d (length (aw_caches aw))).
      - rewrite nth_upd_same; auto.
      - rewrite nth_overflow; auto. rewrite upd_length; auto. }
    split; simpl; rewrite !Q; auto. discriminate.
  - (* MoveAssign *) unfold two. rewrite <- F1. destruct (slot (aw_caches aw1) d); [|apply fres_same; auto].
    rewrite Nat.eqb_refl. apply fres_same; auto.
  - (* Swap *) unfold two. rewrite <- F1. destruct (slot (aw_caches aw1) d); [|apply fres_same; auto].
    rewrite Nat.eqb_refl. apply fres_same; auto.
  - (* Equal *) unfold two. rewrite <- F1. destruct (slot (aw_caches aw1) d); [|apply fres_same; auto].
    rewrite Nat.eqb_refl. apply fres_same; auto.
Qed.

Lemma fr_run (G : good E) d ops : forall w1 w2 aw1 aw2, rel E w1 aw1 -> rel E w2 aw2 -> fr d aw1 aw2 ->
  forallb (concerns d) ops = true -> alike w1 w2 (run E ops w1) (run (shift m E) ops w2).
Proof.
  induction ops as [|o t IH]; intros w1 w2 aw1 aw2 R1 R2 F C; cbn [run].
  - split; auto. exists []. simpl. rewrite !app_nil_r. auto.
  - simpl in C. apply andb_prop in C as (C1 & C2).
    assert (P : plain o = true). { unfold concerns in C1. apply andb_prop in C1 as (C1 & _). apply andb_prop in C1. tauto. }
    pose proof (plain_step G R1 P) as X1.
    assert (R2' : rel (shift m E) w2 aw2) by (apply (rel_env (E := E)); auto).
    pose proof (plain_step (shift_good m G) R2' P) as X2.
    pose proof (fr_step C1 F) as S.
    assert (K0 : forall r w1' w2' aw1' aw2', rel E w1' aw1' -> rel (shift m E) w2' aw2' -> fr d aw1' aw2' ->
        longer aw1 aw2 aw1' aw2' -> alike w1 w2 (push r (run E t w1')) (push r (run (shift m E) t w2'))).
    { intros r w1' w2' aw1' aw2' Ra Rb Fr (l & L1 & L2).
      assert (Rb' : rel E w2' aw2') by (apply (rel_env (E := shift m E)); auto).
      destruct (IH w1' w2' aw1' aw2' Ra Rb' Fr C2) as (Q & l' & H1 & H2). split.
      - destruct (run E t w1'), (run (shift m E) t w2'); simpl in *; congruence.
      - exists (l ++ l'). rewrite <- (rel_log Ra), <- (rel_log R1) in L1.
        rewrite <- (rel_log Rb), <- (rel_log R2') in L2. split.
        + destruct (run E t w1'); simpl in *; auto. rewrite H1, L1, app_assoc. auto.
        + destruct (run (shift m E) t w2'); simpl in *; auto. rewrite H2, L2, app_assoc. auto. }
    destruct (exec E o w1) as [r1 w1'|e1 w1'|u1|e1], (astep E 0 o aw1) as [q1 aw1'|f1 aw1'|u1'|f1]; simpl in X1; try easy;
      destruct (exec (shift m E) o w2) as [r2 w2'|e2 w2'|u2|e2], (astep (shift m E) 0 o aw2) as [q2 aw2'|f2 aw2'|u2'|f2]; simpl in X2, S; try easy.
    + destruct X1 as (Ra & ->), X2 as (Rb & ->), S as (-> & Fr & L). eauto.
    + destruct X1 as (-> & Ra), X2 as (-> & Rb), S as (-> & Fr & L). eauto.
    + subst. split; auto. exists []. simpl. auto.
    + subst. split; auto. exists []. simpl. auto.
Qed.

End Frame.

Section Frame2.
Context {K V : Type}.
Variable E : env K V.
Hypothesis G : good E.
Notation acache := (acache K V).
Notation aworld := (aworld K V).
Notation world := (world K V).
Implicit Types (w : world) (a : acache) (aw : aworld) (o : op K V).

(** A call leaves the caches it does not name, and their statistics. *)
Definition spares d a aw aw' : Prop :=
  slot (aw_caches aw') d = Some a /\ (exists i, aw_reads aw' = i + aw_reads aw) /\
  forall s, a_stats a = Some s -> slot (aw_stats aw') s = slot (aw_stats aw) s.

Lemma step_spares ch o d a aw : slot (aw_caches aw) d = Some a -> ~ In d (mentions o) -> stats_ok aw a ->
  (forall c b s, In c (mentions o) -> slot (aw_caches aw) c = Some b -> a_stats b = Some s -> a_stats a <> Some s) ->
  match astep E ch o aw with
  | Val _ aw' | Exc _ aw' => spares d a aw aw'
  | _ => True
  end.
Proof.
  intros Ha N SO SEP. assert (REFL : spares d a aw aw) by (split; auto; split; auto; exists 0; auto).
  unfold astep. destruct (a_well_formed aw o); simpl; auto.
  destruct (target o) as [c|] eqn:T.
  { assert (I : In c (mentions o)) by (destruct o; inversion T; subst; simpl; auto).
    assert (c <> d) by congruence.
    unfold two. destruct (slot (aw_caches aw) c) as [b|] eqn:Hb; auto.
    destruct (local E ch o b (aw_reads aw)) as (((r & b') & x) & i).
    assert (X : spares d a aw (awith c b' (noted E b x (ticks i aw)))).
    { split; [|split].
      - simpl. rewrite noted_caches, slot_upd_other; auto.
      - exists i. simpl. rewrite noted_reads. auto.
      - intros s As. specialize (fun s => SEP c b s I Hb).
        destruct x; simpl; auto; apply counted_same; intros Q; apply (SEP _ Q As). }
    destruct r; simpl; auto. }
  destruct (stats_target o) as [c|] eqn:ST.
  { assert (I : In c (mentions o)) by (destruct o; inversion ST; subst; simpl; auto).
    unfold two. destruct (slot (aw_caches aw) c) as [b|] eqn:Hb; auto.
    destruct (a_stats b) as [s|] eqn:Bs; auto. destruct (slot (aw_stats aw) s) as [x|]; auto.
    destruct (on_stats E o x) as (r & x').
    assert (X : spares d a aw (wstats s x' aw)).
    { split; [|split]; simpl; auto; [exists 0; auto|]. intros s' As. apply slot_upd_other.
      intros ->. apply (SEP c b s' I Hb Bs As). }
    destruct r; simpl; auto. }
  destruct (building o) as [((cap & ttl) & l)|].
  { destruct (l_inserts E l 0 (fresh_a cap ttl) (aw_reads aw)) as ((cnt & a') & n').
    split; [|split]; simpl; auto. rewrite slot_app_lt; auto. eapply slot_lt; eauto. exists (n' - aw_reads aw). auto. }
  destruct o; auto; simpl in N; unfold two.
  - (* Move *) destruct (slot (aw_caches aw) c) as [b|] eqn:Hb; auto. destruct (junk E); auto.
    split; [|split]; simpl; auto; [|exists 0; auto].
    rewrite slot_app_lt; [rewrite slot_upd_other; auto|rewrite upd_length; eapply slot_lt; eauto].
  - (* Destroy *) split; [|split]; simpl; auto; [|exists 0; auto]. rewrite slot_upd_other; auto.
  - (* MoveAssign *) destruct (slot (aw_caches aw) c) as [b|]; auto. destruct (slot (aw_caches aw) d0) as [b'|]; auto.
    destruct (Nat.eqb c d0); auto. split; [|split]; simpl; auto; [|exists 0; auto]. rewrite !slot_upd_other; auto.
  - (* Swap *) destruct (slot (aw_caches aw) c) as [b|]; auto. destruct (slot (aw_caches aw) d0) as [b'|]; auto.
    destruct (Nat.eqb c d0); auto. split; [|split]; simpl; auto; [|exists 0; auto]. rewrite !slot_upd_other; auto.
  - (* Equal *) destruct (slot (aw_caches aw) c) as [b|]; auto. destruct (slot (aw_caches aw) d0) as [b'|]; auto.
  - (* MonitorNew *) destruct (slot (aw_caches aw) c) as [b|]; auto.
    split; [|split]; simpl; auto; [rewrite slot_upd_other; auto|exists 0; auto|].
    intros s As. apply slot_app_lt. specialize (SO s As). destruct (slot (aw_stats aw) s) eqn:Q; [|congruence].
    eapply slot_lt; eauto.
Qed.

Lemma frame w o d r w' : reachable E w -> copy_free o = true -> call E o w r w' ->
  alive w d = true -> ~ In d (mentions o) -> (forall c, In c (mentions o) -> separate w c d) ->
  (forall l, contents E d w l -> contents E d w' l) /\ (forall n, capacity_is E d w n -> capacity_is E d w' n) /\
  (exists m, forall ops, forallb (concerns d) ops = true ->
     alike w' w (run E ops w') (run (shift m E) ops w)) /\
  (timed w d = false -> forall ops, forallb (concerns d) ops = true ->
     alike w' w (run E ops w') (run E ops w)).
Proof.
  intros H CF X A N SEP. destruct (reach_rel G H) as (aw & R). destruct (alive_inv R A) as (a & Ha).
  destruct (exec_step G R CF) as (ch & S).
  assert (Q : exists aw', rel E w' aw' /\ spares d a aw aw').
  { assert (P : match astep E ch o aw with Val _ aw' | Exc _ aw' => spares d a aw aw' | _ => True end).
    { apply step_spares; auto. eapply rel_st; eauto.
      intros c b s I Hb Bs As.
      destruct (rel_get _ R Ha) as (x & st & l & At & Rp). destruct (rel_get _ R Hb) as (y & st' & l' & At' & Rp').
      apply (SEP c I y x s (at_slot At') (at_slot At)). rewrite (rp_stats Rp'); auto. rewrite (rp_stats Rp); auto. }
    unfold call in X. destruct r; rewrite X in S; destruct (astep E ch o aw); simpl in S; try easy; eexists; split; try apply S; auto. }
  destruct Q as (aw' & R' & S1 & (i & S2) & S3).
  assert (FR : forall m, a_ttl a = None \/ m = i -> fr m d aw' aw).
  { intros m M. split; [congruence|]. intros a2 H2. rewrite S1 in H2. inversion H2; subst a2. split; auto.
    destruct M as [M|M]; [left; auto|right; lia]. }
  split; [|split; [|split]].
  - intros l C. destruct (contents_inv G R C) as (a2 & Ha2 & ->). rewrite Ha in Ha2; inversion Ha2; subst a2.
    apply (contents_of G R' S1).
  - intros n C. apply (capacity_inv R Ha) in C as <-. apply (capacity_of R' S1).
  - exists i. intros ops C. exact (fr_run G R' R (FR i (or_intror eq_refl)) C).
  - intros T ops C. rewrite <- (shift_0 E) at 2.
    exact (fr_run G R' R (FR 0 (or_introl (untimed_inv R Ha T))) C).
Qed.

End Frame2.

Section Hash.
Context {K V : Type}.
Variables (E : env K V) (p : list (nat * mnode K V) -> nat * mnode K V -> list (nat * mnode K V)) (h : store K V -> bool).
Hypothesis G : good E.
Hypothesis P : forall l n, Permutation (p l n) (n :: l).
Notation E' := (rehashed p h E).
Notation acache := (acache K V).
Notation aworld := (aworld K V).
Notation world := (world K V).
Implicit Types (w : world) (a : acache) (aw : aworld) (o : op K V).

Lemma astep_hash ch o aw : astep E' ch o aw = astep E ch o aw.
Proof. reflexivity. Qed.

Lemma step_log ch o aw : match astep E ch o aw with
  | Val _ aw' | Exc _ aw' => exists l, aw_log aw' = aw_log aw ++ l
  | _ => True
  end.
Proof.
  assert (REFL : exists l, aw_log aw = aw_log aw ++ l) by (exists []; rewrite app_nil_r; auto).
  unfold astep. destruct (a_well_formed aw o); simpl; auto.
  destruct (target o) as [c|].
  { unfold two. destruct (slot (aw_caches aw) c) as [b|]; auto.
    destruct (local E ch o b (aw_reads aw)) as (((r & b') & x) & i).
    destruct (noted_log E b x (ticks i aw)) as (l & L & _). destruct r; simpl; eauto. }
  destruct (stats_target o) as [c|].
  { unfold two. destruct (slot (aw_caches aw) c) as [b|]; auto.
    destruct (a_stats b) as [s|]; auto. destruct (slot (aw_stats aw) s) as [x|]; auto.
    destruct (on_stats E o x) as (r & x'). destruct r; simpl; auto. }
  destruct (building o) as [((cap & ttl) & l)|].
  { destruct (l_inserts E l 0 (fresh_a cap ttl) (aw_reads aw)) as ((cnt & a') & n'). auto. }
  destruct o; auto; unfold two; try (destruct (slot (aw_caches aw) c); auto);
    try (destruct (slot (aw_caches aw) d); auto); try (destruct (Nat.eqb c d); auto).
  destruct (junk E); auto.
Qed.

Lemma out_rel_similar o (r r' r2 : out K V) : out_rel o r r2 -> out_rel o r' r2 -> similar o (Returned r) (Returned r').
Proof.
  destruct o; simpl; try (intros; left; congruence).
  intros [->|(l & l' & -> & -> & Q)] [->|(l2 & l2' & -> & Q1 & Q')]; try (left; reflexivity).
  - subst. right. do 3 eexists. split; [reflexivity|]. split; [reflexivity|]. split; [reflexivity|]. apply Permutation_sym; auto.
  - right. do 3 eexists. split; [reflexivity|]. split; [reflexivity|]. split; [reflexivity|]. auto.
  - inversion Q1; subst. right. do 3 eexists. split; [reflexivity|]. split; [reflexivity|]. split; [reflexivity|].
    etransitivity; [exact Q|]. apply Permutation_sym; auto.
Qed.

Lemma hash_run ops : forall w1 w2 aw, rel E w1 aw -> rel E w2 aw -> forallb hash_free ops = true ->
  alike_unordered ops w1 w2 (run E ops w1) (run E' ops w2).
Proof.
  induction ops as [|o t IH]; intros w1 w2 aw R1 R2 C; cbn [run].
  - split; simpl; auto. split; auto. exists []. rewrite !app_nil_r. auto.
  - simpl in C. apply andb_prop in C as (C1 & C2). unfold hash_free in C1. apply andb_prop in C1 as (C0 & C1).
    assert (BH : by_hash o = false) by (destruct o; auto; discriminate).
    assert (G' : good E') by (apply rehashed_good; auto).
    assert (R2' : rel E' w2 aw) by (apply (rel_env (E := E)); auto).
    destruct (exec_sim G (o := o) R1 C0) as (ch & X1). destruct (exec_sim G' (o := o) R2' C0) as (ch' & X2).
    rewrite (aexec_ch E ch BH), astep_ev in X1; auto; [|eapply awf_rel; eauto].
    rewrite (aexec_ch E' ch' BH), astep_ev in X2; auto; [|eapply awf_rel; eauto]. rewrite astep_hash in X2.
    assert (K0 : forall r r' w1' w2' aw' l0, rel E w1' aw' -> rel E' w2' aw' -> aw_log aw' = aw_log aw ++ l0 -> similar o r r' ->
        alike_unordered (o :: t) w1 w2 (push r (run E t w1')) (push r' (run E' t w2'))).
    { intros r r' w1' w2' aw' l0 Ra Rb L S.
      assert (Rb' : rel E w2' aw') by (apply (rel_env (E := E')); auto).
      destruct (IH w1' w2' aw' Ra Rb' C2) as (Q & Q' & l' & H1 & H2).
      split; [|split].
      - destruct (run E t w1'), (run E' t w2'); simpl in *; auto.
      - destruct (run E t w1'), (run E' t w2'); simpl in *; auto.
      - exists (l0 ++ l'). rewrite <- (rel_log R1) in L.
        split.
        + destruct (run E t w1'); simpl in *; auto. rewrite H1, (rel_log Ra), L, app_assoc. auto.
        + rewrite (rel_log R1), <- (rel_log R2) in L.
          destruct (run E' t w2'); simpl in *; auto. rewrite H2, (rel_log Rb), L, app_assoc. auto. }
    pose proof (step_log 0 o aw) as L.
    destruct (exec E o w1) as [r1 w1'|e1 w1'|u1|e1], (exec E' o w2) as [r2 w2'|e2 w2'|u2|e2],
      (astep E 0 o aw) as [q1 aw1'|f1 aw1'|u1'|f1]; simpl in X1, X2; try easy.
    + destruct L as (l & L). destruct X1 as (Ra & X1), X2 as (Rb & X2). eapply K0; eauto. eapply out_rel_similar; eauto.
    + destruct L as (l & L). destruct X1 as (-> & Ra), X2 as (-> & Rb). eapply K0; eauto. left; auto.
    + subst. split; simpl; auto. split; auto. exists []. auto.
    + subst. split; simpl; auto. split; auto. exists []. auto.
Qed.

Lemma hash_unobservable ops : forallb hash_free ops = true ->
  alike_unordered ops init_world init_world (run E ops init_world) (run E' ops init_world).
Proof. intros F. eapply hash_run; eauto using rel_init. Qed.

End Hash.
