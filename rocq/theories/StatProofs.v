(** Monitoring, statistics and callbacks. *)
From Coq Require Import List Arith ZArith Bool Permutation Lia.
Import ListNotations.
From Verif Require Import Monad Types Model Api Spec SpecStats Ref Lists SimBase SimRel SimOps SimIns SimErase SimIter SimNew SimObs SimExec RefEval SimRun LruProofs CallProofs LruMore Flat Global Safe Frame.
Set Implicit Arguments.
Unset Strict Implicit.

(** ** One statistics object and its events *)
Section Book.
Context {K V : Type}.
Variable E : env K V.
Hypothesis Q : eqop_good E.
Implicit Types (k : K) (x : statistics K) (b : list (@bevent K)).

Lemma wrap_succ n : wrap64 (wrap64 (Z.of_nat n) + 1) = wrap64 (Z.of_nat (S n)).
Proof.
  unfold wrap64. rewrite Zplus_mod_idemp_l. f_equal. lia.
Qed.

Definition sized (h : nat * nat) : Z * Z := (wrap64 (Z.of_nat (fst h)), wrap64 (Z.of_nat (snd h))).
Fixpoint ukeys (l : list (K * (Z * Z))) : Prop :=
  match l with
  | [] => True
  | p :: t => (forall p', In p' t -> key_eqop E (fst p) (fst p') = false) /\ ukeys t
  end.
Record matches b x : Prop := {
  m_acc : st_acc x = wrap64 (Z.of_nat (n_accesses b));
  m_hits : st_hits x = wrap64 (Z.of_nat (n_hits b));
  m_keys : forall k, stat_find E k (st_keys x) = option_map sized (key_count E k b);
  m_uniq : ukeys (st_keys x)
}.

Lemma eqop_cong k k' j : key_eqop E k k' = true -> key_eqop E k j = key_eqop E k' j.
Proof.
  intros H. destruct (key_eqop E k j) eqn:A, (key_eqop E k' j) eqn:B; auto.
  - rewrite (eqop_sym Q) in H. rewrite (eqop_trans Q _ _ _ H A) in B. discriminate.
  - rewrite (eqop_trans Q _ _ _ H B) in A. discriminate.
Qed.

Lemma find_update k k' f l : stat_find E k (stat_update E k' f l) =
  if key_eqop E k k' then option_map f (stat_find E k l) else stat_find E k l.
Proof.
  induction l as [|(j & h) l IH]; simpl.
  - destruct (key_eqop E k k'); auto.
  - destruct (key_eqop E k' j) eqn:A; simpl.
    + destruct (key_eqop E k k') eqn:B.
      * rewrite (eqop_cong _ B), A. auto.
      * destruct (key_eqop E k j) eqn:C; auto.
        rewrite (eqop_sym Q) in A. rewrite (eqop_trans Q _ _ _ C A) in B. discriminate.
    + rewrite IH. destruct (key_eqop E k j) eqn:C; auto.
      destruct (key_eqop E k k') eqn:B; auto. rewrite (eqop_cong _ B), A in C. discriminate.
Qed.
Lemma update_fst k f l : map fst (stat_update E k f l) = map fst l.
Proof.
  induction l as [|(j & h) l IH]; simpl; auto. destruct (key_eqop E k j); simpl; congruence.
Qed.
Lemma ukeys_fst l l' : map fst l = map fst l' -> ukeys l -> ukeys l'.
Proof.
  revert l'; induction l as [|p l IH]; intros [|p' l'] H; simpl; auto; try discriminate.
  injection H as H1 H2. intros (A & B). split; [|eauto]. intros q I. rewrite <- H1.
  apply (in_map fst) in I. rewrite <- H2 in I. apply in_map_iff in I as (q' & <- & I). auto.
Qed.
Lemma find_in k l h : stat_find E k l = Some h -> exists k', In (k', h) l /\ key_eqop E k k' = true.
Proof.
  induction l as [|(j & g) l IH]; simpl; [discriminate|]. destruct (key_eqop E k j) eqn:A.
  - intros H; inversion H; subst. eauto.
  - intros H. destruct (IH H) as (k' & I & ?). eauto.
Qed.
Lemma find_none k l : stat_find E k l = None <-> forall p, In p l -> key_eqop E k (fst p) = false.
Proof.
  induction l as [|(j & g) l IH]; simpl; [easy|]. destruct (key_eqop E k j) eqn:A.
  - split; [discriminate|]. intros H. specialize (H _ (or_introl eq_refl)). simpl in H. congruence.
  - rewrite IH. split; [intros H p [<-|I]; auto|auto].
Qed.
Lemma find_remove k k' l : ukeys l -> stat_find E k (stat_remove E k' l) =
  if key_eqop E k k' then None else stat_find E k l.
Proof.
  induction l as [|(j & h) l IH]; simpl; intros U.
  - destruct (key_eqop E k k'); auto.
  - destruct U as (U1 & U2). destruct (key_eqop E k' j) eqn:A.
    + destruct (key_eqop E k k') eqn:B.
      * apply find_none. intros p I. rewrite (eqop_cong _ B), (eqop_cong _ A). apply (U1 _ I).
      * destruct (key_eqop E k j) eqn:C; auto.
        rewrite (eqop_sym Q) in A. rewrite (eqop_trans Q _ _ _ C A) in B. discriminate.
    + simpl. rewrite IH by auto. destruct (key_eqop E k j) eqn:C; auto.
      destruct (key_eqop E k k') eqn:B; auto. rewrite (eqop_cong _ B), A in C. discriminate.
Qed.
Lemma remove_in k l p : In p (stat_remove E k l) -> In p l.
Proof.
  induction l as [|(j & h) l IH]; simpl; auto. destruct (key_eqop E k j); simpl; tauto.
Qed.
Lemma ukeys_remove k l : ukeys l -> ukeys (stat_remove E k l).
Proof.
  induction l as [|(j & h) l IH]; simpl; auto. intros (A & B). destruct (key_eqop E k j); auto.
  simpl. split; auto. intros p I. apply A. eapply remove_in; eauto.
Qed.
Lemma ukeys_app l p : ukeys l -> (forall p', In p' l -> key_eqop E (fst p) (fst p') = false) -> ukeys (l ++ [p]).
Proof.
  induction l as [|q l IH]; simpl; intros U N; [easy|]. destruct U as (A & B). split.
  - intros p' I. apply in_app_iff in I as [I|[<-|[]]]; auto. rewrite (eqop_sym Q). auto.
  - apply IH; auto.
Qed.
Lemma find_app k l l' : stat_find E k (l ++ l') = match stat_find E k l with Some h => Some h | None => stat_find E k l' end.
Proof. induction l as [|(j & h) l IH]; simpl; auto. destruct (key_eqop E k j); auto. Qed.

Lemma matches_blank : matches [] (MkStats 0 0 []).
Proof. constructor; simpl; auto. Qed.
Lemma matches_hit b x k : matches b x -> matches (BAccess k true :: b) (stats_register_hit E k x).
Proof.
  intros [A B C D]. constructor; simpl.
  - rewrite A. apply wrap_succ.
  - rewrite B. apply wrap_succ.
  - intros j. rewrite find_update, C. destruct (key_eqop E j k); auto.
    destruct (key_count E j b) as [(h & i)|]; auto. unfold sized; simpl. rewrite wrap_succ; auto.
  - eapply ukeys_fst; [|exact D]. rewrite update_fst; auto.
Qed.
Lemma matches_miss b x k : matches b x -> matches (BAccess k false :: b) (stats_register_miss E k x).
Proof.
  intros [A B C D]. constructor; simpl.
  - rewrite A. apply wrap_succ.
  - auto.
  - intros j. rewrite find_update, C. destruct (key_eqop E j k); auto.
    destruct (key_count E j b) as [(h & i)|]; auto. unfold sized; simpl. rewrite wrap_succ; auto.
  - eapply ukeys_fst; [|exact D]. rewrite update_fst; auto.
Qed.
Lemma key_count_cong k k' b : key_eqop E k k' = true -> key_count E k b = key_count E k' b.
Proof.
  intros H. induction b as [|[j hit|j|j| |j] b IH]; simpl; auto; rewrite ?IH, ?(eqop_cong _ H); auto.
Qed.
Lemma matches_monitor b x k : matches b x -> matches (BMonitor k :: b) (stats_monitor E k x).
Proof.
  intros [A B C D]. unfold stats_monitor. rewrite C.
  destruct (key_count E k b) as [h|] eqn:H; simpl; constructor; simpl; auto.
  - intros j. rewrite C. destruct (key_count E j b) eqn:J; auto.
    destruct (key_eqop E j k) eqn:S; auto. rewrite (key_count_cong _ S), H in J. discriminate.
  - intros j. rewrite find_app, C. destruct (key_count E j b); auto. simpl. destruct (key_eqop E j k); auto.
  - apply ukeys_app; auto. simpl. intros p I. pose proof (C k) as N. rewrite H in N. simpl in N.
    rewrite find_none in N. auto.
Qed.
Lemma matches_unmonitor b x x' k : matches b x -> stats_unmonitor E k x = Some x' -> matches (BUnmonitor k :: b) x'.
Proof.
  intros [A B C D]. unfold stats_unmonitor. destruct (stat_find E k (st_keys x)); [|discriminate].
  intros H; inversion H; subst; clear H. constructor; simpl; auto.
  - intros j. rewrite find_remove, C by auto. destruct (key_eqop E j k); auto.
  - apply ukeys_remove; auto.
Qed.
Lemma matches_unmonitor_all b x : matches b x -> matches (BUnmonitorAll :: b) (stats_unmonitor_all x).
Proof. intros [A B C D]. constructor; simpl; auto. Qed.
Lemma matches_reset b x x' k : matches b x -> stats_reset_key E k x = Some x' -> matches (BReset k :: b) x'.
Proof.
  intros [A B C D]. unfold stats_reset_key. destruct (stat_find E k (st_keys x)); [|discriminate].
  intros H; inversion H; subst; clear H. constructor; simpl; auto.
  - intros j. rewrite find_update, C. destruct (key_eqop E j k); auto. destruct (key_count E j b); auto.
  - eapply ukeys_fst; [|exact D]. rewrite update_fst; auto.
Qed.
Lemma matches_new ks : matches (rev (map (@BMonitor K) ks)) (new_stats E ks).
Proof.
  unfold new_stats.
  assert (H : forall b x, matches b x -> matches (rev (map (@BMonitor K) ks) ++ b) (fold_left (fun y k => stats_monitor E k y) ks x)).
  { induction ks as [|k ks IH]; intros b x M; simpl; auto.
    rewrite <- app_assoc. apply (IH (BMonitor k :: b)). apply matches_monitor; auto. }
  rewrite <- (app_nil_r (rev _)). apply H. apply matches_blank.
Qed.

Lemma hits_misses b : n_accesses b = n_hits b + n_misses b.
Proof. induction b as [|[j [|]|j|j| |j] b IH]; simpl; auto; unfold n_accesses, n_hits, n_misses in *; simpl; lia. Qed.
Lemma misses_diff b x : matches b x -> total_misses x = wrap64 (Z.of_nat (n_misses b)).
Proof.
  intros M. unfold total_misses, total_accesses, total_hits. rewrite (m_acc M), (m_hits M).
  unfold wrap64. rewrite <- Zminus_mod. f_equal. rewrite hits_misses. lia.
Qed.
Lemma accesses_sum h m : accesses_of (sized (h, m)) = wrap64 (Z.of_nat (h + m)).
Proof. unfold accesses_of, sized, wrap64; simpl. rewrite <- Zplus_mod. f_equal. lia. Qed.

End Book.

(** ** The ledger follows the reference machine *)
Section Ledger.
Context {K V : Type}.
Variable E : env K V.
Hypothesis G : good E.

Notation acache := (acache K V).
Notation aworld := (aworld K V).
Notation world := (world K V).
Implicit Types (a : acache) (aw : aworld) (w : world) (o : op K V) (L : @ledger K).

Definition outcome_in {S} (r : res S (out K V)) : option (outcome K V) :=
  match r with Val v _ => Some (Returned v) | Exc e _ => Some (Threw e) | _ => None end.

Lemma local_cbs ch o a n : a_cbs (snd (fst (fst (local E ch o a n)))) =
  match o with
  | AddHit _ id => MkCbs (hit_cbs (a_cbs a) ++ [id]) (miss_cbs (a_cbs a)) (acc_cbs (a_cbs a))
  | AddMiss _ id => MkCbs (hit_cbs (a_cbs a)) (miss_cbs (a_cbs a) ++ [id]) (acc_cbs (a_cbs a))
  | AddAccess _ id => MkCbs (hit_cbs (a_cbs a)) (miss_cbs (a_cbs a)) (acc_cbs (a_cbs a) ++ [id])
  | ClearHit _ => MkCbs [] (miss_cbs (a_cbs a)) (acc_cbs (a_cbs a))
  | ClearMiss _ => MkCbs (hit_cbs (a_cbs a)) [] (acc_cbs (a_cbs a))
  | ClearAccess _ => MkCbs (hit_cbs (a_cbs a)) (miss_cbs (a_cbs a)) []
  | ClearCallbacks _ => no_callbacks
  | _ => a_cbs a
  end.
Proof.
  assert (HL : forall k, a_cbs (snd (fst (fst (l_lookup E k a n)))) = a_cbs a).
  { intros k. unfold l_lookup. destruct (a_hot_ent E a k) as [e|]; [|destruct (lookup_ent E k (a_ents a)) as [e|]]; simpl; auto;
    destruct (stale E (a_ttl a) e n); simpl; auto. destruct (stale E (a_ttl a) e (tkn a + n)); auto. }
  assert (F : forall k, a_cbs (snd (fst (fst (l_find E k a n)))) = a_cbs a).
  { intros k. unfold l_find. destruct (lookup_ent E k (a_ents a)) as [e|]; simpl; auto;
    destruct (stale E (a_ttl a) e n); simpl; auto. }
  assert (C : forall k, a_cbs (snd (fst (fst (l_contains E k a n)))) = a_cbs a).
  { intros k. unfold l_contains. destruct (a_hot_ent E a k) as [e|]; [|destruct (lookup_ent E k (a_ents a)) as [e|]]; simpl; auto;
    destruct (stale E (a_ttl a) e n); simpl; auto. }
  assert (T : forall A B (f : A -> B) (r : @ans K V A), snd (fst (fst (then_ f r))) = snd (fst (fst r))).
  { intros A B f (((r & a') & x) & i). destruct r; auto. }
  destruct o; cbn [local]; try (simpl; auto; fail); rewrite ?T; auto.
  - pose proof (inserts_attr E l 0 (with_cap (Nat.max (a_cap a) (length l)) (keep 0 a)) n) as H. simpl in H.
    destruct (l_inserts E l 0 _ n) as ((? & ?) & ?); simpl in *. tauto.
  - pose proof (inserts_attr E l 0 (with_cap (Nat.max (a_cap a) (length l)) (keep 0 a)) n) as H. simpl in H.
    destruct (l_inserts E l 0 _ n) as ((? & ?) & ?); simpl in *. tauto.
  - simpl. unfold insert_c. destruct (Nat.eqb (a_cap a) 0), (lookup_ent E k (a_ents a)); auto.
  - simpl. unfold insert_c. destruct (Nat.eqb (a_cap a) 0), (lookup_ent E k (a_ents a)); auto.
  - pose proof (inserts_attr E l 0 a n) as H. simpl in H.
    destruct (l_inserts E l 0 _ n) as ((? & ?) & ?); simpl in *. tauto.
  - pose proof (inserts_attr E l 0 a n) as H. simpl in H.
    destruct (l_inserts E l 0 _ n) as ((? & ?) & ?); simpl in *. tauto.
  - destruct (lookup_ent E k (a_ents a)) as [e|]; simpl; auto. destruct (stale E (a_ttl a) e n); simpl; auto.
    destruct (stale E (a_ttl a) e (tkn a + n)); simpl; auto.
  - specialize (HL k). destruct (l_lookup E k a n) as (((r & a') & x) & i). destruct r; simpl in *; auto.
  - destruct (lookup_ent E k (a_ents a)); simpl; auto.
  - specialize (F k). destruct (l_find E k a n) as (((r & a') & x) & i). destruct r as [[e|] ?| | |]; simpl in *; auto.
  - destruct (nth_error (a_ents a) n0) as [e|]; simpl; auto. destruct (stale E (a_ttl a) e n); simpl; auto.
  - destruct (Nat.leb (length (a_ents a)) n0); simpl; auto. destruct (nth_error (a_ents a) ch); simpl; auto.
  - pose proof (clear_attr E (a_ents a) a n 0) as H. simpl in H.
    destruct (l_clear E (a_ents a) a n 0) as ((? & ?) & ?); simpl in *. tauto.
  - destruct (last_ent (a_ents a)); simpl; auto.
  - destruct (a_ents a); simpl; auto.
  - destruct (lookup_ent E k (a_ents a)); simpl; auto.
  - destruct (last_ent (a_ents a)); simpl; auto.
  - destruct (nth_error (a_ents a) n0); simpl; auto.
  - destruct (nth_error (a_ents a) n0); simpl; auto.
Qed.

(** What an access reports. *)
Definition reported a (x : option (nat * K * bool)) (y : @note K V) : Prop :=
  match x with
  | None => y = Quiet
  | Some (_, k, true) => exists e, lookup_ent E k (a_ents a) = Some e /\ y = HitOf k (e_val e)
  | Some (_, k, false) => y = MissOf k
  end.
Lemma stale_untimed e n : stale E None e n = false.
Proof. reflexivity. Qed.

Ltac staled := repeat match goal with |- context [if stale E ?t ?e ?n then _ else _] => destruct (stale E t e n) end.

Lemma local_note ch o c a n oc : cinv E a -> target o = Some c -> a_ttl a = None \/ by_find o = true ->
  outcome_in (fst (fst (fst (local E ch o a n)))) = Some oc ->
  match access_of o oc with Some (c', _, _) => c' = c | None => True end /\
  reported a (access_of o oc) (snd (fst (local E ch o a n))).
Proof.
  intros Ci T U.
  assert (HOT : forall k e, a_hot_ent E a k = Some e -> lookup_ent E k (a_ents a) = Some e)
    by (intros; eapply hot_lookup; eauto).
  destruct o; inversion T; subst; clear T; simpl in U;
    try (simpl; intros H; inversion H; subst; split; auto; reflexivity);
    cbn [local].
  - destruct (l_inserts E l 0 _ n) as ((? & ?) & ?). simpl; intros H; inversion H; subst; split; auto; reflexivity.
  - destruct (l_inserts E l 0 _ n) as ((? & ?) & ?). simpl; intros H; inversion H; subst; split; auto; reflexivity.
  - destruct (l_inserts E l 0 _ n) as ((? & ?) & ?). simpl; intros H; inversion H; subst; split; auto; reflexivity.
  - destruct (l_inserts E l 0 _ n) as ((? & ?) & ?). simpl; intros H; inversion H; subst; split; auto; reflexivity.
  - (* Find *) unfold l_find. destruct (lookup_ent E k (a_ents a)) as [e|] eqn:Lk; [staled|];
      simpl; intros H; inversion H; subst; simpl; eauto.
  - (* FindEntry *) destruct U as [U|]; [|discriminate]. destruct (lookup_ent E k (a_ents a)) as [e|] eqn:Lk; rewrite ?U; cbn [stale].
    + simpl; intros H; inversion H; subst; simpl; eauto.
    + destruct (lenient_end E); simpl; intros H; inversion H; subst; simpl; eauto.
  - (* Contains *) destruct U as [U|]; [|discriminate]. unfold l_contains. rewrite U. cbn [stale].
    destruct (a_hot_ent E a k) as [e|] eqn:Hh; [|destruct (lookup_ent E k (a_ents a)) as [e|] eqn:Lk];
      simpl; intros H; inversion H; subst; simpl; eauto.
  - (* Lookup *) destruct U as [U|]; [|discriminate]. unfold l_lookup. rewrite U. cbn [stale].
    destruct (a_hot_ent E a k) as [e|] eqn:Hh; [|destruct (lookup_ent E k (a_ents a)) as [e|] eqn:Lk];
      simpl; intros H; inversion H; subst; simpl; eauto.
  - (* Write *) destruct U as [U|]; [|discriminate]. unfold l_lookup. rewrite U. cbn [stale].
    destruct (a_hot_ent E a k) as [e|] eqn:Hh; [|destruct (lookup_ent E k (a_ents a)) as [e|] eqn:Lk];
      simpl; intros H; inversion H; subst; simpl; eauto.
  - destruct (lookup_ent E k (a_ents a)); simpl; intros H; inversion H; subst; split; auto; reflexivity.
  - (* EraseFound *) unfold l_find. destruct (lookup_ent E k (a_ents a)) as [e|] eqn:Lk; [staled|];
      simpl; intros H; inversion H; subst; simpl; eauto.
  - destruct (nth_error (a_ents a) n0); [staled|]; simpl; intros H; inversion H; subst; split; auto; reflexivity.
  - destruct (Nat.leb (length (a_ents a)) n0); [|destruct (nth_error (a_ents a) ch)];
      simpl; intros H; inversion H; subst; split; auto; reflexivity.
  - destruct (l_clear E (a_ents a) a n 0) as ((? & ?) & ?). simpl; intros H; inversion H; subst; split; auto; reflexivity.
  - destruct (last_ent (a_ents a)); simpl; intros H; inversion H; subst; split; auto; reflexivity.
  - destruct (a_ents a); simpl; intros H; inversion H; subst; split; auto; reflexivity.
  - destruct (lookup_ent E k (a_ents a)); [staled|]; simpl; intros H; inversion H; subst; split; auto; reflexivity.
  - destruct (last_ent (a_ents a)); [staled|]; simpl; intros H; inversion H; subst; split; auto; reflexivity.
  - destruct (nth_error (a_ents a) n0); [staled|]; simpl; intros H; inversion H; subst; split; auto; reflexivity.
  - destruct (nth_error (a_ents a) n0); [staled|]; simpl; intros H; inversion H; subst; split; auto; reflexivity.
Qed.

Lemma record_attached c e L : attached (record c e L) = attached L.
Proof. unfold record. destruct (attached L c); auto. Qed.
Lemma record_subs c e L : subs (record c e L) = subs L.
Proof. unfold record. destruct (attached L c); auto. Qed.
Lemma fset_same {A} (f : nat -> A) i x : fset f i x i = x.
Proof. unfold fset. rewrite Nat.eqb_refl; auto. Qed.
Lemma fset_other {A} (f : nat -> A) i j x : i <> j -> fset f i x j = f j.
Proof. unfold fset. intros H. rewrite (proj2 (Nat.eqb_neq i j)) by auto. auto. Qed.

Definition linv L aw : Prop :=
  (forall c a, slot (aw_caches aw) c = Some a -> attached L c = a_stats a /\ subs L c = a_cbs a) /\
  (forall c, length (aw_caches aw) <= c -> attached L c = None /\ subs L c = no_callbacks).

Lemma local_ledger ch o c a n oc L : target o = Some c -> attached L c = a_stats a -> subs L c = a_cbs a ->
  outcome_in (fst (fst (fst (local E ch o a n)))) = Some oc ->
  let L' := note_call o oc L in let a' := snd (fst (fst (local E ch o a n))) in
  (attached L' c = a_stats a' /\ subs L' c = a_cbs a') /\
  forall d, d <> c -> attached L' d = attached L d /\ subs L' d = subs L d.
Proof.
  intros T A S H. cbv zeta. rewrite local_cbs. rewrite (proj2 (local_attr E ch o a n)).
  destruct o; inversion T; subst; clear T; unfold note_call;
    try match goal with |- context [access_of ?o ?r] =>
      destruct (access_of o r) as [((? & ?) & ?)|]; [rewrite record_attached, record_subs; auto|auto; fail] end;
    simpl in H; try (inversion H; subst); simpl; auto; rewrite ?fset_same; (split; [rewrite <- ?A, <- ?S; auto|]);
    intros d N; rewrite ?fset_other by auto; auto.
Qed.

Lemma linv_same L aw aw' : linv L aw -> aw_caches aw' = aw_caches aw -> linv L aw'.
Proof. unfold linv. intros H ->. auto. Qed.
Lemma linv_sub L L' aw : linv L aw -> attached L' = attached L -> subs L' = subs L -> linv L' aw.
Proof. unfold linv. intros H -> ->. auto. Qed.
Lemma note_ill o L : note_call o (Returned RIll) L = L.
Proof. destruct o; reflexivity. Qed.
Lemma note_other o oc L : target o = None -> (forall c ks, o <> MonitorNew c ks) ->
  attached (note_call o oc L) = attached L /\ subs (note_call o oc L) = subs L.
Proof.
  intros T N. destruct o; try discriminate; try (exfalso; eapply N; reflexivity);
    unfold note_call; simpl; destruct oc as [[]|[]]; auto; rewrite record_attached, record_subs; auto.
Qed.
Lemma linv_awith L aw c a a' : linv L aw -> slot (aw_caches aw) c = Some a ->
  a_stats a' = a_stats a -> a_cbs a' = a_cbs a -> linv L (awith c a' aw).
Proof.
  intros (I1 & I2) Ha S C. pose proof (slot_lt _ _ Ha). split; simpl.
  - intros d b. destruct (Nat.eq_dec c d) as [->|N].
    + erewrite slot_upd_same by eauto. intros Q; inversion Q; subst. rewrite S, C. auto.
    + rewrite slot_upd_other by auto. auto.
  - intros d. rewrite upd_length. auto.
Qed.
Lemma linv_anew L aw a m : linv L aw -> a_stats a = None -> a_cbs a = no_callbacks -> linv L (anew a m aw).
Proof.
  intros (I1 & I2) S C. unfold anew. split; simpl.
  - intros d b. destruct (Nat.lt_ge_cases d (length (aw_caches aw))) as [Hd|Hd].
    + rewrite slot_app_lt by auto. auto.
    + destruct (Nat.eq_dec d (length (aw_caches aw))) as [->|N].
      * rewrite slot_app_new. intros Q; inversion Q; subst. rewrite S, C. auto.
      * intros Q. apply slot_lt in Q. rewrite app_length in Q. simpl in Q. lia.
  - intros d. rewrite app_length. simpl. intros. apply I2. lia.
Qed.

Lemma linv_step ch o aw oc aw' L : linv L aw ->
  outcome_in (astep E ch o aw) = Some oc ->
  match astep E ch o aw with Val _ w | Exc _ w => w = aw' | _ => False end ->
  linv (note_call o oc L) aw'.
Proof.
  intros I. unfold astep. destruct (a_well_formed aw o) eqn:WF; cbn [negb].
  2:{ simpl. intros H <-; inversion H; subst. rewrite note_ill. auto. }
  destruct (target o) as [c|] eqn:T.
  { unfold two. destruct (slot (aw_caches aw) c) as [a|] eqn:Ha.
    2:{ simpl. intros H <-; inversion H; subst. rewrite note_ill. auto. }
    destruct (proj1 I c a Ha) as (As & Ac).
    pose proof (local_ledger (ch := ch) (n := aw_reads aw) (oc := oc) T As Ac) as LL.
    destruct (local E ch o a (aw_reads aw)) as (((r & a') & x) & m). simpl in LL.
    intros H H'. assert (Q : aw' = awith c a' (noted E a x (ticks m aw)) /\ outcome_in r = Some oc).
    { simpl in H, H'. destruct r; simpl in *; auto; discriminate. }
    destruct Q as (-> & Q). destruct (LL Q) as (L1 & L2).
    split; simpl; rewrite noted_caches; simpl.
    - intros d b. destruct (Nat.eq_dec c d) as [->|N].
      + erewrite slot_upd_same by eauto. intros X; inversion X; subst; auto.
      + rewrite slot_upd_other by auto. intros Hb. destruct (L2 d) as (-> & ->); auto. apply (proj1 I _ _ Hb).
    - intros d. rewrite upd_length. intros Hd. pose proof (slot_lt _ _ Ha). destruct (L2 d) as (-> & ->); [lia|].
      apply (proj2 I); auto. }
  destruct (stats_target o) as [c|] eqn:ST.
  { unfold two. assert (NO : forall oc, linv (note_call o oc L) aw).
    { intros oc'. destruct (note_other (o := o) oc' L T) as (X & Y); [destruct o; discriminate|]. eapply linv_sub; eauto. }
    destruct (slot (aw_caches aw) c) as [a|] eqn:Ha; [|simpl; intros _ <-; auto].
    destruct (a_stats a) as [s|]; [|simpl; intros _ <-; auto].
    destruct (slot (aw_stats aw) s) as [x|]; [|discriminate].
    destruct (on_stats E o x) as (r & x'). destruct r; simpl; intros H H'; try discriminate; subst aw';
      apply (linv_same (NO oc)); auto. }
  destruct (building o) as [((cap & ttl) & l)|] eqn:B.
  { pose proof (inserts_attr E l 0 (fresh_a cap ttl) (aw_reads aw)) as X. simpl in X.
    destruct (l_inserts E l 0 (fresh_a cap ttl) (aw_reads aw)) as ((cnt & a') & n'). simpl in X.
    destruct X as (_ & X1 & X2 & _). intros _ <-.
    destruct (note_other (o := o) oc L T) as (X & Y); [destruct o; discriminate|]. eapply linv_sub; eauto.
    apply linv_anew; auto. }
  destruct o; try discriminate; cbn [note_call access_of]; unfold two.
  - (* Copy *) simpl. intros H <-. auto.
  - (* Move *) destruct (slot (aw_caches aw) c) as [a|] eqn:Ha; [|simpl; intros _ <-; auto].
    destruct (junk E); [|discriminate]. intros _ <-. apply linv_anew; auto.
    eapply linv_awith; eauto.
  - (* Destroy *) intros _ <-. split; simpl.
    + intros d b. destruct (Nat.eq_dec c d) as [->|N].
      * destruct (Nat.lt_ge_cases d (length (aw_caches aw))) as [Hl|Hl].
        { rewrite slot_upd_lt by auto. discriminate. }
        intros Hb.
        apply slot_lt in Hb. rewrite upd_length in Hb. lia.
      * rewrite slot_upd_other by auto. apply I.
    + intros d. rewrite upd_length. apply I.
  - simpl. intros _ <-. auto.
  - destruct (slot (aw_caches aw) c) as [a|] eqn:Ha; [|simpl; intros _ <-; auto].
    destruct (slot (aw_caches aw) d) as [b|] eqn:Hb; [|simpl; intros _ <-; auto].
    destruct (Nat.eqb_spec c d); simpl; intros _ <-; auto. unfold pair_put.
    eapply linv_awith; [eapply linv_awith; eauto| | |]; simpl; auto. rewrite slot_upd_other by auto. eauto. all: auto.
  - destruct (slot (aw_caches aw) c) as [a|] eqn:Ha; [|simpl; intros _ <-; auto].
    destruct (slot (aw_caches aw) d) as [b|] eqn:Hb; [|simpl; intros _ <-; auto].
    destruct (Nat.eqb_spec c d); simpl; intros _ <-; auto. unfold pair_put.
    eapply linv_awith; [eapply linv_awith; eauto| | |]; simpl; auto. rewrite slot_upd_other by auto. eauto. all: auto.
  - destruct (slot (aw_caches aw) c) as [a|] eqn:Ha; [|simpl; intros _ <-; auto].
    destruct (slot (aw_caches aw) d) as [b|] eqn:Hb; simpl; intros _ <-; auto.
  - destruct (slot (aw_caches aw) c) as [a|] eqn:Ha; [|simpl; intros H <-; inversion H; subst; auto].
    simpl. intros H <-; inversion H; subst. destruct (proj1 I c a Ha) as (As & Ac). split; simpl.
    + intros d b. destruct (Nat.eq_dec c d) as [->|N].
      * erewrite slot_upd_same by eauto. intros X; inversion X; subst; simpl. rewrite fset_same. auto.
      * rewrite slot_upd_other, fset_other by auto. apply I.
    + intros d. rewrite upd_length. intros Hd. pose proof (slot_lt _ _ Ha). rewrite fset_other by lia. apply I; auto.
Qed.

Definition binv L aw : Prop := forall s x, slot (aw_stats aw) s = Some x -> matches E (books L s) x.
Definition all_untimed aw : Prop := forall c a, slot (aw_caches aw) c = Some a -> a_ttl a = None.
Definition all_cinv aw : Prop := forall c a, slot (aw_caches aw) c = Some a -> cinv E a.
Definition st_ok aw : Prop := forall c a, slot (aw_caches aw) c = Some a -> stats_ok aw a.

Lemma binv_same L aw aw' : binv L aw -> aw_stats aw' = aw_stats aw -> binv L aw'.
Proof. unfold binv. intros H ->. auto. Qed.
Lemma binv_books L L' aw : binv L aw -> books L' = books L -> binv L' aw.
Proof. unfold binv. intros H ->. auto. Qed.
Lemma binv_record L aw aw' c a e s x x' : binv L aw -> attached L c = a_stats a -> a_stats a = Some s ->
  slot (aw_stats aw) s = Some x -> (matches E (books L s) x -> matches E (e :: books L s) x') ->
  aw_stats aw' = upd (aw_stats aw) s (Some x') -> binv (record c e L) aw'.
Proof.
  intros B A S Hx M Q i y. rewrite Q. unfold record. rewrite A, S. simpl.
  destruct (Nat.eq_dec s i) as [->|N].
  - erewrite slot_upd_same by eauto. rewrite fset_same. intros H; inversion H; subst; auto.
  - rewrite slot_upd_other, fset_other by auto. auto.
Qed.

Lemma binv_step (Q : eqop_good E) ch o aw oc aw' L : linv L aw -> binv L aw -> all_cinv aw -> st_ok aw ->
  all_untimed aw \/ by_find o = true ->
  outcome_in (astep E ch o aw) = Some oc ->
  match astep E ch o aw with Val _ w | Exc _ w => w = aw' | _ => False end ->
  binv (note_call o oc L) aw'.
Proof.
  intros I B CI SO U. unfold astep. destruct (a_well_formed aw o) eqn:WF; cbn [negb].
  2:{ simpl. intros H <-; inversion H; subst. rewrite note_ill. auto. }
  destruct (target o) as [c|] eqn:T.
  { unfold two. destruct (slot (aw_caches aw) c) as [a|] eqn:Ha.
    2:{ simpl. intros H <-; inversion H; subst. rewrite note_ill. auto. }
    destruct (proj1 I c a Ha) as (As & Ac).
    assert (U' : a_ttl a = None \/ by_find o = true) by (destruct U; [left|right]; eauto).
    pose proof (local_note (ch := ch) (n := aw_reads aw) (oc := oc) (CI c a Ha) T U') as LN.
    destruct (local E ch o a (aw_reads aw)) as (((r & a') & x) & m). simpl in LN.
    intros H H'. assert (X : aw' = awith c a' (noted E a x (ticks m aw)) /\ outcome_in r = Some oc).
    { simpl in H, H'. destruct r; simpl in *; auto; discriminate. }
    destruct X as (-> & X). destruct (LN X) as (L1 & L2). clear LN.
    destruct (access_of o oc) as [((c' & k) & hit)|] eqn:AC.
    - subst c'. unfold note_call. rewrite AC.
      destruct (a_stats a) as [s|] eqn:Ss.
      + pose proof (SO c a Ha s Ss) as Hs. destruct (slot (aw_stats aw) s) as [y|] eqn:Hy; [|congruence].
        destruct hit; simpl in L2.
        * destruct L2 as (e & _ & ->).
          eapply (binv_record (c := c) (a := a) (x' := stats_register_hit E k y)); eauto.
          { rewrite Ss; auto. }
          { intros; apply matches_hit; auto. }
          { simpl. rewrite Ss. unfold counted. rewrite Hy. auto. }
        * subst x. eapply (binv_record (c := c) (a := a) (x' := stats_register_miss E k y)); eauto.
          { rewrite Ss; auto. }
          { intros; apply matches_miss; auto. }
          { simpl. rewrite Ss. unfold counted. rewrite Hy. auto. }
      + unfold record. rewrite As. apply (binv_same B).
        destruct hit; simpl in L2; [destruct L2 as (e & _ & ->)|subst x]; simpl; rewrite Ss; auto.
    - simpl in L2. subst x. simpl.
      apply (binv_same (aw := aw)); auto. apply (binv_books B).
      unfold note_call. rewrite AC. destruct o; try discriminate; auto; destruct oc as [[]|[]]; auto. }
  destruct (stats_target o) as [c|] eqn:ST.
  { unfold two.
    destruct (slot (aw_caches aw) c) as [a|] eqn:Ha.
    2:{ simpl; intros H <-; inversion H; subst; rewrite note_ill; auto. }
    destruct (proj1 I c a Ha) as (As & Ac).
    destruct (a_stats a) as [s|] eqn:Ss.
    2:{ simpl; intros H <-; inversion H; subst; auto. apply (binv_books B). destruct o; reflexivity. }
    destruct (slot (aw_stats aw) s) as [x|] eqn:Hx; [|discriminate].
    assert (SAME : wstats s x aw = aw) by (unfold wstats; rewrite upd_slot by auto; destruct aw; auto).
    assert (REC : forall e x', (matches E (books L s) x -> matches E (e :: books L s) x') -> binv (record c e L) (wstats s x' aw)).
    { intros e x' M. eapply binv_record; eauto. rewrite As; auto. }
    destruct o; inversion ST; subst; clear ST; cbn [on_stats].
    - simpl. intros H <-; inversion H; subst. rewrite SAME. auto.
    - destruct (stats_for E x k); simpl; intros H <-; inversion H; subst; rewrite SAME; auto.
    - simpl. intros H <-; inversion H; subst. apply REC. intros; apply matches_monitor; auto.
    - destruct (stats_unmonitor E k x) as [x'|] eqn:SU; simpl; intros H <-; inversion H; subst.
      + apply REC. intros M; eapply matches_unmonitor; eauto.
      + rewrite SAME; auto.
    - simpl. intros H <-; inversion H; subst. apply REC. intros; apply matches_unmonitor_all; auto.
    - destruct (stats_reset_key E k x) as [x'|] eqn:SU; simpl; intros H <-; inversion H; subst.
      + apply REC. intros M; eapply matches_reset; eauto.
      + rewrite SAME; auto.
    - simpl. intros H <-; inversion H; subst. rewrite SAME. auto.
    - simpl. intros H <-; inversion H; subst. rewrite SAME. auto. }
  destruct (building o) as [((cap & ttl) & l)|] eqn:BU.
  { destruct (l_inserts E l 0 (fresh_a cap ttl) (aw_reads aw)) as ((cnt & a') & n').
    intros _ <-. eapply binv_same; [eapply binv_books; [exact B|]|]; auto. destruct o; try discriminate; reflexivity. }
  destruct o; try discriminate; cbn [note_call access_of]; unfold two.
  - simpl. intros H <-. auto.
  - destruct (slot (aw_caches aw) c) as [a|] eqn:Ha; [|simpl; intros _ <-; auto].
    destruct (junk E); [|discriminate]. intros _ <-. auto.
  - intros _ <-. auto.
  - simpl. intros _ <-. auto.
  - destruct (slot (aw_caches aw) c) as [a|] eqn:Ha; [|simpl; intros _ <-; auto].
    destruct (slot (aw_caches aw) d) as [b|] eqn:Hb; [|simpl; intros _ <-; auto].
    destruct (Nat.eqb_spec c d); simpl; intros _ <-; auto.
  - destruct (slot (aw_caches aw) c) as [a|] eqn:Ha; [|simpl; intros _ <-; auto].
    destruct (slot (aw_caches aw) d) as [b|] eqn:Hb; [|simpl; intros _ <-; auto].
    destruct (Nat.eqb_spec c d); simpl; intros _ <-; auto.
  - destruct (slot (aw_caches aw) c) as [a|] eqn:Ha; [|simpl; intros _ <-; auto].
    destruct (slot (aw_caches aw) d) as [b|] eqn:Hb; simpl; intros _ <-; auto.
  - destruct (slot (aw_caches aw) c) as [a|] eqn:Ha; [|simpl; intros H <-; inversion H; subst; auto].
    simpl. intros H <-; inversion H; subst. intros s x. simpl.
    destruct (Nat.lt_ge_cases s (length (aw_stats aw))) as [Hd|Hd].
    + rewrite slot_app_lt, fset_other by lia. auto.
    + destruct (Nat.eq_dec s (length (aw_stats aw))) as [->|N].
      * rewrite slot_app_new, fset_same. intros X; inversion X; subst. apply matches_new; auto.
      * intros X. apply slot_lt in X. rewrite app_length in X. simpl in X. lia.
Qed.

Lemma untimed_awith aw c a : all_untimed aw -> a_ttl a = None -> all_untimed (awith c a aw).
Proof.
  intros U T d b. simpl. destruct (Nat.eq_dec c d) as [->|N].
  - destruct (Nat.lt_ge_cases d (length (aw_caches aw))).
    + rewrite slot_upd_lt by auto. intros X; inversion X; subst; auto.
    + intros X. apply slot_lt in X. rewrite upd_length in X. lia.
  - rewrite slot_upd_other by auto. apply U.
Qed.
Lemma untimed_anew aw a m : all_untimed aw -> a_ttl a = None -> all_untimed (anew a m aw).
Proof.
  intros U T d b. unfold anew; simpl. destruct (Nat.lt_ge_cases d (length (aw_caches aw))) as [Hd|Hd].
  - rewrite slot_app_lt by auto. apply U.
  - destruct (Nat.eq_dec d (length (aw_caches aw))) as [->|N].
    + rewrite slot_app_new. intros X; inversion X; subst; auto.
    + intros X. apply slot_lt in X. rewrite app_length in X. simpl in X. lia.
Qed.
Lemma untimed_same aw aw' : all_untimed aw -> aw_caches aw' = aw_caches aw -> all_untimed aw'.
Proof. unfold all_untimed. intros H ->. auto. Qed.
Lemma untimed_step ch o aw aw' : all_untimed aw -> untimed o = true ->
  match astep E ch o aw with Val _ w | Exc _ w => w = aw' | _ => False end -> all_untimed aw'.
Proof.
  intros U UO. unfold astep. destruct (a_well_formed aw o) eqn:WF; cbn [negb]; [|intros <-; auto].
  destruct (target o) as [c|] eqn:T.
  { unfold two. destruct (slot (aw_caches aw) c) as [a|] eqn:Ha; [|intros <-; auto].
    pose proof (proj1 (local_attr E ch o a (aw_reads aw))) as AT. cbv zeta in AT.
    destruct (local E ch o a (aw_reads aw)) as (((r & a') & x) & m). simpl in *.
    intros H. assert (X : aw' = awith c a' (noted E a x (ticks m aw))) by (destruct r; simpl in *; auto; easy).
    subst. apply untimed_awith; [|rewrite AT; eauto]. apply (untimed_same U). rewrite noted_caches. auto. }
  destruct (stats_target o) as [c|] eqn:ST.
  { unfold two. destruct (slot (aw_caches aw) c) as [a|] eqn:Ha; [|intros <-; auto].
    destruct (a_stats a) as [s|]; [|intros <-; auto].
    destruct (slot (aw_stats aw) s) as [x|]; [|easy].
    destruct (on_stats E o x) as (r & x'). destruct r; simpl; intros H; try easy; subst aw';
      apply (untimed_same U); auto. }
  destruct (building o) as [((cap & ttl) & l)|] eqn:B.
  { pose proof (inserts_attr E l 0 (fresh_a cap ttl) (aw_reads aw)) as X. simpl in X.
    destruct (l_inserts E l 0 (fresh_a cap ttl) (aw_reads aw)) as ((cnt & a') & n'). simpl in X.
    intros <-. apply untimed_anew; auto. destruct X as (-> & _).
    destruct o; inversion B; subst; simpl in UO; destruct ttl; auto; discriminate. }
  destruct o; try discriminate; unfold two.
  - intros <-; auto.
  - destruct (slot (aw_caches aw) c) as [a|] eqn:Ha; [|intros <-; auto].
    destruct (junk E); [|easy]. intros <-. apply untimed_anew; [apply untimed_awith; auto|]; simpl; eauto.
  - intros <-. intros d b. simpl. destruct (Nat.eq_dec c d) as [->|N].
    + destruct (Nat.lt_ge_cases d (length (aw_caches aw))).
      * rewrite slot_upd_lt by auto. discriminate.
      * intros X. apply slot_lt in X. rewrite upd_length in X. lia.
    + rewrite slot_upd_other by auto. apply U.
  - intros <-; auto.
  - destruct (slot (aw_caches aw) c) as [a|] eqn:Ha; [|intros <-; auto].
    destruct (slot (aw_caches aw) d) as [b|] eqn:Hb; [|intros <-; auto].
    destruct (Nat.eqb_spec c d); intros <-; auto. apply untimed_awith; [apply untimed_awith; auto|]; simpl; eauto.
  - destruct (slot (aw_caches aw) c) as [a|] eqn:Ha; [|intros <-; auto].
    destruct (slot (aw_caches aw) d) as [b|] eqn:Hb; [|intros <-; auto].
    destruct (Nat.eqb_spec c d); intros <-; auto. apply untimed_awith; [apply untimed_awith; auto|]; simpl; eauto.
  - destruct (slot (aw_caches aw) c) as [a|] eqn:Ha; [|intros <-; auto].
    destruct (slot (aw_caches aw) d) as [b|] eqn:Hb; intros <-; auto.
  - destruct (slot (aw_caches aw) c) as [a|] eqn:Ha; intros <-; auto.
    apply (untimed_same (aw := awith c (with_st (Some (length (aw_stats aw))) a) aw)); auto.
    apply untimed_awith; simpl; eauto.
Qed.

(** ** Histories *)
Lemma note_call_rel o r r' L : out_rel o r r' -> note_call o (Returned r) L = note_call o (Returned r') L.
Proof. unfold out_rel. destruct o; simpl; intros H; subst; auto. Qed.
Lemma rel_all_cinv w aw : rel E w aw -> all_cinv aw.
Proof. intros R c a Ha. eapply rel_cinv; eauto. Qed.
Lemma rel_st_ok w aw : rel E w aw -> st_ok aw.
Proof. intros R c a Ha. eapply rel_st; eauto. Qed.

Lemma ledger_step o w aw oc w' L : rel E w aw -> copy_free o = true -> call E o w oc w' -> linv L aw ->
  exists aw', rel E w' aw' /\ linv (note_call o oc L) aw' /\
  (eqop_good E -> binv L aw -> all_untimed aw \/ by_find o = true -> binv (note_call o oc L) aw') /\
  (all_untimed aw -> untimed o = true -> all_untimed aw').
Proof.
  intros R CF C I. destruct (exec_step G R CF) as (ch & S).
  assert (X : exists oc' aw', outcome_in (astep E ch o aw) = Some oc' /\
     match astep E ch o aw with Val _ w | Exc _ w => w = aw' | _ => False end /\ rel E w' aw' /\
     note_call o oc L = note_call o oc' L).
  { unfold call in C. destruct oc as [r|e]; rewrite C in S; destruct (astep E ch o aw) as [r'|e'| |]; simpl in S; try easy.
    - destruct S as (S1 & S2). do 2 eexists. split; [reflexivity|]. split; [reflexivity|]. split; [exact S1|]. apply note_call_rel; auto.
    - destruct S as (S1 & S2). subst e'. do 2 eexists. split; [reflexivity|]. split; [reflexivity|]. split; [exact S2|]. reflexivity. }
  destruct X as (oc' & aw' & X1 & X2 & X3 & X4). exists aw'. rewrite X4. split; auto. split; [|split].
  - eapply linv_step; eauto.
  - intros. eapply binv_step; eauto using rel_all_cinv, rel_st_ok.
  - intros. eapply untimed_step; eauto.
Qed.

Lemma ledger_run ops : forall w aw outs w' L, rel E w aw -> forallb copy_free ops = true ->
  run E ops w = Finished outs w' -> linv L aw ->
  exists aw', rel E w' aw' /\ linv (note_calls ops outs L) aw' /\
  (eqop_good E -> binv L aw -> (all_untimed aw /\ forallb untimed ops = true) \/ forallb by_find ops = true ->
   binv (note_calls ops outs L) aw').
Proof.
  induction ops as [|o ops IH]; intros w aw outs w' L R F H I.
  - inversion H; subst. exists aw. simpl. auto.
  - simpl in F. apply andb_prop in F as (F1 & F2).
    apply run_inv in H as (w1 & r & rs & -> & H & X).
    assert (C : call E o w r w1) by (destruct X as [(x & -> & X)|(e & -> & X)]; exact X).
    destruct (ledger_step R F1 C I) as (aw1 & R1 & I1 & B1 & U1).
    destruct (IH _ _ _ _ _ R1 F2 H I1) as (aw' & R' & I' & B').
    exists aw'. split; auto. split; auto. intros Q B D. simpl. apply B'; auto.
    + apply B1; auto. destruct D as [(D & _)|D]; auto. simpl in D. apply andb_prop in D as (D & _). auto.
    + destruct D as [(D & D')|D]; [left|right].
      * simpl in D'. apply andb_prop in D' as (D1 & D2). auto.
      * simpl in D. apply andb_prop in D as (_ & D). auto.
Qed.
Lemma linv_init : linv blank init_aworld.
Proof. split; [|auto]. intros c a. rewrite slot_overflow; [discriminate|simpl; lia]. Qed.
Lemma binv_init : binv blank init_aworld.
Proof. intros s x. rewrite slot_overflow; [discriminate|simpl; lia]. Qed.
Lemma untimed_init : all_untimed init_aworld.
Proof. intros s x. rewrite slot_overflow; [discriminate|simpl; lia]. Qed.

Lemma ledger_holds ops outs w : forallb copy_free ops = true -> run E ops init_world = Finished outs w ->
  exists aw, rel E w aw /\ linv (ledger_of ops outs) aw /\
  (eqop_good E -> countable ops -> binv (ledger_of ops outs) aw).
Proof.
  intros F H. destruct (ledger_run (rel_init E) F H linv_init) as (aw & R & I & B).
  exists aw. split; auto. split; auto. intros Q D. apply B; auto.
  - apply binv_init.
  - destruct D; auto. left. split; auto. apply untimed_init.
Qed.

End Ledger.
