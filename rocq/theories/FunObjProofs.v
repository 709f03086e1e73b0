(** Proofs about function objects. *)
From Coq Require Import List Arith ZArith Bool Permutation Lia.
Import ListNotations.
From Verif Require Import Monad Types Model Api Spec Ref Lists SimBase SimRel SimOps SimIns SimErase SimIter SimNew SimObs SimExec RefEval SimRun LruProofs CallProofs LruMore Flat Global Safe Frame SpecPair Refs FillRes FunObj SpecFunObj.
Set Implicit Arguments.
Unset Strict Implicit.

(** ** Where the keys of a cache come from *)
Section From.
Context {L V : Type}.
Variable E : env L V.
Variable P : L -> Prop.
Notation entry := (entry L V).
Notation acache := (acache L V).
Implicit Types (a : acache) (o : op L V) (e : entry).

Definition all_p (l : list entry) : Prop := Forall (fun e => P (e_key e)) l.
Definition stored_keys o : list L :=
  match o with
  | NewFrom _ _ l | NewIters _ l | NewMove _ _ l | NewRvalue _ l | NewList _ l
  | AssignRange _ l | AssignMove _ l | InsertRange _ l | InsertMove _ l => map fst l
  | Insert _ k _ | Emplace _ k _ => [k]
  | _ => []
  end.

Lemma all_remove k l : all_p l -> all_p (remove_ent E k l).
Proof. unfold all_p. rewrite !Forall_forall. intros H e I. apply filter_In in I as (I & _). auto. Qed.
Lemma skipn_all n (l : list entry) : all_p l -> all_p (skipn n l).
Proof. revert l. induction n; intros [|e l] H; simpl; auto. apply IHn. inversion H; auto. Qed.
Lemma all_lastn n l : all_p l -> all_p (lastn n l).
Proof. apply skipn_all. Qed.
Lemma all_lookup k l e : all_p l -> lookup_ent E k l = Some e -> P (e_key e).
Proof. unfold all_p. rewrite Forall_forall. intros H X. apply find_some in X as (I & _). auto. Qed.
Lemma all_snoc l e : all_p l -> P (e_key e) -> all_p (l ++ [e]).
Proof. intros. apply Forall_app; split; auto. Qed.
Lemma all_bump k e a : all_p (a_ents a) -> P (e_key e) -> all_p (a_ents (bump E k e a)).
Proof. intros. simpl. apply all_snoc; auto using all_remove. Qed.
Lemma all_keep n a : all_p (a_ents a) -> all_p (a_ents (keep n a)).
Proof. intros. simpl. apply all_lastn; auto. Qed.
Lemma all_insert k v t a : all_p (a_ents a) -> P k -> all_p (a_ents (snd (insert_c E k v t a))).
Proof.
  intros H Hk. unfold insert_c. destruct (Nat.eqb (a_cap a) 0); auto.
  destruct (lookup_ent E k (a_ents a)) as [e|] eqn:X; simpl.
  - apply all_snoc; [apply all_remove; auto|]. simpl. eapply all_lookup; eauto.
  - apply all_lastn, all_snoc; auto.
Qed.
Lemma all_inserts l : forall cnt a n, all_p (a_ents a) -> Forall P (map fst l) ->
  all_p (a_ents (snd (fst (l_inserts E l cnt a n)))).
Proof.
  induction l as [|p t IH]; intros cnt a n H F; simpl; auto. inversion F; subst.
  apply IH; auto. apply all_insert; auto.
Qed.
Lemma all_clear l : forall a n cnt, all_p (a_ents a) -> all_p (a_ents (snd (fst (l_clear E l a n cnt)))).
Proof.
  induction l as [|e t IH]; intros a n cnt H; simpl; auto. destruct (stale E (a_ttl a) e n); auto.
  apply IH. simpl. apply all_remove; auto.
Qed.
Definition cache_of {A} (r : @ans L V A) : acache := snd (fst (fst r)).
Lemma all_find k a n : all_p (a_ents a) -> all_p (a_ents (cache_of (l_find E k a n))).
Proof.
  intros H. unfold l_find. destruct (lookup_ent E k (a_ents a)) as [e|] eqn:X; auto.
  destruct (stale E (a_ttl a) e n); auto. apply all_bump; auto. eapply all_lookup; eauto.
Qed.
Lemma all_contains k a n : all_p (a_ents a) -> all_p (a_ents (cache_of (l_contains E k a n))).
Proof.
  intros H. unfold l_contains. destruct (a_hot_ent E a k) as [e|].
  - destruct (stale E (a_ttl a) e n); auto.
  - destruct (lookup_ent E k (a_ents a)) as [e|] eqn:X; auto.
    destruct (stale E (a_ttl a) e n); auto. apply all_bump; auto. eapply all_lookup; eauto.
Qed.
Lemma hot_in a k e : a_hot_ent E a k = Some e -> In e (a_ents a).
Proof.
  unfold a_hot_ent, last_ent. destruct (a_hot a); [|discriminate]. destruct (rev (a_ents a)) as [|x t] eqn:R; [discriminate|].
  destruct (key_equal E k (e_key x)); [|discriminate]. intros Q; inversion Q; subst. apply in_rev. rewrite R. left; auto.
Qed.
Lemma all_look k a n : all_p (a_ents a) -> all_p (a_ents (cache_of (l_lookup E k a n))) /\
  match fst (fst (fst (l_lookup E k a n))) with Val e _ => P (e_key e) | _ => True end.
Proof.
  intros H. unfold l_lookup. destruct (a_hot_ent E a k) as [e|] eqn:Hot.
  - destruct (stale E (a_ttl a) e n); simpl; auto. split; auto.
    apply hot_in in Hot. unfold all_p in H. rewrite Forall_forall in H. auto.
  - destruct (lookup_ent E k (a_ents a)) as [e|] eqn:X; simpl; auto.
    destruct (stale E (a_ttl a) e n); simpl; auto.
    assert (P (e_key e)) by (eapply all_lookup; eauto).
    destruct (stale E (a_ttl a) e (tkn a + n)); simpl; split; auto; apply all_snoc; auto using all_remove.
Qed.
Lemma cache_then {A B} (f : A -> B) (r : @ans L V A) : cache_of (then_ f r) = cache_of r.
Proof. destruct r as (((r & a') & x) & m). reflexivity. Qed.

Lemma local_from ch o a n : all_p (a_ents a) -> Forall P (stored_keys o) ->
  all_p (a_ents (cache_of (local E ch o a n))).
Proof.
  intros H F. assert (K0 : forall m, all_p (a_ents (keep m a))) by (intros; apply all_keep; auto).
  destruct o; cbn [local]; rewrite ?cache_then; auto using all_find, all_contains.
  - (* AssignRange *) pose proof (@all_inserts l 0 (with_cap (Nat.max (a_cap a) (length l)) (keep 0 a)) n (K0 0) F) as X.
    destruct (l_inserts _ _ _ _ _) as ((? & ?) & ?). exact X.
  - pose proof (@all_inserts l 0 (with_cap (Nat.max (a_cap a) (length l)) (keep 0 a)) n (K0 0) F) as X.
    destruct (l_inserts _ _ _ _ _) as ((? & ?) & ?). exact X.
  - apply all_insert; auto. inversion F; auto.
  - apply all_insert; auto. inversion F; auto.
  - pose proof (@all_inserts l 0 a n H F) as X. destruct (l_inserts _ _ _ _ _) as ((? & ?) & ?). exact X.
  - pose proof (@all_inserts l 0 a n H F) as X. destruct (l_inserts _ _ _ _ _) as ((? & ?) & ?). exact X.
  - destruct (lookup_ent E k (a_ents a)) as [e|] eqn:X; auto.
    assert (P (e_key e)) by (eapply all_lookup; eauto).
    destruct (stale E (a_ttl a) e n); auto. destruct (stale E (a_ttl a) e (tkn a + n)); simpl; apply all_snoc; auto using all_remove.
  - apply all_look; auto.
  - pose proof (@all_look k a n H) as X. destruct (l_lookup E k a n) as (((r & a') & x) & m). unfold cache_of in X. simpl in X.
    destruct X as (X & Y). destruct r; auto. simpl. apply all_snoc; auto using all_remove.
  - destruct (lookup_ent E k (a_ents a)); auto. simpl. apply all_remove; auto.
  - pose proof (@all_find k a n H) as X. destruct (l_find E k a n) as (((r & a') & x) & m). unfold cache_of in X. simpl in X.
    destruct r as [[e|] u| | |]; auto. simpl. apply all_remove; auto.
  - destruct (nth_error (a_ents a) n0); auto. destruct (stale _ _ _ _); auto. simpl. apply all_remove; auto.
  - destruct (Nat.leb _ _); auto. destruct (nth_error (a_ents a) ch); auto. simpl. apply all_remove; auto.
  - apply K0.
  - apply K0.
  - apply K0.
  - pose proof (@all_clear (a_ents a) a n 0 H) as X. destruct (l_clear _ _ _ _ _) as ((? & ?) & ?). exact X.
  - destruct (last_ent (a_ents a)); auto.
  - destruct (a_ents a) eqn:Q; unfold cache_of; simpl; rewrite ?Q; auto.
  - destruct (lookup_ent E k (a_ents a)); auto.
  - destruct (last_ent (a_ents a)); auto.
  - destruct (nth_error (a_ents a) n0); auto.
  - destruct (nth_error (a_ents a) n0); auto.
Qed.

End From.

(** ** Each cache holds keys of its own objects *)
Section Marks.
Context {K V : Type}.
Notation key := (nat * K)%type.
Variable E : env key V.
Notation acache := (acache key V).
Notation aworld := (aworld key V).
Implicit Types (t : nat -> nat) (aw : aworld) (o : op K V).

Definition of (i : nat) (k : key) : Prop := fst k = i.
Definition marked t aw : Prop := forall c a, slot (aw_caches aw) c = Some a -> all_p (of (t c)) (a_ents a).

Lemma stored_of i o : Forall (of i) (stored_keys (map_op (pair i) o)).
Proof.
  assert (A : forall l : list (K * V), Forall (of i) (map fst (map_keys (pair i) l))).
  { induction l; simpl; constructor; auto; reflexivity. }
  destruct o; simpl; auto; constructor; auto; reflexivity.
Qed.
Lemma enter_same c i t : enter c i t c = i. Proof. unfold enter. rewrite Nat.eqb_refl. auto. Qed.
Lemma enter_other c i t d : d <> c -> enter c i t d = t d.
Proof. unfold enter. intros H. destruct (Nat.eqb_spec d c); congruence. Qed.

Lemma marked_caches t aw aw' : aw_caches aw' = aw_caches aw -> marked t aw -> marked t aw'.
Proof. intros Q M c a H. rewrite Q in H. eauto. Qed.
Lemma marked_put t aw c (a : acache) aw' : aw_caches aw' = upd (aw_caches aw) c (Some a) -> marked t aw ->
  all_p (of (t c)) (a_ents a) -> marked t aw'.
Proof.
  intros Q M A d b H. rewrite Q in H. destruct (Nat.eq_dec c d) as [<-|N].
  - destruct (Nat.lt_ge_cases c (length (aw_caches aw))).
    + unfold slot in H. rewrite nth_upd_same in H by auto. inversion H; subst; auto.
    + rewrite slot_overflow in H by (rewrite upd_length; auto). discriminate.
  - rewrite slot_upd_other in H by auto. eauto.
Qed.
Lemma marked_new t i aw (a : acache) aw' : aw_caches aw' = aw_caches aw ++ [Some a] -> marked t aw ->
  all_p (of i) (a_ents a) -> marked (enter (length (aw_caches aw)) i t) aw'.
Proof.
  intros Q M A d b H. rewrite Q in H. destruct (Nat.eq_dec d (length (aw_caches aw))) as [->|N].
  - rewrite enter_same. unfold slot in H. rewrite app_nth2, Nat.sub_diag in H by lia. inversion H; subst; auto.
  - rewrite enter_other by auto. destruct (Nat.lt_ge_cases d (length (aw_caches aw))).
    + rewrite slot_app_lt in H by auto. eauto.
    + rewrite slot_overflow in H by (rewrite app_length; simpl; lia). discriminate.
Qed.

Lemma build_marked ch i o t aw : constructor o = true -> marked t aw ->
  exists aw', astep E ch (map_op (pair i) o) aw = Val (RNat (length (aw_caches aw))) aw' /\
    marked (enter (length (aw_caches aw)) i t) aw'.
Proof.
  intros C M. pose proof (stored_of i o) as F. unfold astep.
  assert (W : a_well_formed aw (map_op (pair i) o) = true) by (destruct o; try discriminate; reflexivity).
  rewrite W. simpl.
  assert (N : target (map_op (pair i) o) = None /\ stats_target (map_op (pair i) o) = None)
    by (destruct o; try discriminate; split; reflexivity).
  destruct N as (-> & ->).
  assert (B : exists cap ttl l, building (map_op (pair i) o) = Some (cap, ttl, l) /\ Forall (of i) (map fst l)).
  { destruct o; try discriminate; simpl in *; eexists _, _, _; (split; [reflexivity|]); auto. }
  destruct B as (cap & ttl & l & -> & Fl).
  pose proof (@all_inserts _ _ E (of i) l 0 (fresh_a cap ttl) (aw_reads aw)) as A. specialize (A (Forall_nil _) Fl).
  destruct (l_inserts E l 0 (fresh_a cap ttl) (aw_reads aw)) as ((cnt & a') & n').
  eexists. split; [reflexivity|]. eapply marked_new; [reflexivity|auto|exact A].
Qed.

(** The client's notes after a call that is no constructor. *)
Definition ledger_call o (r : outcome key V) t : nat -> nat :=
  match o, r with
  | Copy d, Returned (RNat e) => enter e (t d) t
  | CopyAssign c d, Returned RUnit => enter c (t d) t
  | Move d, Returned (RNat e) => enter d 0 (enter e (t d) t)
  | MoveAssign c d, Returned RUnit | Swap c d, Returned RUnit => enter c (t d) (enter d (t c) t)
  | _, _ => t
  end.

Lemma awith_caches c (a : acache) aw : aw_caches (awith c a aw) = upd (aw_caches aw) c (Some a).
Proof. reflexivity. Qed.
Lemma marked_ext t t' aw : (forall c, t c = t' c) -> marked t aw -> marked t' aw.
Proof. intros Q M c a H. rewrite <- Q. eauto. Qed.
Lemma swap_marked t c d (a b : acache) (a' b' : acache) aw aw' :
  slot (aw_caches aw) c = Some a -> slot (aw_caches aw) d = Some b -> c <> d ->
  aw_caches aw' = upd (upd (aw_caches aw) c (Some a')) d (Some b') -> a_ents a' = a_ents b -> a_ents b' = a_ents a ->
  marked t aw -> marked (enter c (t d) (enter d (t c) t)) aw'.
Proof.
  intros Ha Hb N Q Ea Eb M e x H. rewrite Q in H.
  destruct (Nat.eq_dec e d) as [->|Nd].
  - rewrite enter_other, enter_same by auto. unfold slot in H. rewrite nth_upd_same in H.
    + inversion H; subst. rewrite Eb. eauto.
    + rewrite upd_length. eapply slot_lt; eauto.
  - rewrite slot_upd_other in H by auto. destruct (Nat.eq_dec e c) as [->|Nc].
    + rewrite enter_same. unfold slot in H. rewrite nth_upd_same in H by (eapply slot_lt; eauto).
      inversion H; subst. rewrite Ea. eauto.
    + rewrite slot_upd_other in H by auto. rewrite !enter_other by auto. eauto.
Qed.

Lemma step_marked ch o t aw : constructor o = false -> copy_free o = true -> marked t aw ->
  match astep E ch (map_op (pair (t (receiver o))) o) aw with
  | Val r aw' => marked (ledger_call o (Returned r) t) aw'
  | Exc _ aw' => marked t aw'
  | _ => True
  end.
Proof.
  intros NC CF M. set (i := t (receiver o)). pose proof (stored_of i o) as F. unfold astep.
  destruct (a_well_formed aw (map_op (pair i) o)) eqn:W; simpl.
  2: { destruct o; auto. }
  destruct (target (map_op (pair i) o)) as [c|] eqn:T.
  { assert (Rc : receiver o = c) by (destruct o; inversion T; reflexivity).
    assert (Nn : forall r, ledger_call o r t = t) by (intros r; destruct o; try discriminate; reflexivity).
    unfold two. destruct (slot (aw_caches aw) c) as [a|] eqn:Ha; [|rewrite Nn; auto].
    pose proof (@local_from _ _ E (of i) ch (map_op (pair i) o) a (aw_reads aw)) as A.
    unfold i in A at 1. rewrite Rc in A. specialize (A (M _ _ Ha) F).
    destruct (local E ch (map_op (pair i) o) a (aw_reads aw)) as (((r & a') & x) & m). unfold cache_of in A. simpl in A.
    assert (X : marked t (awith c a' (noted E a x (ticks m aw)))).
    { eapply marked_put; [rewrite awith_caches; reflexivity| |unfold i in A; rewrite Rc in A; exact A].
      eapply marked_caches; [|exact M]. rewrite noted_caches. reflexivity. }
    destruct r; simpl; rewrite ?Nn; auto. }
  destruct (stats_target (map_op (pair i) o)) as [c|] eqn:ST.
  { assert (Nn : forall r, ledger_call o r t = t) by (intros r; destruct o; try discriminate; reflexivity).
    unfold two. destruct (slot (aw_caches aw) c) as [a|]; [|rewrite Nn; auto].
    destruct (a_stats a) as [s|]; auto. destruct (slot (aw_stats aw) s) as [x|]; auto.
    destruct (on_stats E (map_op (pair i) o) x) as (r & x').
    destruct r; simpl; rewrite ?Nn; auto; eapply marked_caches; try exact M; reflexivity. }
  assert (B : building (map_op (pair i) o) = None) by (destruct o; try discriminate; reflexivity).
  rewrite B.
  destruct o; try discriminate; cbn [map_op] in *; unfold two.
  - (* Move *) destruct (slot (aw_caches aw) c) as [a|] eqn:Ha; auto. destruct (junk E) as [n|]; auto.
    cbn [ledger_call].
    apply marked_ext with (t := enter (length (aw_caches (awith c (take_from (fresh_a n None) a) aw))) (t c) (enter c 0 t)).
    { intros e. rewrite awith_caches, upd_length. pose proof (slot_lt _ _ Ha) as L.
      unfold enter. destruct (Nat.eqb_spec e (length (aw_caches aw))), (Nat.eqb_spec e c); auto. lia. }
    eapply marked_new; [reflexivity| |simpl; eauto].
    intros e b H. rewrite awith_caches in H. destruct (Nat.eq_dec e c) as [->|N].
    + unfold slot in H. rewrite nth_upd_same in H by (eapply slot_lt; eauto). inversion H; subst. constructor.
    + rewrite slot_upd_other in H by auto. rewrite enter_other by auto. eauto.
  - (* Destroy *) intros e b H. simpl in H. destruct (Nat.eq_dec e c) as [->|N].
    + destruct (Nat.lt_ge_cases c (length (aw_caches aw))).
      * unfold slot in H. rewrite nth_upd_same in H by auto. discriminate.
      * rewrite slot_overflow in H by (rewrite upd_length; auto). discriminate.
    + rewrite slot_upd_other in H by auto. apply (M _ _ H).
  - (* CopyAssign *) simpl in CF. apply Nat.eqb_eq in CF as <-. simpl.
    eapply marked_ext; [|exact M]. intros e. unfold enter. destruct (Nat.eqb_spec e c); congruence.
  - (* MoveAssign *) destruct (slot (aw_caches aw) c) as [a|] eqn:Ha; auto. destruct (slot (aw_caches aw) d) as [b|] eqn:Hb; auto.
    destruct (Nat.eqb_spec c d) as [<-|N]; simpl.
    + eapply marked_ext; [|exact M]. intros e. unfold enter. destruct (Nat.eqb_spec e c); congruence.
    + eapply (swap_marked Ha Hb N); [reflexivity|reflexivity|reflexivity|auto].
  - (* Swap *) destruct (slot (aw_caches aw) c) as [a|] eqn:Ha; auto. destruct (slot (aw_caches aw) d) as [b|] eqn:Hb; auto.
    destruct (Nat.eqb_spec c d) as [<-|N]; simpl.
    + eapply marked_ext; [|exact M]. intros e. unfold enter. destruct (Nat.eqb_spec e c); congruence.
    + eapply (swap_marked Ha Hb N); [reflexivity|reflexivity|reflexivity|auto].
  - (* Equal *) destruct (slot (aw_caches aw) c) as [a|] eqn:Ha; auto. destruct (slot (aw_caches aw) d) as [b|] eqn:Hb; auto.
  - (* MonitorNew *) destruct (slot (aw_caches aw) c) as [a|] eqn:Ha; auto. simpl.
    eapply marked_put; [reflexivity|exact M|]. simpl. eauto.
Qed.

End Marks.

Section Inv.
Context {K V : Type}.
Notation key := (nat * K)%type.
Notation fstate := (fstate K V).
Variable E : env key V.
Hypothesis G : good E.
Variable callable : nat -> bool.
Implicit Types (t : nat -> nat) (o : op K V) (st : fstate) (p : fop K V).

Record finv st t : Prop := {
  fi_reach : reachable E (f_world st);
  fi_map : forall c, f_map st c = t c;
  fi_last : forall c, f_last st c = t c;
  fi_aw : exists aw, rel E (f_world st) aw /\ marked t aw
}.
Lemma finv_ext st t t' : (forall c, t c = t' c) -> finv st t -> finv st t'.
Proof.
  intros Q [A B C (aw & R & M)]. constructor; auto; try (intros; congruence).
  exists aw. split; auto. eapply marked_ext; eauto.
Qed.
Lemma enter_put c i t x : put c i t x = enter c i t x.
Proof. reflexivity. Qed.

Lemma copy_free_map o (i : nat) : copy_free (map_op (pair i) o) = copy_free o.
Proof. destruct o; reflexivity. Qed.
Lemma wf_map (w : world key V) (i j : nat) o : well_formed w (map_op (pair i) o) = well_formed w (map_op (pair j) o).
Proof. destruct o; reflexivity. Qed.

Lemma construct_inv i o st t : constructor o = true -> finv st t ->
  match construct E callable i o st with
  | Val r st' => exists e, r = RNat e /\ finv st' (enter e i t) /\ alive (f_world st) e = false /\
                  exec E (map_op (pair i) o) (f_world st) = Val (RNat e) (f_world st')
  | Exc _ _ => False
  | Undef u => u = NullPointer /\ callable i = false
  | Term _ => False
  end.
Proof.
  intros C [A B D (aw & R & M)]. unfold construct, bind, with_objects.
  destruct (searches o && negb (callable i)) eqn:S.
  - simpl. split; auto. apply andb_prop in S as (_ & S). apply negb_true_iff in S; auto.
  - assert (CF : copy_free (map_op (pair i) o) = true) by (destruct o; try discriminate; reflexivity).
    unfold in_world. destruct (exec_step G R CF) as (ch & X).
    destruct (build_marked E ch i C M) as (aw' & Y & M'). rewrite Y in X.
    destruct (exec E (map_op (pair i) o) (f_world st)) as [r w'| | |] eqn:Z; simpl in X; try contradiction.
    + destruct X as (R' & Q).
      assert (r = RNat (length (aw_caches aw))) by (destruct o; try discriminate; exact Q). subst r.
      simpl. exists (length (aw_caches aw)). split; auto. split; [|split].
      * constructor; simpl; auto.
        -- eapply reach_return; eauto.
        -- intros c. rewrite enter_put. unfold enter. rewrite B; auto.
        -- intros c. rewrite enter_put. unfold enter. rewrite D; auto.
        -- exists aw'. auto.
      * unfold alive. rewrite slot_overflow; auto. rewrite (rel_len R); auto.
      * reflexivity.
Qed.

Lemma objects_inv o (r : out key V) st t : finv st t ->
  exists st', move_objects o r st = Val tt st' /\ f_world st' = f_world st /\
    (forall c, f_map st' c = ledger_call o (Returned r) t c) /\ (forall c, f_last st' c = ledger_call o (Returned r) t c).
Proof.
  intros [A B D _].
  assert (Id : exists st', ret (S := fstate) tt st = Val tt st' /\ f_world st' = f_world st /\ 
    (forall c, f_map st' c = t c) /\ (forall c, f_last st' c = t c)) by (exists st; auto).
  assert (Sw : forall e d, exists st', swap_objects e d st = Val tt st' /\ f_world st' = f_world st /\
    (forall c, f_map st' c = enter e (t d) (enter d (t e) t) c) /\ (forall c, f_last st' c = enter e (t d) (enter d (t e) t) c)).
  { intros e d. eexists. split; [reflexivity|]. split; [reflexivity|]. simpl.
    split; intros c; unfold put, enter; rewrite ?B, ?D; destruct (Nat.eqb_spec c d), (Nat.eqb_spec c e); subst; auto. }
  destruct o; try exact Id; destruct r; try exact Id; try apply Sw; cbn [move_objects ledger_call].
  - (* Copy *) eexists. split; [reflexivity|]. split; [reflexivity|]. simpl. split; intros x; unfold put, enter; rewrite ?B, ?D; auto.
  - (* Move *) eexists. split; [reflexivity|]. split; [reflexivity|]. simpl.
    split; intros x; unfold put, enter; rewrite ?B, ?D, ?Nat.eqb_refl;
      destruct (Nat.eqb_spec x c), (Nat.eqb_spec x n); subst; rewrite ?Nat.eqb_refl; auto;
      destruct (Nat.eqb_spec c n); subst; auto; congruence.
  - (* CopyAssign *) eexists. split; [reflexivity|]. split; [reflexivity|]. simpl. split; intros x; unfold put, enter; rewrite ?B, ?D; auto.
Qed.

(** What a call amounts to. *)
Lemma call_inv o st t : constructor o = false -> copy_free o = true -> finv st t ->
  let i := t (receiver o) in
  match call E callable o st with
  | Val r st' => finv st' (ledger_call o (Returned r) t) /\
                 exec E (map_op (pair i) o) (f_world st) = Val r (f_world st')
  | Exc e st' => finv st' t /\ exec E (map_op (pair i) o) (f_world st) = Exc e (f_world st')
  | Undef u => (u = NullPointer /\ callable i = false /\ searches o = true) \/
               (u = MixedFunctions /\ exists c d, o = Equal c d /\ t c <> t d) \/
               exec E (map_op (pair i) o) (f_world st) = Undef u
  | Term e => exec E (map_op (pair i) o) (f_world st) = Term e
  end.
Proof.
  intros NC CF I i. pose proof I as [A B D (aw & R & M)]. unfold call.
  destruct (well_formed (f_world st) (map_op (pair (f_map st (receiver o))) o)) eqn:W; simpl.
  2: { split; [|unfold exec; rewrite (wf_map _ i (f_map st (receiver o))), W; auto].
       destruct o; auto. }
  rewrite (B (receiver o)), (D (receiver o)), Nat.eqb_refl in *. simpl. fold i.
  destruct (comparable o st) eqn:Cm; simpl.
  2: { right. left. split; auto. destruct o; try discriminate. simpl in Cm. apply orb_false_iff in Cm as (_ & Cm).
       rewrite !B in Cm. apply Nat.eqb_neq in Cm. eauto. }
  unfold bind, with_objects. destruct (searches o && negb (callable i)) eqn:S.
  { simpl. apply andb_prop in S as (S1 & S2). apply negb_true_iff in S2. auto. }
  unfold in_world. destruct (exec_step (o := map_op (pair i) o) G R) as (ch & X); [rewrite copy_free_map; auto|].
  pose proof (@step_marked K V E ch o t aw NC CF M) as M'. fold i in M'.
  destruct (exec E (map_op (pair i) o) (f_world st)) as [r w'|e w'|u|e] eqn:Z;
    destruct (astep E ch (map_op (pair i) o) aw) as [r' aw'|e' aw'|u'|e']; simpl in X; try contradiction; auto.
  - destruct X as (R' & Q). set (st1 := MkF w' (f_map st) (f_last st)).
    assert (I1 : finv st t) by auto.
    assert (L : ledger_call o (Returned r) t = ledger_call o (Returned r') t).
    { unfold ok in Q. destruct o; simpl in Q; try (subst; reflexivity); reflexivity. }
    assert (Y : exists st', move_objects o r st1 = Val tt st' /\ f_world st' = w' /\
      (forall c, f_map st' c = ledger_call o (Returned r) t c) /\ (forall c, f_last st' c = ledger_call o (Returned r) t c)).
    { destruct (objects_inv o r I1) as (st' & Y1 & Y2 & Y3 & Y4).
      exists (MkF w' (f_map st') (f_last st')). simpl. repeat split; auto.
      clear -Y1. unfold st1. destruct o; simpl in *; try (inversion Y1; subst; reflexivity);
        destruct r; simpl in *; inversion Y1; subst; reflexivity. }
    destruct Y as (st' & Y1 & Y2 & Y3 & Y4). simpl. rewrite Y1. simpl. split; [|congruence].
    constructor; auto.
    + rewrite Y2. eapply reach_return; [exact A| |exact Z]. rewrite copy_free_map; auto.
    + exists aw'. rewrite Y2, L. auto.
  - destruct X as (-> & R'). simpl. split; auto. constructor; simpl; auto.
    + eapply reach_throw; [exact A| |exact Z]. rewrite copy_free_map; auto.
    + exists aw'. auto.
Qed.

Lemma unordered_step st d : finv st (f_map st) -> timed (f_world st) d = false ->
  match exec E (Unordered d) (f_world st) with
  | Val (REnts l) w => w = f_world st /\ alive (f_world st) d = true
  | Val _ w => w = f_world st /\ alive (f_world st) d = false
  | _ => False
  end.
Proof.
  intros [A B D (aw & R & M)] T. destruct (alive (f_world st) d) eqn:Al.
  - destruct (alive_inv R Al) as (a & Ha).
    destruct (traversals G A (contents_of G R Ha)) as (_ & (u & X & _) & _). rewrite X. auto.
  - unfold exec. simpl. rewrite Al. auto.
Qed.
End Inv.
