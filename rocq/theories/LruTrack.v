(** Facts about histories of the textbook cache, carried over to the caches:
    the value delivered is the last one written, the key shown is the first one
    inserted, equal keys are interchangeable. *)
From Coq Require Import List Arith ZArith Bool Permutation Lia.
Import ListNotations.
From Verif Require Import Monad Types Model Api Spec LruProofs CallProofs LruMore.
Set Implicit Arguments.
Unset Strict Implicit.

Section Track.
Context {K V : Type}.
Variable E : env K V.
Hypothesis G : good E.
Notation look := (look E).
Notation without := (without E).
Notation has := (has E).

Lemma look_firstn k n : forall l p, look k (firstn n l) = Some p -> look k l = Some p.
Proof.
  unfold Spec.look. induction n; intros [|q l] p; simpl; auto; try discriminate.
  destruct (key_equal E k (fst q)); auto.
Qed.
Lemma look_cons k q l : look k (q :: l) = if key_equal E k (fst q) then Some q else look k l.
Proof. reflexivity. Qed.
Lemma keq_false_l a b c : key_equal E a b = true -> key_equal E a c = false -> key_equal E b c = false.
Proof.
  intros A B. apply not_true_is_false. intros C. rewrite (good_trans G _ _ _ A C) in B. discriminate.
Qed.


(** Values: every element shown carries the tracked value. *)
Definition tracked (f : K -> option V) (s : lru) : Prop :=
  (lcap s = 0 -> items s = []) /\
  forall k k0 v, look k (items s) = Some (k0, v) -> f k = Some v.

Lemma tracked_ext f g s : (forall k, f k = g k) -> tracked f s -> tracked g s.
Proof. intros X (Z & T). split; auto. intros. rewrite <- X. eauto. Qed.

Lemma tracked_sub f s n l : tracked f s -> (n = 0 -> l = []) ->
  (forall k p, look k l = Some p -> look k (items s) = Some p) -> tracked f (Lru n l).
Proof. intros (Z & T) Z' S. split; auto. simpl. intros. eauto. Qed.

Lemma tracked_move f s k p : tracked f s -> look k (items s) = Some p ->
  tracked f (Lru (lcap s) (p :: without k (items s))).
Proof.
  intros (Z & T) Q. split; cbn [items lcap].
  - intros C. rewrite Z in Q; auto. discriminate.
  - intros k' k0 v. rewrite look_cons. destruct (key_equal E k' (fst p)) eqn:X.
    + intros Y. inversion Y; subst. apply (T k' k0). rewrite (look_keq G (k' := k)); auto.
      eapply (good_trans G); eauto. simpl. rewrite (good_sym G). apply (look_eq Q).
    + rewrite (look_without G). destruct (key_equal E k k'); [discriminate|]. apply T.
Qed.

Lemma tracked_store f s k k0 v : tracked f s -> key_equal E k k0 = true -> lcap s <> 0 ->
  tracked (fun k' => if key_equal E k' k then Some v else f k') (Lru (lcap s) ((k0, v) :: without k (items s))).
Proof.
  intros (Z & T) Q C. split; cbn [items lcap]; [tauto|].
  intros k' k1 v1. rewrite look_cons. cbn [fst].
  rewrite (good_sym G) in Q. destruct (key_equal E k' k0) eqn:X.
  - intros Y. inversion Y; subst. rewrite (good_trans G _ _ _ X Q). auto.
  - rewrite (look_without G). rewrite (good_sym G k k'). destruct (key_equal E k' k) eqn:Y; [discriminate|]. apply T.
Qed.

Lemma lput_track f k v s : tracked f s ->
  tracked (fun k' => if key_equal E k' k then Some v else f k') (snd (lput E k v s)).
Proof.
  intros T. pose proof T as (Z & T'). unfold lput. destruct (Nat.eqb (lcap s) 0) eqn:C; simpl.
  - apply Nat.eqb_eq in C. split; auto. rewrite (Z C). discriminate.
  - apply Nat.eqb_neq in C. destruct (look k (items s)) as [(k0 & v0)|] eqn:Q; simpl.
    + apply tracked_store; auto. exact (look_eq Q).
    + assert (T1 : tracked (fun k' => if key_equal E k' k then Some v else f k') (Lru (lcap s) ((k, v) :: without k (items s)))).
      { apply tracked_store; auto. apply (good_refl G). }
      rewrite (without_none (E := E)) in T1 by (rewrite look_has, Q; auto).
      apply (tracked_sub T1); [tauto|]. intros k' p. apply look_firstn.
Qed.

Lemma given_cons k k' v l : given E k ((k', v) :: l) =
  match given E k l with Some x => Some x | None => if key_equal E k k' then Some v else None end.
Proof.
  unfold given. simpl rev. rewrite look_app. destruct (look k (rev l)) as [p|]; simpl; auto.
  destruct (key_equal E k k'); auto.
Qed.

Lemma lputs_track l : forall f s, tracked f s ->
  tracked (fun k => match given E k l with Some v => Some v | None => f k end) (snd (lputs E l s)).
Proof.
  induction l as [|(k & v) l IH]; intros f s T.
  - simpl. apply (tracked_ext (f := f)); auto.
  - cbn [lputs]. pose proof (lput_track k v T) as T1. destruct (lput E k v s) as ((b & q) & s1).
    pose proof (IH _ _ T1) as T2. simpl in T2. destruct (lputs E l s1) as (n & s2). simpl in *.
    eapply tracked_ext; [|exact T2]. intros k'. simpl. rewrite given_cons.
    destruct (given E k' l); auto. destruct (key_equal E k' k); auto.
Qed.

Lemma tracked_without f s k : tracked f s -> tracked f (ldel E k s).
Proof.
  intros T. pose proof T as (Z & _). apply (tracked_sub T).
  - intros C. rewrite (Z C). auto.
  - intros k' p. rewrite (look_without G). destruct (key_equal E k k'); auto. discriminate.
Qed.
Lemma tracked_take f s n : tracked f s -> tracked f (ltake n s).
Proof.
  intros T. pose proof T as (Z & _). apply (tracked_sub T).
  - intros C. rewrite (Z C). destruct n; auto.
  - intros k p. apply look_firstn.
Qed.
Lemma look_own l p : In p l -> distinct E l -> look (fst p) l = Some p.
Proof.
  induction l as [|q l IH]; cbn [In distinct]; [easy|]. intros [->|I] (D1 & D2).
  - rewrite look_cons, (good_refl G). auto.
  - rewrite look_cons. destruct (key_equal E (fst p) (fst q)) eqn:X; auto.
    exfalso. assert (Y : has (fst q) l = true); [|congruence].
    unfold Spec.has. apply existsb_exists. exists p. split; auto. rewrite (good_sym G). auto.
Qed.

Lemma lstep_track f x s r s' : tracked f s -> lstep E x s = Some (r, s') ->
  tracked (fun k => lwrite E k x (f k)) s'.
Proof.
  intros T X. assert (GET : forall k, tracked f (snd (lget E k s))).
  { intros k. unfold lget. destruct (look k (items s)) as [p|] eqn:Q; simpl; auto. apply tracked_move; auto. }
  assert (same : forall s0, tracked f s0 -> tracked (fun k => f k) s0) by (intros; eapply tracked_ext; eauto).
  destruct x; cbn [lstep] in X; cbn [lwrite]; try (inversion X; subst; apply same; auto; fail).
  - pose proof (lput_track k v T) as T1. destruct (lput E k v s) as ((b & q) & s1). inversion X; subst. exact T1.
  - pose proof (lput_track k v T) as T1. destruct (lput E k v s) as ((b & q) & s1). inversion X; subst. exact T1.
  - pose proof (lputs_track l T) as T1. destruct (lputs E l s) as (n & s1). inversion X; subst. exact T1.
  - pose proof (lputs_track l T) as T1. destruct (lputs E l s) as (n & s1). inversion X; subst. exact T1.
  - inversion X; subst. unfold lassign. apply lputs_track. split; simpl; auto. discriminate.
  - inversion X; subst. unfold lassign. apply lputs_track. split; simpl; auto. discriminate.
  - specialize (GET k). destruct (lget E k s) as (q & s1). inversion X; subst. apply same; auto.
  - specialize (GET k). destruct (lget E k s) as (q & s1). inversion X; subst. apply same; auto.
  - specialize (GET k). destruct (lget E k s) as (q & s1). destruct q as [(? & ?)|]; inversion X; subst; apply same; auto.
  - unfold lget in X. destruct (look k (items s)) as [(k0 & v0)|] eqn:Q; inversion X; subst.
    + pose proof (tracked_move T Q) as T1. simpl.
      assert (C : lcap s <> 0).
      { intros C. destruct T as (Z & _). rewrite (Z C) in Q. discriminate. }
      pose proof (tracked_store (s := Lru (lcap s) ((k0, v0) :: without k (items s))) v T1 (look_eq Q) C) as T2.
      exact T2.
    + destruct T as (Z & T'). split; auto. intros k' k1 v1 Q'.
      destruct (key_equal E k' k) eqn:Y; eauto. rewrite (look_keq G _ Y) in Q'. congruence.
  - inversion X; subst. apply same. apply tracked_without; auto.
  - destruct (has k (items s)); inversion X; subst; apply same; auto. apply tracked_without; auto.
  - destruct (nth_error (rev (items s)) n) as [(k & v)|]; inversion X; subst; apply same; auto. apply tracked_without; auto.
  - inversion X; subst. apply same. apply tracked_take; auto.
  - inversion X; subst. apply same. apply tracked_take; auto.
  - inversion X; subst. apply same. unfold ltake. simpl. apply (tracked_sub T).
    + intros ->. auto.
    + intros k p. apply look_firstn.
  - destruct (items s) as [|(? & ?) ?]; inversion X; subst; apply same; auto.
  - destruct (rev (items s)) as [|(? & ?) ?]; inversion X; subst; apply same; auto.
  - destruct (nth_error (rev (items s)) n) as [(k & v)|]; inversion X; subst; apply same; auto.
Qed.

Lemma lrun_track calls : forall f s answers s', tracked f s -> lrun E calls s = (answers, Some s') ->
  tracked (fun k => lwritten E k calls (f k)) s'.
Proof.
  induction calls as [|x t IH]; intros f s answers s' T X.
  - simpl in X. inversion X; subst. simpl. eapply tracked_ext; eauto.
  - rewrite lrun_cons in X. destruct (lstep E x s) as [(r & s1)|] eqn:Y; [|discriminate].
    pose proof (lstep_track T Y) as T1. destruct (lrun E t s1) as (rs & o) eqn:Z.
    destruct o; inversion X; subst. pose proof (IH _ _ _ _ T1 Z) as T2. exact T2.
Qed.

Lemma last_written w c l n calls outs w' : reachable E w -> timed w c = false ->
  contents E c w l -> capacity_is E c w n -> run E (map (on c) calls) w = Finished outs w' ->
  forall k k0 v w'', call E (Find c k) w' (Returned (ROpt (Some (k0, v)))) w'' \/
                     call E (Lookup c k) w' (Returned (RVal v)) w'' ->
  lwritten E k calls (option_map snd (look k l)) = Some v.
Proof.
  intros H T C N Rn k k0 v w'' A.
  destruct (lru_run G H T C N Rn) as (answers & s & L & _ & C1 & N1 & H1 & T1).
  assert (T0 : tracked (fun k => option_map snd (look k l)) (Lru n (rev l))).
  { split; cbn [items lcap].
    - intros ->. destruct (keys_unique G H (or_introl C)) as (_ & Sz). pose proof (size_le_capacity G H Sz N) as Le.
      destruct l; simpl in Le; auto. lia.
    - intros k' k1 v1 Q. assert (Q' : look k' l = look k' (rev l)); [|rewrite Q', Q; auto].
      destruct (keys_unique G H (or_introl C)) as (Dl & _).
      pose proof (look_eq Q) as Ke. rewrite Q, (look_keq G l Ke).
      apply (look_own (p := (k1, v1))); auto. apply in_rev. apply find_some in Q. tauto. }
  destruct (lrun_track T0 L) as (_ & Tr).
  assert (LK : look k (items s) = look k (rev (items s))).
  { destruct (keys_unique G H1 (or_introl C1)) as (D & _).
    destruct (look k (items s)) as [(k1 & v1)|] eqn:Q.
    - symmetry. pose proof (look_eq Q) as Ke. rewrite (look_keq G _ Ke).
      apply (look_own (p := (k1, v1))); auto. apply in_rev. rewrite rev_involutive. apply find_some in Q. tauto.
    - destruct (look k (rev (items s))) eqn:Q'; auto. exfalso.
      assert (A' : has k (items s) = true); [|rewrite look_has, Q in A'; discriminate].
      rewrite <- (has_rev' E), look_has, Q'. auto. }
  destruct A as [A|A]; simpl in A.
  - destruct (look k (items s)) as [p|] eqn:Q; symmetry in LK.
    + destruct (access_hit G (reads_find c k) H1 T1 C1 N1 LK) as (w2 & X & _). simpl in X. rewrite A in X.
      inversion X; subst. eauto.
    + destruct (access_miss G (reads_find c k) H1 T1 C1 N1 LK) as (w2 & X & _). simpl in X. rewrite A in X. discriminate.
  - destruct (look k (items s)) as [(k1 & v1)|] eqn:Q; symmetry in LK.
    + destruct (access_hit G (reads_lookup c k) H1 T1 C1 N1 LK) as (w2 & X & _). simpl in X. rewrite A in X.
      inversion X; subst. eauto.
    + destruct (access_miss G (reads_lookup c k) H1 T1 C1 N1 LK) as (w2 & X & _). simpl in X. rewrite A in X. discriminate.
Qed.

(** ** Keys *)

Lemma lput_keys k v s p : In p (items (snd (lput E k v s))) ->
  (exists v', In (fst p, v') (items s)) \/ fst p = k /\ look k (items s) = None.
Proof.
  unfold lput. destruct (Nat.eqb (lcap s) 0); simpl; [destruct p; eauto|].
  destruct (look k (items s)) as [(k0 & v0)|] eqn:Q; cbn [snd items ltake].
  - simpl. intros [<-|I]; left.
    + simpl. exists v0. apply find_some in Q. tauto.
    + apply filter_In in I. destruct p; exists v1; tauto.
  - intros I. assert (I' : In p ((k, v) :: items s)).
    { rewrite <- (firstn_skipn (lcap s)). apply in_or_app; auto. }
    destruct I' as [<-|I']; simpl; auto. left. destruct p; eauto.
Qed.

(** Every key shown after one call was shown before, or has just been inserted
    while no equal key was present. *)
Lemma lstep_keys x s r s' p : single x = true -> lstep E x s = Some (r, s') -> In p (items s') ->
  (exists v', In (fst p, v') (items s)) \/
  exists k v, (x = LInsert k v \/ x = LEmplace k v) /\ fst p = k /\ look k (items s) = None.
Proof.
  intros Si X I.
  assert (same : In p (items s) -> exists v', In (fst p, v') (items s)) by (destruct p; eauto).
  assert (GET : forall k, In p (items (snd (lget E k s))) -> exists v', In (fst p, v') (items s)).
  { intros k. unfold lget. destruct (look k (items s)) as [q|] eqn:Q; simpl; auto.
    intros [<-|J]; [|apply filter_In in J; tauto]. apply same. apply find_some in Q. tauto. }
  assert (DEL : forall k, In p (items (ldel E k s)) -> exists v', In (fst p, v') (items s)).
  { intros k J. apply filter_In in J. tauto. }
  assert (TAKE : forall n m, In p (items (ltake n (Lru m (items s)))) -> exists v', In (fst p, v') (items s)).
  { intros n m J. apply same. simpl in J. rewrite <- (firstn_skipn n). apply in_or_app; auto. }
  destruct x; try discriminate; cbn [lstep] in X; try (inversion X; subst; left; auto; fail).
  - pose proof (lput_keys (p := p) (k := k) (v := v) (s := s)) as P. destruct (lput E k v s) as ((b & q) & s1).
    inversion X; subst. destruct (P I) as [P'|P']; auto. right. exists k, v. tauto.
  - pose proof (lput_keys (p := p) (k := k) (v := v) (s := s)) as P. destruct (lput E k v s) as ((b & q) & s1).
    inversion X; subst. destruct (P I) as [P'|P']; auto. right. exists k, v. tauto.
  - specialize (GET k). destruct (lget E k s) as (q & s1). inversion X; subst. auto.
  - specialize (GET k). destruct (lget E k s) as (q & s1). inversion X; subst. auto.
  - specialize (GET k). destruct (lget E k s) as (q & s1). destruct q as [(? & ?)|]; inversion X; subst; auto.
  - unfold lget in X. destruct (look k (items s)) as [(k0 & v0)|] eqn:Q; inversion X; subst; auto.
    left. cbn [items] in I. destruct I as [<-|I].
    + simpl. apply find_some in Q. exists v0. tauto.
    + pose proof (look_eq Q) as Ke. cbn [fst] in Ke. rewrite Ke in I. cbn [negb] in I.
      apply filter_In in I as (I & _). apply filter_In in I. tauto.
  - left. inversion X; subst. eauto.
  - left. destruct (has k (items s)); inversion X; subst; eauto.
  - left. destruct (nth_error (rev (items s)) n) as [(k & v)|]; inversion X; subst; eauto.
  - left. inversion X; subst. destruct s; eapply TAKE; exact I.
  - left. inversion X; subst. destruct s; eapply TAKE; exact I.
  - left. inversion X; subst. eapply TAKE; exact I.
  - left. assert (s' = s) by (destruct (items s) as [|(? & ?) ?]; inversion X; auto). subst. auto.
  - left. assert (s' = s) by (destruct (rev (items s)) as [|(? & ?) ?]; inversion X; auto). subst. auto.
  - left. assert (s' = s) by (destruct (nth_error (rev (items s)) n) as [(? & ?)|]; inversion X; auto). subst. auto.
Qed.

Lemma first_key w c l n x r w' l' : reachable E w -> timed w c = false -> contents E c w l -> capacity_is E c w n ->
  single x = true -> call E (on c x) w r w' -> contents E c w' l' ->
  forall k k0 v k1 v1, look k l = Some (k0, v) -> look k l' = Some (k1, v1) -> k1 = k0.
Proof.
  intros H T C N Si X C' k k0 v k1 v1 L0 L1.
  assert (Rn : run E (map (on c) [x]) w = Finished [r] w').
  { simpl. destruct r; simpl in X; rewrite X; auto. }
  destruct (lru_run G H T C N Rn) as (answers & s & L & _ & C1 & _).
  unfold contents in C', C1. rewrite C1 in C'. inversion C'; subst l'. clear C'.
  simpl in L. destruct (lstep E x (Lru n (rev l))) as [(q & s1)|] eqn:St; [|discriminate]. inversion L; subst s1 answers.
  assert (I : In (k1, v1) (items s)) by (apply in_rev; apply find_some in L1; tauto).
  pose proof (look_eq L0) as K0. pose proof (look_eq L1) as K1. simpl in K0, K1.
  assert (K01 : key_equal E k0 k1 = true) by (rewrite (good_sym G) in K0; eapply (good_trans G); eauto).
  destruct (keys_unique G H (or_introl C)) as (D & _).
  assert (I0 : In (k0, v) l) by (apply find_some in L0; tauto).
  destruct (lstep_keys Si St I) as [(v' & J)|(k' & v' & _ & Q & J)]; cbn [items fst] in *.
  - apply in_rev in J. pose proof (look_own I0 D) as A. pose proof (look_own J D) as B. simpl in A, B.
    rewrite (look_keq G l K01) in A. congruence.
  - subst k'. exfalso. assert (A : has k1 (rev l) = true).
    { rewrite has_rev', look_has. rewrite <- (look_keq G l K01). pose proof (look_own I0 D) as A. simpl in A. rewrite A. auto. }
    rewrite look_has, J in A. discriminate.
Qed.

Lemma without_keq k k' l : key_equal E k k' = true -> without k l = without k' l.
Proof.
  intros Q. unfold Spec.without. apply filter_ext. intros p. f_equal.
  destruct (key_equal E k (fst p)) eqn:A.
  - symmetry. rewrite (good_sym G) in Q. eapply (good_trans G); eauto.
  - symmetry. eapply keq_false_l; eauto.
Qed.

Lemma lstep_renamed k k' x x' s : key_equal E k k' = true -> renamed k k' x x' ->
  has k (items s) = true -> lstep E x s = lstep E x' s.
Proof.
  intros Q R P. pose proof (look_keq G (items s) Q) as L. pose proof (without_keq (items s) Q) as W.
  rewrite look_has in P.
  destruct R; cbn [lstep]; unfold lput, lget; rewrite <- ?L, <- ?W, <- ?(has_keq G (items s) Q); auto;
    destruct (look k (items s)) as [(? & ?)|]; try discriminate; auto; unfold ldel; rewrite ?W; auto.
  cbn [items lcap]. rewrite (without_keq _ Q). auto.
Qed.

Lemma equal_keys w c l n k k' x x' : reachable E w -> timed w c = false -> contents E c w l -> capacity_is E c w n ->
  key_equal E k k' = true -> has k l = true -> renamed k k' x x' ->
  exists r w1 w2 l', call E (on c x) w r w1 /\ call E (on c x') w r w2 /\ contents E c w1 l' /\ contents E c w2 l'.
Proof.
  intros H T C N Q P R. pose proof (lru_refinement G [x] H T C N) as A. pose proof (lru_refinement G [x'] H T C N) as B.
  simpl in A, B. rewrite <- (has_rev' E) in P.
  rewrite <- (lstep_renamed (s := Lru n (rev l)) Q R P) in B.
  destruct (lstep E x (Lru n (rev l))) as [(r & s)|] eqn:St.
  - destruct A as (o1 & w1 & A & A1 & A2 & _), B as (o2 & w2 & B & B1 & B2 & _).
    destruct o1 as [|r1 [|]]; simpl in A1; try tauto. destruct o2 as [|r2 [|]]; simpl in B1; try tauto.
    assert (r1 = r /\ r2 = r) as (-> & ->) by (destruct R; simpl in *; intuition).
    exists r, w1, w2, (rev (items s)). split; [|split]; auto.
    + unfold call. destruct (exec E (on c x) w); inversion A; subst; auto.
    + unfold call. destruct (exec E (on c x') w); inversion B; subst; auto.
  - exfalso. clear -R St. destruct R; cbn [lstep] in St; unfold lput, lget in St;
      repeat match type of St with context [match ?y with _ => _ end] => destruct y end; try discriminate.
Qed.

End Track.
