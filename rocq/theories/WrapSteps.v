(** Wrapped functions: what the caches contain, and for how long. *)
From Coq Require Import List Arith ZArith Bool Permutation Lia.
Import ListNotations.
From Verif Require Import Monad Types Model Api Spec SpecStats SpecTimed Ref Lists SimBase SimRel SimOps SimIns SimErase SimIter SimNew SimObs SimExec RefEval SimRun LruProofs CallProofs LruMore TimedTrack Wrap SpecWrap WrapProofs WrapRun.
Set Implicit Arguments.
Unset Strict Implicit.
Local Open Scope cpp_scope.

Section Contents.
Context {K V : Type}.
Variable E : env K V.
Hypothesis G : good E.
Variable F : nat -> nat -> K -> fbody K V.

Notation acache := (acache K V).
Notation aworld := (aworld K V).
Notation wworld := (wworld K V).
Notation entry := (entry K V).
Notation winv := (winv E).
Notation steps := (steps E F).
Implicit Types (a : acache) (aw : aworld) (w : wworld) (o : wobj) (e : entry).

Lemma ke_refl k : key_equal E k k = true.
Proof. apply (good_refl G). Qed.
Lemma ke_sym k k' : key_equal E k k' = true -> key_equal E k' k = true.
Proof. intros H. rewrite (good_sym G). auto. Qed.

Lemma served_lookup a k n e : served_now E a k n = Some e -> lookup_ent E k (a_ents a) = Some e /\ stale E (a_ttl a) e n = false.
Proof.
  unfold served_now. destruct (lookup_ent E k (a_ents a)) as [x|]; [|discriminate].
  destruct (stale E (a_ttl a) x n) eqn:S; [discriminate|]. intros H; inversion H; subst. auto.
Qed.
Lemma in_bump k e a e' : In e (a_ents a) -> In e' (a_ents (bump E k e a)) -> In e' (a_ents a).
Proof.
  intros I. simpl. intros J. apply in_app_or in J as [J|[<-|[]]]; auto.
  apply filter_In in J. tauto.
Qed.
Lemma in_insert k v t a e' : In e' (a_ents (snd (insert_c E k v t a))) ->
  In e' (a_ents a) \/ (key_equal E k (e_key e') = true /\ e_val e' = v).
Proof.
  unfold insert_c. destruct (Nat.eqb_spec (a_cap a) 0); simpl; [auto|].
  destruct (lookup_ent E k (a_ents a)) as [e|] eqn:L; simpl.
  - intros J. apply in_app_or in J as [J|[<-|[]]].
    + left. apply filter_In in J. tauto.
    + right. simpl. apply lookup_some_in in L. tauto.
  - intros J. apply incl_lastn in J. apply in_app_or in J as [J|[<-|[]]]; auto.
    right. simpl. rewrite ke_refl. auto.
Qed.

(** *** A property of all elements of all caches *)
Section Elements.
Variable S : wworld -> static -> K -> V -> Prop.
Variable X : wworld -> Prop.
Variable Q : nat -> K -> answer V -> Prop.
Hypothesis S_ext : forall w w' s k v, wext w w' -> S w s k v -> S w' s k v.
Hypothesis S_key : forall w s k k' v, key_equal E k k' = true -> S w s k v -> S w s k' v.
Hypothesis X_objs : forall w w', ww_objs w' = ww_objs w -> X w -> X w'.
Hypothesis Q_hit : forall w i o cat k v, X w -> closure w i o -> S w (static_of o cat) k v -> Q i k (inl v).
Hypothesis Q_store : forall w i o cat k n v, X w -> closure w i o -> may Q (F (wo_fun o) n k) (inl v) ->
  In (wo_fun o, k, v) (ww_results w) -> S w (static_of o cat) k v /\ Q i k (inl v).
Hypothesis Q_exc : forall w i o k n x, X w -> closure w i o -> may Q (F (wo_fun o) n k) (inr x) -> Q i k (inr x).

Definition all_elements w aw : Prop :=
  X w /\ forall s c a e, find_static s (ww_statics w) = Some c -> slot (aw_caches aw) c = Some a -> In e (a_ents a) ->
                  S w s (e_key e) (e_val e).

Lemma wext_asked s k w : wext w (asked s k w).
Proof. constructor; auto; try (exists []; rewrite ?app_nil_r; auto; fail). exists [(s, k)]. auto. Qed.
Lemma wext_resulted f k v w : wext w (resulted f k v w).
Proof. constructor; auto; try (exists []; rewrite ?app_nil_r; auto; fail). exists [(f, k, v)]. auto. Qed.
Lemma wext_world x w : wext w (set_world x w).
Proof. constructor; auto; try (exists []; rewrite ?app_nil_r; auto; fail). Qed.
Lemma wext_count w : wext w (counted_call w).
Proof. constructor; auto; try (exists []; rewrite ?app_nil_r; auto; fail). simpl. lia. Qed.
Lemma wext_static s c x w : find_static s (ww_statics w) = None -> wext w (with_static s c x w).
Proof.
  intros N. constructor; auto; try (exists []; rewrite ?app_nil_r; auto; fail).
  intros t d H. simpl. destruct (static_eqb t s) eqn:Q'; auto. apply static_eqb_eq in Q'. congruence.
Qed.

Lemma all_elements_ext w w' aw : wext w w' -> ww_objs w' = ww_objs w -> ww_statics w' = ww_statics w ->
  all_elements w aw -> all_elements w' aw.
Proof.
  intros Xt O St (HX & H). split; [eapply X_objs; eauto|]. intros s c a e Hs Ha He. rewrite St in Hs.
  eapply S_ext; eauto.
Qed.

Lemma elements_steps : steps all_elements Q
  (fun i cat k v w aw => forall o, closure w i o -> S w (static_of o cat) k v) any.
Proof.
  constructor; unfold any; auto.
  - intros w aw i o cat k _ H _. eapply all_elements_ext; eauto using wext_asked.
  - intros w aw o cat ttl cap x aw' I (HX & H) Sn _ _ I' C _. split; [eapply X_objs; [|exact HX]; reflexivity|].
    intros s c a e Hs Ha He. change (find_static s ((static_of o cat, length (aw_caches aw)) :: ww_statics w) = Some c) in Hs.
    rewrite find_static_cons in Hs. rewrite C in Ha.
    destruct (static_eqb s (static_of o cat)).
    + inversion Hs; subst. rewrite slot_app_new in Ha. inversion Ha; subst. destruct He.
    + destruct (wi_alive I Hs) as (b & Hb). rewrite slot_app_lt in Ha by (eapply slot_lt; eauto).
      eapply S_ext; [apply wext_static; exact Sn|]. exact (H _ _ _ _ Hs Ha He).
  - intros w aw i o cat k c a e x aw' l w0 aw0 I (HX & H) Ho _ _ Sc Ha SV I' C _.
    apply served_lookup in SV as (L & _). apply lookup_some_in in L as (Ie & Ke).
    assert (SS : S w (static_of o cat) k (e_val e)) by (eapply S_key; [apply ke_sym; exact Ke|]; eapply H; eauto).
    split; [|split].
    + split; [eapply X_objs; [|exact HX]; reflexivity|].
      intros s d b e' Hs Hb He. simpl in Hs. rewrite C in Hb.
      eapply S_ext; [apply wext_world|]. destruct (Nat.eq_dec c d) as [->|N].
      * rewrite (slot_upd_same _ _ _ Ha) in Hb. inversion Hb; subst b. eapply H; eauto. eapply in_bump; eauto.
      * rewrite slot_upd_other in Hb by auto. eapply H; eauto.
    + eapply Q_hit; eauto.
    + intros o' Ho'. change (closure w i o') in Ho'. red in Ho, Ho'. replace o' with o by congruence.
      eapply S_ext; [apply wext_world|]. exact SS.
  - intros w aw o cat k c a x aw' _ (HX & H) Sc Ha SV I' C _. split; [eapply X_objs; [|exact HX]; reflexivity|].
    intros s d b e' Hs Hb He. simpl in Hs. rewrite C in Hb. eapply S_ext; [|eapply H; eauto].
    eapply wext_trans; [apply wext_world|apply wext_count].
  - intros w aw i o cat k c a n v x aw' l w0 aw0 w1 aw1 a1 I (HX & H) Ho _ _ _ _ _ _ _ _ _ Sc Ha My I' C _ _.
    set (w' := set_world x (resulted (wo_fun o) k v w)).
    assert (W : wext w w') by (eapply wext_trans; [apply wext_resulted|apply wext_world]).
    assert (HX' : X w') by (eapply X_objs; [|exact HX]; reflexivity).
    destruct (Q_store (w := w') (i := i) (o := o) cat (k := k) (n := n) (v := v)) as (SS & QQ); auto; [left; reflexivity|].
    split; [|split]; auto.
    + split; auto. intros s d b e' Hs Hb He. change (find_static s (ww_statics w) = Some d) in Hs. rewrite C in Hb.
      destruct (Nat.eq_dec c d) as [->|N].
      * rewrite (slot_upd_same _ _ _ Ha) in Hb. inversion Hb; subst b. apply in_insert in He as [He|(Ke & <-)].
        -- eapply S_ext; [exact W|]. eapply H; eauto.
        -- rewrite (wi_inj I Hs Sc). eapply S_key; eauto.
      * rewrite slot_upd_other in Hb by auto. eapply S_ext; [exact W|]. eapply H; eauto.
    + intros o' Ho'. change (closure w i o') in Ho'. red in Ho, Ho'. replace o' with o by congruence. exact SS.
  - intros w i o k n x Ho (aw & _ & HX & _) My. eapply Q_exc; eauto.
Qed.

End Elements.

End Contents.
