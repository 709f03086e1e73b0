(** The books of the client through a whole history. *)
From Coq Require Import List Arith ZArith Bool Lia.
Import ListNotations.
From Verif Require Import Monad Types Model Api Spec SpecStats SpecSettings Lists Effects SimRun StatProofs StatMore TallyEff SpecTally TallyProofs.
Set Implicit Arguments.
Unset Strict Implicit.
Local Open Scope cpp_scope.

Section TallyRun.
Context {K V : Type}.
Variable E : env K V.
Hypothesis Cb : passive E.
(** That the outcomes tell hits from misses; the part of the invariant that is
    about what was counted depends on it. *)
Variable Tell : Prop.
Hypothesis Eq : Tell -> eqop_good E.
Notation world := (world K V).
Notation calm := (@calm K V true).
Implicit Types (w : world) (t : tally K).

Record right t w : Prop := {
  r_fed : forall c, feeds t c = fed w c;
  r_page : Tell -> forall s st, slot (w_stats w) s = Some st -> matches E (page t s) st;
  r_there : forall c s, fed w c = Some (Some s) -> slot (w_stats w) s <> None
}.
Definition ages o w w' : Prop := untimed (K := K) (V := V) o = true -> all_untimed w -> all_untimed w'.

Lemma right_same t w w' : right t w -> w_stats w' = w_stats w -> (forall c, fed w' c = fed w c) -> right t w'.
Proof.
  intros [A B C] S F. constructor.
  - intros c. rewrite F. apply A.
  - intros HT s st. rewrite S. apply (B HT).
  - intros c s. rewrite F, S. apply C.
Qed.
Lemma right_calm t w w' : right t w -> calm w w' -> right t w'.
Proof. intros R (S & F & _). apply right_same with w; auto. Qed.

(** ** Changes of the books *)
Lemma right_enter t w w' c x : right t w -> w_stats w' = w_stats w ->
  (forall d, fed w' d = if Nat.eqb d c then x else fed w d) ->
  (forall s, x = Some (Some s) -> slot (w_stats w) s <> None) -> right (enter c x t) w'.
Proof.
  intros [A B C] S F X. constructor.
  - intros d. rewrite F. simpl. destruct (Nat.eqb d c); auto.
  - intros HT s st. rewrite S. apply (B HT).
  - intros d s. rewrite F, S. destruct (Nat.eqb d c); eauto.
Qed.
Lemma right_write t w w' c e s st st' : right t w -> fed w c = Some (Some s) -> slot (w_stats w) s = Some st ->
  (forall d, fed w' d = fed w d) -> w_stats w' = upd (w_stats w) s (Some st') ->
  (Tell -> forall b, matches E b st -> matches E (e :: b) st') -> right (write c e t) w'.
Proof.
  intros [A B C] F Q F' S M. unfold write. rewrite A, F. constructor; simpl.
  - intros d. rewrite F'. auto.
  - intros HT i x. rewrite S. destruct (Nat.eqb_spec i s) as [->|N].
    + erewrite slot_upd_same by exact Q. intros H; injection H as <-. apply (M HT), (B HT), Q.
    + rewrite slot_upd_other by auto. apply (B HT).
  - intros d i. rewrite F', S. intros H. specialize (C _ _ H). destruct (Nat.eq_dec s i) as [<-|N].
    + erewrite slot_upd_same by exact Q. discriminate.
    + rewrite slot_upd_other by auto. exact C.
Qed.
Lemma right_counted t w w' c k hit : right t w -> counted E c k hit w w' -> right (write c (BAccess k hit) t) w'.
Proof.
  intros R (F & _ & S). pose proof (r_fed R c) as A. destruct (fed w c) as [[s|]|] eqn:Fc.
  - destruct S as (st & Q & S). eapply right_write; eauto. intros HT b M. specialize (Eq HT). destruct hit; simpl; [apply matches_hit|apply matches_miss]; auto.
  - unfold write. rewrite A. apply right_same with w; auto.
  - unfold write. rewrite A. apply right_same with w; auto.
Qed.

(** ** Making and destroying caches *)
Lemma fed_app w y d : fed (with_caches (fun l => l ++ [Some y]) w) d =
  if Nat.eqb d (length (w_caches w)) then Some (c_stats y) else fed w d.
Proof.
  unfold fed. simpl. unfold slot. destruct (Nat.eqb_spec d (length (w_caches w))) as [->|N].
  - rewrite app_nth2, Nat.sub_diag by auto. reflexivity.
  - destruct (lt_dec d (length (w_caches w))); [rewrite app_nth1 by auto; reflexivity|].
    rewrite app_nth2 by lia. rewrite (nth_overflow (w_caches w)) by lia.
    destruct (d - length (w_caches w)) as [|[|n']] eqn:D; try reflexivity. lia.
Qed.
Lemma untimed_app w y : all_untimed w -> c_ttl y = None -> all_untimed (with_caches (fun l => l ++ [Some y]) w).
Proof.
  intros U T c x Q. simpl in Q. unfold slot in Q. destruct (lt_dec c (length (w_caches w))).
  - rewrite app_nth1 in Q by auto. apply (U c x Q).
  - rewrite app_nth2 in Q by lia. destruct (c - length (w_caches w)) as [|[|n']]; simpl in Q; try discriminate Q. injection Q as <-. exact T.
Qed.
Lemma fed_end w : fed w (length (w_caches w)) = None.
Proof. unfold fed, slot. rewrite nth_overflow by auto. reflexivity. Qed.

(** A cache [c] more than before. *)
Definition grew (ttl : option Z) (x : option nat) w (c : nat) w' : Prop :=
  w_stats w' = w_stats w /\ (forall d, fed w' d = if Nat.eqb d c then Some x else fed w d) /\
  (ttl = None -> all_untimed w -> all_untimed w').
Lemma grew_calm ttl x w c w1 w2 : grew ttl x w c w1 -> calm w1 w2 -> grew ttl x w c w2.
Proof.
  intros (A & B & C) (A' & B' & C'). specialize (A' eq_refl). split; [congruence|split; auto].
  intros d. rewrite B'. auto.
Qed.
Lemma new_cache_grew n ttl w : wp (@new_cache K V n ttl) (fun c w' => grew ttl None w c w') (fun _ _ => False) w.
Proof.
  unfold wp, new_cache, bind, alloc_store, alloc_cache. simpl.
  split; [reflexivity|split].
  - intros d. match goal with |- fed (with_caches (fun l => l ++ [Some ?y]) ?w1) d = _ => rewrite (@fed_app w1 y d) end. reflexivity.
  - intros -> U. apply untimed_app; auto.
Qed.
(** Nothing more than before. *)
Definition kept (ttl : option Z) w w' : Prop :=
  w_stats w' = w_stats w /\ (forall d, fed w' d = fed w d) /\ (ttl = None -> all_untimed w -> all_untimed w').
Lemma calm_kept ttl w w' : calm w w' -> kept ttl w w'.
Proof. intros (A & B & C). split; [auto|split; auto]. Qed.
Lemma with_new_grew n ttl (b : nat -> M world nat) w : (forall c, within calm (b c)) ->
  wp (with_new n ttl b) (fun c w' => grew ttl None w c w') (fun _ w' => kept ttl w w') w.
Proof.
  intros Hb. unfold wp, with_new, bind at 1, new_cache, bind, alloc_store, alloc_cache. simpl.
  match goal with |- context [b ?c ?w2] => set (w1 := w2); set (e := c) end.
  assert (G : grew ttl None w e w1).
  { pose proof (new_cache_grew n ttl w) as X. exact X. }
  specialize (Hb e w1). destruct (b e w1) as [a w'|ex w'|u|ex]; auto.
  - eapply grew_calm; eauto.
  - unfold destroy, bind, get_cache. pose proof (grew_calm G Hb) as (A & B & C).
    assert (X : fed w' e = Some None) by (rewrite B, Nat.eqb_refl; reflexivity).
    destruct (slot (w_caches w') e) as [x|] eqn:Q; [|exact I]. simpl.
    split; [exact A|split].
    + intros d. unfold fed at 1. simpl. destruct (Nat.eq_dec e d) as [<-|N].
      * erewrite slot_upd_same by exact Q. simpl. symmetry. apply fed_end.
      * rewrite slot_upd_other by auto. change (fed w' d = fed w d). rewrite B. destruct (Nat.eqb_spec d e); [congruence|auto].
    + intros T U d y Qd. simpl in Qd. destruct (Nat.eq_dec e d) as [<-|N].
      * erewrite slot_upd_same in Qd by exact Q. discriminate Qd.
      * rewrite slot_upd_other in Qd by auto. apply (C T U _ _ Qd).
Qed.
Lemma copied_grew c w : wp (copy_new E c) (fun d w' => exists x, fed w c = Some x /\ grew None x w d w') (fun _ w' => kept None w w') w.
Proof.
  unfold copy_new. apply wp_bind. apply wp_get_cache. intros x Qx.
  apply wp_bind. apply wp_calm; [apply q_get_store|apply same_c, e_get_store|]. intros s w1 H1.
  apply wp_bind. unfold wp at 1. pose proof (@c_fallible K V E true w1) as F1. destruct (fallible E w1) as [a1 w2|e1 w2|?|?]; auto.
  2: apply calm_kept; eapply calm_trans; eauto.
  apply wp_bind. unfold wp at 1. pose proof (@c_fallible K V E true w2) as F2. destruct (fallible E w2) as [a2 w3|e2 w3|?|?]; auto.
  2: apply calm_kept; eapply calm_trans; [|exact F2]; eapply calm_trans; eauto.
  apply wp_bind. apply wp_calm; [intros ?; exact I|apply c_alloc_store|]. intros r w4 H4.
  assert (C4 : calm w w4) by (repeat (eapply calm_trans; [eassumption|]); apply calm_refl).
  apply wp_bind. unfold wp at 1, alloc_cache at 1.
  match goal with |- context [with_caches (fun l => l ++ [Some ?z]) w4] => set (y := z) end.
  apply wp_bind. apply wp_calm.
  { unfold reassign_references. apply quiet_bind; [apply (q_own E)|]. intros (? & ?).
    match goal with |- quiet (reassign E ?d ?l) => generalize l; generalize d end. intros d l.
    induction l as [|i l IH]; simpl; [apply quiet_ret|]. apply quiet_bind; [apply (q_own E)|]. intros (? & ?).
    apply quiet_bind; [|intros; apply quiet_bind; [apply (q_deref E)|intros; apply quiet_bind; [apply q_map_find|intros [?|]; [apply quiet_bind; [apply q_put_store|intros; exact IH]|apply quiet_undef]]]].
    unfold list_deref. apply quiet_bind; [apply q_get_store|]. intros z. destruct (assoc _ _); [apply quiet_ret|apply quiet_undef]. }
  { apply c_reassign_references. }
  intros u w5 H5. apply wp_ret. exists (c_stats x). split; [unfold fed; rewrite Qx; reflexivity|].
  apply grew_calm with (with_caches (fun l => l ++ [Some y]) w4); [|exact H5].
  destruct C4 as (A & B & C). specialize (A eq_refl). split; [exact A|split].
  - intros d. rewrite fed_app, B. reflexivity.
  - intros _ U. apply untimed_app; [auto|]. apply (U _ _ Qx).
Qed.
Lemma moved_grew c w : wp (move_new E c) (fun d w' => grew None None w d w') (fun _ w' => False) w.
Proof.
  unfold move_new. apply wp_bind. apply wp_get_cache. intros x Qx. destruct (junk E) as [n|]; [|exact I].
  apply wp_bind. eapply wp_mono; [apply new_cache_grew|]. intros d w1 (A & B & C). cbv beta.
  apply wp_bind. apply wp_calm; [|apply c_base_swap|].
  { unfold base_swap. do 2 (apply quiet_bind; [apply q_get_cache|intros]). destruct (Nat.eqb d c); [apply quiet_ret|].
    apply quiet_bind; [apply q_put_cache|intros; apply q_put_cache]. }
  intros u w2 H2. apply wp_ret. eapply grew_calm; [|exact H2]. split; [exact A|split; [exact B|]].
  intros _ U. apply C; auto. apply (U _ _ Qx).
Qed.
Lemma destroyed c w : wp (@destroy K V c) (fun _ w' => w_stats w' = w_stats w /\
  (forall d, fed w' d = if Nat.eqb d c then None else fed w d) /\ (all_untimed w -> all_untimed w')) (fun _ w' => False) w.
Proof.
  unfold wp, destroy, bind, get_cache. destruct (slot (w_caches w) c) as [x|] eqn:Q; [|exact I]. simpl. split; [reflexivity|split].
  - intros d. unfold fed. simpl. destruct (Nat.eqb_spec d c) as [->|N].
    + erewrite slot_upd_same by exact Q. reflexivity.
    + rewrite slot_upd_other by auto. reflexivity.
  - intros U d y Qd. simpl in Qd. destruct (Nat.eq_dec c d) as [<-|N].
    + erewrite slot_upd_same in Qd by exact Q. discriminate Qd.
    + rewrite slot_upd_other in Qd by auto. apply (U _ _ Qd).
Qed.
Lemma assigned c d w : wp (copy_assign E c d) (fun _ w' => w_stats w' = w_stats w /\ 
  (forall e, fed w' e = if Nat.eqb e c then fed w d else fed w e) /\ (all_untimed w -> all_untimed w')) (fun _ w' => False) w.
Proof.
  unfold wp, copy_assign, noexcept. destruct (Nat.eqb_spec c d) as [<-|N].
  { simpl. split; [reflexivity|split; [|auto]]. intros e. destruct (Nat.eqb_spec e c); congruence. }
  match goal with |- match (match ?m w with _ => _ end) with _ => _ end =>
    assert (W : wp m (fun _ w' => w_stats w' = w_stats w /\ (forall e, fed w' e = if Nat.eqb e c then fed w d else fed w e) /\ (all_untimed w -> all_untimed w')) (fun _ _ => True) w) end.
  2: unfold wp in W; match type of W with match ?r with _ => _ end => destruct r end; auto.
  apply wp_bind. apply wp_get_cache. intros x Qx. apply wp_bind. apply wp_get_cache. intros y Qy.
  apply wp_bind. apply wp_calm; [apply q_get_store|apply same_c, e_get_store|]. intros s w1 H1.
  apply wp_bind. unfold wp at 1. pose proof (@c_fallible K V E true w1) as F1. destruct (fallible E w1) as [a1 w2|e1 w2|?|?]; auto.
  apply wp_bind. unfold wp at 1. pose proof (@c_fallible K V E true w2) as F2. destruct (fallible E w2) as [a2 w3|e2 w3|?|?]; auto.
  apply wp_bind. apply wp_calm; [intros ?; exact I|apply c_drop_store|]. intros ? w3' H3.
  apply wp_bind. apply wp_calm; [intros ?; exact I|apply c_alloc_store|]. intros r w4 H4.
  assert (C4 : calm w w4) by (repeat (eapply calm_trans; [eassumption|]); apply calm_refl).
  apply wp_bind. unfold wp at 1, put_cache at 1, modify at 1.
  match goal with |- context [upd _ c (Some ?z)] => set (y' := z) end.
  unfold wp. pose proof (@c_reassign_references K V E true c (with_caches (fun l => upd l c (Some y')) w4)) as R.
  destruct (reassign_references E c _) as [u w5|? ?|?|?]; auto.
  destruct C4 as (A & B & C). specialize (A eq_refl). destruct R as (A' & B' & C'). specialize (A' eq_refl).
  assert (Q4 : exists z, slot (w_caches w4) c = Some z).
  { specialize (B c). unfold fed in B. rewrite Qx in B. destruct (slot (w_caches w4) c); [eauto|discriminate B]. }
  destruct Q4 as (z & Q4).
  split; [|split].
  - rewrite A'. exact A.
  - intros e. rewrite B'. unfold fed at 1. simpl. destruct (Nat.eqb_spec e c) as [->|Ne].
    + erewrite slot_upd_same by exact Q4. unfold fed. rewrite Qy. reflexivity.
    + rewrite slot_upd_other by auto. apply B.
  - intros U. apply C'. intros e v Qv. simpl in Qv. destruct (Nat.eq_dec c e) as [<-|Ne].
    + erewrite slot_upd_same in Qv by exact Q4. injection Qv as <-. apply (U _ _ Qy).
    + rewrite slot_upd_other in Qv by auto. apply (C U _ _ Qv).
Qed.
Lemma set_stats_fed c s w : wp (@set_stats K V c s) (fun _ w' => w_stats w' = w_stats w /\
  (forall d, fed w' d = if Nat.eqb d c then Some s else fed w d) /\ (all_untimed w -> all_untimed w')) (fun _ _ => False) w.
Proof.
  unfold wp, set_stats, bind, get_cache. destruct (slot (w_caches w) c) as [x|] eqn:Q; [|exact I]. simpl. split; [reflexivity|split].
  - intros d. unfold fed. simpl. destruct (Nat.eqb_spec d c) as [->|N].
    + erewrite slot_upd_same by exact Q. reflexivity.
    + rewrite slot_upd_other by auto. reflexivity.
  - intros U d y Qd. simpl in Qd. destruct (Nat.eq_dec c d) as [<-|N].
    + erewrite slot_upd_same in Qd by exact Q. injection Qd as <-. apply (U _ _ Q).
    + rewrite slot_upd_other in Qd by auto. apply (U _ _ Qd).
Qed.

(** Whatever the outcome of an access tells, every cache feeds what it fed. *)
Definition mild w w' : Prop :=
  (forall d, fed w' d = fed w d) /\ (forall s, slot (w_stats w) s <> None -> slot (w_stats w') s <> None) /\ (all_untimed w -> all_untimed w') /\
  length (w_stats w') = length (w_stats w).
Lemma mild_refl w : mild w w.
Proof. split; [|split; [|split]]; auto. Qed.
Lemma mild_trans a b c : mild a b -> mild b c -> mild a c.
Proof. intros (A & B & C & D) (A' & B' & C' & D'). split; [|split; [|split]]; auto; [intros d; rewrite A'; auto|congruence]. Qed.
Lemma calm_mild w w' : calm w w' -> mild w w'.
Proof. intros (A & B & C). specialize (A eq_refl). split; [auto|split; [|split; [auto|]]]; rewrite A; auto. Qed.
Lemma counted_mild c k hit w w' : counted E c k hit w w' -> mild w w'.
Proof.
  intros (A & B & C). split; [auto|]. destruct (fed w c) as [[i|]|]; try (rewrite C; split; [|split]; auto; fail).
  destruct C as (st & Q & ->). split; [|split; [auto|apply upd_length]]. intros s N. destruct (Nat.eq_dec i s) as [<-|D].
  - erewrite slot_upd_same by exact Q. discriminate.
  - rewrite slot_upd_other by auto. exact N.
Qed.
Lemma w_calm_mild A (m : M world A) : within calm m -> within mild m.
Proof. apply w_weaken. exact calm_mild. Qed.
Lemma wp_within A (m : M world A) : (forall w, wp m (fun _ w' => mild w w') (fun _ w' => mild w w') w) -> within mild m.
Proof. intros X w. exact (X w). Qed.
Lemma m_hit c k p : within mild (register_hit E c k p).
Proof. apply wp_within. intros w. eapply wp_mono; [apply hit_counts; exact Cb|]. intros a w'. apply counted_mild. Qed.
Lemma m_find c k : within mild (find E c k).
Proof. apply wp_within. intros w. eapply wp_mono; [apply find_counts; exact Cb|]. intros a w' (hit & X & _). eapply counted_mild; eauto. Qed.
Ltac m1 :=
  match goal with
  | |- within _ (ret _) => apply w_ret; exact mild_refl
  | |- within _ (throw _) => apply w_throw; exact mild_refl
  | |- within _ (undef _) => apply w_undef; exact mild_refl
  | |- within _ (bind _ _) => apply w_bind; [exact mild_trans| |intros]
  | |- within _ (match ?x with _ => _ end) => destruct x
  | |- within _ (if ?b then _ else _) => destruct b
  | |- _ => apply m_hit
  | |- _ => apply m_find
  | |- _ => apply w_calm_mild; solve [auto using same_c, ticked_calm, e_get_cache, e_map_find, e_deref_it, e_has_expired_info, e_deref, e_last_is, e_last_ptr, e_u_entry, e_read_entry, c_update_node, c_erase_u, c_denotes]
  end.
Lemma m_lookup c k : within mild (lookup E c k).
Proof. unfold lookup, value_for_last_accessed. repeat m1. Qed.
Lemma access_mild o c k : asks o = Some (c, k) -> within mild (body E o).
Proof.
  intros A. destruct o; try discriminate A; injection A as -> ->; simpl body; unfold subscript, contains, last_accessed_is_ok;
    repeat first [apply m_lookup | m1].
Qed.
Lemma account_feeds_access o r t c k : asks (V := V) o = Some (c, k) -> forall d, feeds (account o r t) d = feeds t d.
Proof.
  intros A d. unfold account. destruct (access_of o r) as [((c' & k') & hit)|] eqn:X.
  - unfold write. destruct (feeds t c') as [[s|]|]; reflexivity.
  - destruct o; try discriminate A; reflexivity.
Qed.

(** ** One call *)
Lemma account_ill o t : account (V := V) o (Returned RIll) t = t.
Proof. destruct o; reflexivity. Qed.
Lemma account_plain o r t : plain o = true -> account (V := V) o r t = t.
Proof. destruct o; try discriminate; intros _; destruct r as [[]|]; reflexivity. Qed.
Lemma account_access o r t c k hit : access_of (V := V) o r = Some (c, k, hit) -> account o r t = write c (BAccess k hit) t.
Proof. intros H. unfold account. rewrite H. reflexivity. Qed.

Definition after o t w (r : outcome K V) w' : Prop := right (account o r t) w' /\ ages o w w'.
Lemma grew_after o t w c w' ttl x : right t w -> grew ttl x w c w' -> (untimed (V := V) o = true -> ttl = None) ->
  (forall s, x = Some s -> slot (w_stats w) s <> None) ->
  account o (Returned (RNat c)) t = enter c (Some x) t -> after o t w (Returned (RNat c)) w'.
Proof.
  intros R (A & B & C) T X Q. split; [rewrite Q|intros U; auto]. eapply right_enter; eauto. intros s H. injection H as ->. auto.
Qed.
Lemma kept_after o t w ttl e w' : right t w -> kept ttl w w' -> (untimed (V := V) o = true -> ttl = None) ->
  account o (Threw e) t = t -> after o t w (Threw e) w'.
Proof. intros R (A & B & C) T Q. split; [rewrite Q|intros U; auto]. apply right_same with w; auto. Qed.
Lemma made_after o t w ttl m : right t w -> (untimed (V := V) o = true -> ttl = None) ->
  wp m (fun c w' => grew ttl None w c w') (fun _ w' => kept ttl w w') w ->
  (forall c, account o (Returned (RNat c)) t = enter c (Some None) t) -> (forall e, account o (Threw e) t = t) ->
  wp (c <- m;; ret (RNat c)) (fun r => after o t w (Returned r)) (fun e => after o t w (Threw e)) w.
Proof.
  intros R T H Q Q'. unfold wp, bind in *. destruct (m w) as [c w'|e w'|?|?]; auto; simpl.
  - eapply grew_after; eauto. discriminate.
  - eapply kept_after; eauto.
Qed.
Lemma updated o c f ev t w : right t w -> account o (Returned RUnit) t = write c ev t -> (forall e, account o (Threw e) t = t) ->
  (Tell -> forall b x x', matches E b x -> f x = Some x' -> matches E (ev :: b) x') ->
  wp (@stats_update_or K V c f) (fun r => after o t w (Returned r)) (fun e => after o t w (Threw e)) w.
Proof.
  intros R Q Q' M. unfold stats_update_or, stats. apply wp_bind, wp_bind, wp_get_cache. intros x Qx.
  assert (F : fed w c = Some (c_stats x)) by (unfold fed; rewrite Qx; reflexivity).
  destruct (c_stats x) as [s|].
  2: { apply wp_throw. split; [rewrite Q'; exact R|intros _ U; exact U]. }
  apply wp_ret. apply wp_bind. unfold wp at 1, get_stats. destruct (slot (w_stats w) s) as [st|] eqn:Qs; [|exact I].
  destruct (f st) as [st'|] eqn:Fs.
  - unfold wp, bind, put_stats, modify, ret. split; [|intros _ U; exact U]. rewrite Q.
    eapply right_write; eauto; reflexivity.
  - apply wp_throw. split; [rewrite Q'; exact R|intros _ U; exact U].
Qed.

Lemma step o t w : right t w -> (Tell -> all_untimed w \/ by_find (V := V) o = true) ->
  wp (exec E o) (fun r => after o t w (Returned r)) (fun e => after o t w (Threw e)) w.
Proof.
  intros R TT. unfold wp, exec. destruct (well_formed w o) eqn:W.
  2: { split; [rewrite account_ill; exact R|intros _ U; exact U]. }
  change (wp (body E o) (fun r => after o t w (Returned r)) (fun e => after o t w (Threw e)) w).
  destruct (plain o) eqn:P.
  { pose proof (@plain_calm K V E true o P w) as C. unfold exec in C. rewrite W in C. unfold wp.
    destruct (body E o w) as [r w'|e w'|?|?]; auto; (split; [rewrite account_plain by exact P; eapply right_calm; eauto|]); intros _ U; destruct C as (_ & _ & C); auto. }
  destruct (asks o) as [(c & k)|] eqn:A.
  { pose proof (access_mild A w) as L.
    assert (X : Tell -> wp (body E o) (fun r w' => tells E o c k w (Returned r) w') (fun e w' => tells E o c k w (Threw e) w') w)
      by (intros HT; exact (access_counts Cb A (TT HT))).
    unfold wp in *.
    assert (D : forall r w', mild w w' -> (Tell -> tells E o c k w r w') -> after o t w r w').
    { intros r w' (L1 & L2 & L3 & _) Y. split; [|intros _; exact L3]. constructor.
      - intros d. rewrite (account_feeds_access r t A), L1. apply (r_fed R).
      - intros HT. destruct (Y HT) as (hit & X1 & X2). rewrite (account_access t X1). apply (r_page (right_counted R X2) HT).
      - intros d s. rewrite L1. intros F. apply L2. apply (r_there R F). }
    destruct (body E o w) as [r w'|e w'|?|?]; auto. }
  destruct o; try discriminate P; try discriminate A; simpl body; try clear A.
  - (* construction *) apply made_after with ttl; [exact R|simpl; destruct ttl; [discriminate|auto]| |reflexivity|reflexivity].
    pose proof (new_cache_grew cap ttl w) as X. unfold wp in *. destruct (new_cache cap ttl w); auto. contradiction.
  - apply made_after with ttl; [exact R|simpl; destruct ttl; [discriminate|auto]| |reflexivity|reflexivity].
    apply with_new_grew. intros c. apply c_insert_range.
  - apply made_after with ttl; [exact R|simpl; destruct ttl; [discriminate|auto]| |reflexivity|reflexivity].
    apply with_new_grew. intros c. apply c_insert_range.
  - apply made_after with ttl; [exact R|simpl; destruct ttl; [discriminate|auto]| |reflexivity|reflexivity].
    apply with_new_grew. intros c. apply c_insert_move.
  - apply made_after with ttl; [exact R|simpl; destruct ttl; [discriminate|auto]| |reflexivity|reflexivity].
    apply with_new_grew. intros c. apply c_insert_move.
  - apply made_after with ttl; [exact R|simpl; destruct ttl; [discriminate|auto]| |reflexivity|reflexivity].
    apply with_new_grew. intros c. apply c_insert_range.
  - (* copy *) apply wp_bind. pose proof (copied_grew c w) as X. unfold wp in *. destruct (copy_new E c w) as [d w'|e w'|?|?]; auto.
    + destruct X as (x & F & G). eapply grew_after with (x := x); eauto.
      * intros s ->. apply (r_there R F).
      * unfold account. simpl. rewrite (r_fed R), F. reflexivity.
    + eapply kept_after; eauto.
  - (* move *) apply wp_bind. pose proof (moved_grew c w) as X. unfold wp in *. destruct (move_new E c w) as [d w'|e w'|?|?]; auto; [|contradiction].
    eapply grew_after with (x := None); eauto. discriminate.
  - (* destruction *) apply wp_bind. pose proof (destroyed c w) as X. unfold wp in *. destruct (destroy c w) as [d w'|e w'|?|?]; auto; [|contradiction].
    destruct X as (X & Y & Z). split; [|intros _; exact Z]. apply right_enter with w; auto. discriminate.
  - (* assignment *) apply wp_bind. pose proof (assigned c d w) as X. unfold wp in *. destruct (copy_assign E c d w) as [u w'|e w'|?|?]; auto; [|contradiction].
    destruct X as (X & Y & Z). split; [|intros _; exact Z]. unfold account. simpl. rewrite (r_fed R). apply right_enter with w; auto. intros s. apply (r_there R).
  - (* monitor(args) *) apply wp_bind. unfold monitor_new. apply wp_bind, wp_get_cache. intros x Qx. apply wp_bind. unfold wp at 1, alloc_stats.
    set (s := length (w_stats w)). set (w1 := with_stats (fun l => l ++ [Some (new_stats E ks)]) w).
    apply wp_bind. pose proof (set_stats_fed c (Some s) w1) as X. unfold wp in *. destruct (set_stats c (Some s) w1) as [u w'|e w'|?|?]; auto; [|contradiction].
    simpl. destruct X as (X & Y & Z). split; [|intros _; exact Z].
    assert (N : forall i, slot (w_stats w1) i = if Nat.eqb i s then Some (new_stats E ks) else slot (w_stats w) i).
    { intros i. unfold w1, s, slot. simpl. destruct (Nat.eqb_spec i (length (w_stats w))) as [->|Ni].
      - rewrite app_nth2, Nat.sub_diag by auto. reflexivity.
      - destruct (lt_dec i (length (w_stats w))); [rewrite app_nth1 by auto; reflexivity|].
        rewrite app_nth2 by lia. rewrite (nth_overflow (w_stats w)) by lia. destruct (i - length (w_stats w)) as [|[|n']] eqn:D; try reflexivity. lia. }
    assert (R1 : right (open_page s (rev (map (@BMonitor K) ks)) t) w1).
    { constructor.
      - intros e. apply (r_fed R).
      - intros HT i st. rewrite N. simpl. destruct (Nat.eqb i s); [|apply (r_page R HT)]. intros H. injection H as <-. apply matches_new; apply (Eq HT).
      - intros e i H. rewrite N. destruct (Nat.eqb i s); [discriminate|]. apply (r_there R H). }
    eapply right_enter; [exact R1|exact X|exact Y|]. intros i H. injection H as <-. rewrite N, Nat.eqb_refl. discriminate.
  - (* monitor(shared) *) apply wp_bind. unfold monitor_shared. apply wp_bind. unfold wp at 1, get_stats. destruct (slot (w_stats w) s) as [st|] eqn:Qs; [|exact I].
    pose proof (set_stats_fed c (Some s) w) as X. unfold wp in *. destruct (set_stats c (Some s) w) as [u w'|e w'|?|?]; auto; [|contradiction].
    destruct X as (X & Y & Z). split; [|intros _; exact Z]. apply right_enter with w; auto. intros i H. injection H as <-. congruence.
  - (* stop_monitoring *) apply wp_bind. unfold stop_monitoring. pose proof (set_stats_fed c None w) as X. unfold wp in *. destruct (set_stats c None w) as [u w'|e w'|?|?]; auto; [|contradiction].
    destruct X as (X & Y & Z). split; [|intros _; exact Z]. apply right_enter with w; auto. discriminate.
  - eapply updated; eauto; [reflexivity|]. intros HT b x x' M H. specialize (Eq HT). injection H as <-. apply matches_monitor; auto.
  - eapply updated; eauto; [reflexivity|]. intros HT b x x' M H. specialize (Eq HT). eapply matches_unmonitor; eauto.
  - eapply updated; eauto; [reflexivity|]. intros HT b x x' M H. specialize (Eq HT). injection H as <-. apply matches_unmonitor_all; auto.
  - eapply updated; eauto; [reflexivity|]. intros HT b x x' M H. specialize (Eq HT). eapply matches_reset; eauto.
Qed.

(** ** Histories *)
Definition tellable (ops : list (op K V)) w : Prop :=
  forallb untimed ops = true /\ all_untimed w \/ forallb by_find ops = true.
Lemma run_right ops : forall w t outs w', right t w -> (Tell -> tellable ops w) -> run E ops w = Finished outs w' -> right (accounts ops outs t) w'.
Proof.
  induction ops as [|o l IH]; intros w t outs w' R C H; simpl in H.
  { injection H as <- <-. exact R. }
  assert (TT : Tell -> all_untimed w \/ by_find o = true).
  { intros HT. destruct (C HT) as [(_ & U)|B]; [auto|]. simpl in B. apply andb_prop in B as (B & _). auto. }
  assert (N : forall w1, ages o w w1 -> Tell -> tellable l w1).
  { intros w1 A HT. destruct (C HT) as [(D & U)|B]; [left|right]; [simpl in D|simpl in B].
    - apply andb_prop in D as (C1 & C2). split; [exact C2|]. apply A; auto.
    - apply andb_prop in B as (_ & B). exact B. }
  pose proof (step R TT) as S. unfold wp in S.
  destruct (exec E o w) as [r w1|e w1|?|?]; try discriminate H; destruct S as (S & A).
  - destruct (run E l w1) as [rs w2|? ?|? ?] eqn:Y; simpl in H; try discriminate H. injection H as <- <-.
    simpl. eapply IH; eauto.
  - destruct (run E l w1) as [rs w2|? ?|? ?] eqn:Y; simpl in H; try discriminate H. injection H as <- <-.
    simpl. eapply IH; eauto.
Qed.
Lemma right_init : right no_tally (@init_world K V).
Proof.
  constructor; simpl.
  - intros []; reflexivity.
  - intros HT [|s] st X; discriminate X.
  - intros [|c] s X; discriminate X.
Qed.
Lemma untimed_init : all_untimed (@init_world K V).
Proof. intros c x H. unfold slot in H. simpl in H. destruct c; discriminate H. Qed.
Lemma books_right ops outs w : (Tell -> countable ops) -> run E ops init_world = Finished outs w -> right (tally_of ops outs) w.
Proof. intros C H. eapply run_right; [exact right_init| |exact H]. intros HT. destruct (C HT) as [D|D]; [left; split; [exact D|exact untimed_init]|right; exact D]. Qed.

(** ** How many statistics objects there are *)
Lemma stock o w : wp (exec E o)
  (fun r w' => match o with
               | MonitorNew _ _ => r = RIll /\ length (w_stats w') = length (w_stats w) \/
                                   r = RNat (length (w_stats w)) /\ length (w_stats w') = S (length (w_stats w))
               | _ => length (w_stats w') = length (w_stats w)
               end)
  (fun _ w' => length (w_stats w') = length (w_stats w)) w.
Proof.
  unfold wp, exec. destruct (well_formed w o) eqn:W.
  2: destruct o; auto.
  destruct (plain o) eqn:P.
  { pose proof (@plain_calm K V E true o P w) as C. unfold exec in C. rewrite W in C.
    destruct (body E o w) as [r w'|e w'|?|?]; auto; destruct C as (C & _); specialize (C eq_refl); rewrite C; auto; destruct o; try discriminate P; auto. }
  destruct (asks o) as [(c & k)|] eqn:A.
  { pose proof (access_mild A w) as L. destruct (body E o w) as [r w'|e w'|?|?]; auto; destruct L as (_ & _ & _ & L); auto. destruct o; try discriminate A; auto. }
  assert (NEW : forall ttl m, wp m (fun c w' => grew ttl None w c w') (fun _ w' => kept ttl w w') w ->
    wp (c <- m;; ret (RNat c)) (fun (_ : out K V) w' => length (w_stats w') = length (w_stats w)) (fun _ w' => length (w_stats w') = length (w_stats w)) w).
  { intros ttl m X. unfold wp, bind in *. destruct (m w); auto; destruct X as (X & _); simpl; rewrite X; auto. }
  assert (UPD : forall c f, match @stats_update_or K V c f w with
    | Val _ w' | Exc _ w' => length (w_stats w') = length (w_stats w) | _ => True end).
  { intros c f. unfold stats_update_or, stats, bind, get_cache. destruct (slot (w_caches w) c) as [x|]; auto. destruct (c_stats x) as [s|]; simpl; auto.
    unfold get_stats. destruct (slot (w_stats w) s) as [st|]; auto. destruct (f st); simpl; auto. apply upd_length. }
  destruct o; try discriminate P; try discriminate A; simpl body; try clear A; try apply UPD.
  - refine (NEW ttl (new_cache cap ttl) _). pose proof (new_cache_grew cap ttl w) as X. unfold wp in *. destruct (new_cache cap ttl w); auto. contradiction.
  - refine (NEW ttl (new_from E cap ttl l) _). apply with_new_grew. intros c. apply c_insert_range.
  - refine (NEW ttl (new_from_iters E ttl l) _). apply with_new_grew. intros c. apply c_insert_range.
  - refine (NEW ttl (new_from_move E cap ttl l) _). apply with_new_grew. intros c. apply c_insert_move.
  - refine (NEW ttl (new_from_rvalue E ttl l) _). apply with_new_grew. intros c. apply c_insert_move.
  - refine (NEW ttl (new_from_list E ttl l) _). apply with_new_grew. intros c. apply c_insert_range.
  - pose proof (copied_grew c w) as X. unfold wp, bind in *. destruct (copy_new E c w) as [d w'|e w'|?|?]; auto.
    + destruct X as (x & _ & X & _). simpl. rewrite X. reflexivity.
    + destruct X as (X & _). rewrite X. reflexivity.
  - pose proof (moved_grew c w) as X. unfold wp, bind in *. destruct (move_new E c w) as [d w'|e w'|?|?]; auto; [|contradiction].
    destruct X as (X & _). simpl. rewrite X. reflexivity.
  - pose proof (destroyed c w) as X. unfold wp, bind in *. destruct (destroy c w) as [d w'|e w'|?|?]; auto; [|contradiction].
    destruct X as (X & _). simpl. rewrite X. reflexivity.
  - pose proof (assigned c d w) as X. unfold wp, bind in *. destruct (copy_assign E c d w) as [u w'|e w'|?|?]; auto; [|contradiction].
    destruct X as (X & _). simpl. rewrite X. reflexivity.
  - unfold monitor_new, bind, get_cache. destruct (slot (w_caches w) c) as [x|] eqn:Qx; auto. unfold alloc_stats.
    match goal with |- context [set_stats c ?s ?w1] => pose proof (set_stats_fed c s w1) as X; unfold wp in X; destruct (set_stats c s w1) as [u w'|e w'|?|?] end; auto; [|contradiction].
    destruct X as (X & _). simpl. right. split; [reflexivity|]. rewrite X. simpl. rewrite app_length. simpl. lia.
  - unfold monitor_shared, bind, get_stats. destruct (slot (w_stats w) s) as [st|] eqn:Qs; auto.
    pose proof (set_stats_fed c (Some s) w) as X. unfold wp in X. destruct (set_stats c (Some s) w) as [u w'|e w'|?|?]; auto; [|contradiction].
    destruct X as (X & _). simpl. rewrite X. reflexivity.
  - unfold stop_monitoring, bind. pose proof (set_stats_fed c None w) as X. unfold wp in X. destruct (set_stats c None w) as [u w'|e w'|?|?]; auto; [|contradiction].
    destruct X as (X & _). simpl. rewrite X. reflexivity.
Qed.
(** One call of a history: its outcome, and the number of statistics objects. *)
Lemma stock_call o w r w1 : call E o w r w1 ->
  length (w_stats w1) = length (w_stats w) /\ (forall c ks s, o = MonitorNew c ks -> r <> Returned (RNat s)) \/
  exists c ks, o = MonitorNew c ks /\ r = Returned (RNat (length (w_stats w))) /\ length (w_stats w1) = S (length (w_stats w)).
Proof.
  intros X. pose proof (stock o w) as S. unfold wp in S. destruct r as [r|e]; unfold call in X; rewrite X in S.
  - destruct o; try (left; split; [exact S|discriminate]).
    destruct S as [(-> & S)|(-> & S)]; [left; split; [exact S|discriminate]|right; eauto].
  - left. split; [exact S|discriminate].
Qed.

(** ** Sums over the caches *)
Lemma page_write c e t s : page (write c e t) s =
  if match feeds t c with Some (Some s') => Nat.eqb s' s | _ => false end then e :: page t s else page t s.
Proof.
  unfold write. destruct (feeds t c) as [[s'|]|]; simpl; auto. rewrite (Nat.eqb_sym s s'). destruct (Nat.eqb_spec s' s); subst; auto.
Qed.
Lemma page_quiet o r t s : access_of (V := V) o r = None -> (forall c ks s', o = MonitorNew c ks -> r = Returned (RNat s') -> s' <> s) ->
  n_accesses (page (account o r t) s) = n_accesses (page t s) /\ n_hits (page (account o r t) s) = n_hits (page t s).
Proof.
  intros A N. unfold account. rewrite A. destruct o; auto; destruct r as [[]|[]]; auto;
    try (rewrite page_write; destruct (match feeds t c with Some _ => _ | None => _ end); auto).
  simpl. destruct (Nat.eqb_spec s n) as [->|D]; auto. exfalso. eapply N; eauto.
Qed.
Lemma sums_any ops : forall w t outs w' N s f g, right t w -> (Tell -> tellable ops w) ->
  run E ops w = Finished outs w' -> (forall o c k, In o ops -> asks o = Some (c, k) -> c < N) ->
  StatMore.tally f ->
  g = n_accesses /\ (forall k h, f [(k, h)] = 1) \/ g = n_hits /\ (forall k h, f [(k, h)] = if h then 1 else 0) ->
  length (w_stats w) <= length (w_stats w') /\
  g (page (accounts ops outs t) s) =
    (if Nat.ltb s (length (w_stats w)) then g (page t s) else if Nat.ltb s (length (w_stats w')) then 0 else g (page t s))
    + sum_over N (fun c => f (through c s ops outs t)).
Proof.
  induction ops as [|o ops IH]; intros w t outs w' N s f g R C H LN (F0 & FA) FG.
  { simpl in H. injection H as <- <-. split; [auto|]. simpl. rewrite (sum_ext (g := fun _ => 0)) by auto. rewrite sum_zero.
    destruct (Nat.ltb s (length (w_stats w))); lia. }
  assert (TT : Tell -> all_untimed w \/ by_find o = true).
  { intros HT. destruct (C HT) as [(_ & U)|B]; [auto|]. simpl in B. apply andb_prop in B as (B & _). auto. }
  assert (NX : forall w1, ages o w w1 -> Tell -> tellable ops w1).
  { intros w1 A HT. destruct (C HT) as [(D & U)|B]; [left|right]; [simpl in D|simpl in B].
    - apply andb_prop in D as (C1 & C2). split; [exact C2|]. apply A; auto.
    - apply andb_prop in B as (_ & B). exact B. }
  apply run_inv in H as (w1 & r & rs & -> & H & X).
  assert (X' : call E o w r w1) by (destruct X as [(x & -> & X)|(e & -> & X)]; exact X).
  assert (S : after o t w r w1).
  { pose proof (step R TT) as S. unfold wp in S. destruct X as [(x & -> & X)|(e & -> & X)]; rewrite X in S; exact S. }
  clear X. destruct S as (R1 & A1).
  destruct (IH _ _ _ _ N s f g R1 (NX _ A1) H) as (GR & IHs); [intros; eapply LN; [right|]; eauto|split; auto|exact FG|]. clear IH.
  cbn [accounts]. rewrite IHs. clear IHs.
  assert (SPLIT : sum_over N (fun c => f (through c s (o :: ops) (r :: rs) t)) =
     match access_of o r with
     | Some (c, k, hit) => if match feeds t c with Some (Some s') => Nat.eqb s' s | _ => false end then f [(k, hit)] else 0
     | None => 0 end + sum_over N (fun c => f (through c s ops rs (account o r t)))).
  { cbn [through]. erewrite sum_ext; [|intros c Hc; rewrite FA; reflexivity]. rewrite sum_add. f_equal.
    destruct (access_of o r) as [((c & k) & hit)|] eqn:A.
    - assert (Hc : c < N).
      { apply (LN o c k); [left; reflexivity|]. clear -A. destruct o; try discriminate A; destruct r as [[]|[]]; try discriminate A; simpl in A |- *;
          repeat match type of A with context [match ?x with _ => _ end] => destruct x end; try discriminate A; injection A as -> -> _; reflexivity. }
      rewrite <- (sum_one (if match feeds t c with Some (Some s') => Nat.eqb s' s | _ => false end then f [(k, hit)] else 0) Hc).
      apply sum_ext. intros i Hi. destruct (Nat.eqb_spec c i) as [->|]; simpl; auto.
      destruct (match feeds t i with Some _ => _ | None => _ end); auto.
    - erewrite sum_ext; [apply sum_zero|]. auto. }
  rewrite SPLIT. clear SPLIT.
  assert (G1 : forall k h b, g (BAccess k h :: b) = f [(k, h)] + g b).
  { intros k h b. destruct FG as [(-> & ->)|(-> & ->)]; auto. destruct h; auto. }
  destruct (stock_call X') as [(LE & NM)|(c & ks & -> & -> & LE)].
  - split; [lia|]. rewrite Nat.add_assoc. f_equal. rewrite LE.
    destruct (access_of o r) as [((c & k) & hit)|] eqn:A.
    + rewrite (account_access t A), page_write. pose proof (r_fed R c) as F. destruct (feeds t c) as [[s'|]|] eqn:Fc; try lia.
      destruct (Nat.eqb_spec s' s) as [->|]; [|lia]. rewrite G1. symmetry in F. pose proof (r_there R F) as Th.
      rewrite (proj2 (Nat.ltb_lt s (length (w_stats w)))); [lia|].
      destruct (lt_dec s (length (w_stats w))); auto. exfalso. apply Th. unfold slot. apply nth_overflow. lia.
    + destruct (page_quiet t (s := s) A) as (B1 & B2); [intros c ks s' -> ->; exfalso; apply (NM _ _ s' eq_refl eq_refl)|].
      assert (Q : g (page (account o r t) s) = g (page t s)) by (destruct FG as [(-> & _)|(-> & _)]; auto). rewrite Q. lia.
  - split; [lia|]. rewrite Nat.add_assoc. f_equal. simpl. rewrite LE.
    destruct (Nat.eqb_spec s (length (w_stats w))) as [->|D].
    + rewrite (proj2 (Nat.ltb_lt _ _) (Nat.lt_succ_diag_r _)), Nat.ltb_irrefl. rewrite (proj2 (Nat.ltb_lt _ _)) by lia.
      destruct (n_monitors ks). destruct FG as [(-> & _)|(-> & _)]; auto.
    + destruct (Nat.ltb_spec s (S (length (w_stats w)))), (Nat.ltb_spec s (length (w_stats w))); auto; lia.
Qed.

(** ** What the calls on statistics give *)
Section Ends.
Variable ops : list (op K V).
Variable outs : list (outcome K V).
Variable w : world.
Hypothesis C : Tell -> countable ops.
Hypothesis H : run E ops init_world = Finished outs w.
Let t := tally_of ops outs.

Lemma fed_slot c m : feeds t c = Some m -> exists x, slot (w_caches w) c = Some x /\ c_stats x = m /\
  match m with Some s => exists st, slot (w_stats w) s = Some st /\ (Tell -> matches E (page t s) st) | None => True end.
Proof.
  intros F. pose proof (books_right C H) as R. pose proof (r_fed R c) as F'. fold t in F', R. rewrite F in F'. symmetry in F'.
  pose proof F' as F''. unfold fed in F'. destruct (slot (w_caches w) c) as [x|] eqn:Q; [|discriminate F']. simpl in F'. injection F' as S.
  exists x. split; [reflexivity|split; [exact S|]]. destruct m as [s|]; [|exact I].
  destruct (slot (w_stats w) s) as [st|] eqn:Qs; [|exfalso; apply (r_there R F''); exact Qs]. exists st. split; [reflexivity|intros HT; apply (r_page R HT); exact Qs].
Qed.
Lemma alive_feeds c : alive w c = match feeds t c with Some _ => true | None => false end.
Proof.
  pose proof (books_right C H) as R. rewrite (r_fed R). unfold alive, fed. destruct (slot (w_caches w) c); reflexivity.
Qed.
Ltac see c F := destruct (fed_slot F) as (x & Q & S & X); unfold exec; simpl well_formed; unfold alive; rewrite Q; simpl body;
  unfold stats, is_monitoring, bind, get_cache; rewrite Q, S.
Lemma any_monitoring c m : feeds t c = Some m -> exec E (IsMonitoring c) w = Val (RBool (match m with Some _ => true | None => false end)) w.
Proof. intros F. see c F. destruct m; reflexivity. Qed.
Lemma any_totals c m : Tell -> feeds t c = Some m -> exec E (Totals c) w =
    match m with
    | None => Exc NotMonitoring w
    | Some s => Val (RTotals (size_t (Z.of_nat (n_accesses (page t s)))) (size_t (Z.of_nat (n_hits (page t s)))) (size_t (Z.of_nat (n_misses (page t s))))) w
    end.
Proof.
  intros HT F. see c F. destruct m as [s|]; [|reflexivity]. destruct X as (st & Qs & M). specialize (M HT). simpl. unfold get_stats. rewrite Qs. pose proof (m_acc M) as A. pose proof (m_hits M) as B.
  unfold total_accesses, total_hits, ret. rewrite A, B, (misses_diff M). reflexivity.
Qed.
Lemma any_key c k m : Tell -> feeds t c = Some m -> exec E (StatsFor c k) w =
    match m with
    | None => Exc NotMonitoring w
    | Some s => match key_count E k (page t s) with
                | None => Exc UnmonitoredKey w
                | Some (h, n) => Val (RKeyStats (size_t (Z.of_nat h)) (size_t (Z.of_nat n)) (size_t (Z.of_nat (h + n)))) w
                end
    end.
Proof.
  intros HT F. see c F. destruct m as [s|]; [|reflexivity]. destruct X as (st & Qs & M). pose proof (m_keys (M HT)) as A. simpl. unfold get_stats. rewrite Qs.
  unfold stats_for. rewrite A. destruct (key_count E k (page t s)) as [(h & n)|]; [|reflexivity]. simpl. unfold ret. rewrite accesses_sum. reflexivity.
Qed.
Lemma any_is_monitored c k m : Tell -> feeds t c = Some m -> exec E (StatsIsMonitoring c k) w =
    match m with
    | None => Exc NotMonitoring w
    | Some s => Val (RBool (match key_count E k (page t s) with Some _ => true | None => false end)) w
    end.
Proof.
  intros HT F. see c F. destruct m as [s|]; [|reflexivity]. destruct X as (st & Qs & M). pose proof (m_keys (M HT)) as A. simpl. unfold get_stats. rewrite Qs.
  unfold stats_is_monitoring. rewrite A. destruct (key_count E k (page t s)); reflexivity.
Qed.
Lemma any_number c m : Tell -> feeds t c = Some m ->
  match m with
  | None => exec E (StatsNumber c) w = Exc NotMonitoring w
  | Some s => exists ks, exec E (StatsNumber c) w = Val (RNat (length ks)) w /\ unique_keys E ks /\
                forall k, key_count E k (page t s) <> None <-> exists k', In k' ks /\ key_eqop E k k' = true
  end.
Proof.
  intros HT F. see c F. destruct m as [s|]; [|reflexivity]. destruct X as (st & Qs & B). specialize (B HT). simpl. unfold get_stats. rewrite Qs.
  exists (map fst (st_keys st)). unfold number_of_monitored_keys. rewrite map_length. split; [reflexivity|]. split; [apply ukeys_unique; apply B|].
  intros k. pose proof (m_keys B k) as M. split.
  - intros N. destruct (key_count E k (page t s)) as [h|]; [|congruence]. simpl in M.
    apply find_in in M as (k' & I' & Q'). exists k'. split; auto. apply (in_map fst) in I'. auto.
  - intros (k' & I' & Q') N. rewrite N in M. simpl in M. rewrite find_none in M.
    apply in_map_iff in I' as (p & <- & I'). rewrite M in Q' by auto. discriminate.
Qed.
Lemma any_throws o c : uses_stats o = Some c -> feeds t c = Some None -> exec E o w = Exc NotMonitoring w.
Proof.
  intros U F. destruct o; inversion U; subst; destruct (fed_slot F) as (x & Q & S & X); unfold exec; simpl well_formed; unfold alive; rewrite Q;
    simpl body; unfold stats_update_or, stats, bind, get_cache; rewrite Q, S; reflexivity.
Qed.
Lemma any_throws_only o c w' : uses_stats o = Some c -> exec E o w = Exc NotMonitoring w' -> feeds t c = Some None.
Proof.
  intros U N. pose proof (books_right C H) as R. pose proof (r_fed R c) as F. fold t in R, F.
  unfold fed in F. destruct (slot (w_caches w) c) as [x|] eqn:Q.
  2: { exfalso. unfold exec in N. destruct o; inversion U; subst; simpl in N; unfold alive in N; rewrite Q in N; discriminate N. }
  simpl in F. destruct (c_stats x) as [s|] eqn:S; [|exact F]. exfalso.
  destruct (fed_slot F) as (x' & Q' & S' & st & Qs & M). rewrite Q in Q'. injection Q' as <-.
  unfold exec in N. destruct o; inversion U; subst; simpl in N; unfold alive in N; rewrite Q in N; simpl in N;
    unfold stats_update_or, stats, bind, get_cache in N; rewrite Q, S in N; simpl in N; unfold get_stats in N; rewrite Qs in N; try discriminate N;
    match type of N with match (match ?f with _ => _ end _) with _ => _ end = _ => destruct f | (match ?f with _ => _ end _) = _ => destruct f end; discriminate N.
Qed.
Lemma any_sums c s n : Tell -> feeds t c = Some (Some s) -> (forall o c k, In o ops -> asks o = Some (c, k) -> c < n) ->
  exists m, exec E (Totals c) w =
    Val (RTotals (size_t (Z.of_nat (sum_over n (fun d => length (through d s ops outs no_tally)))))
                 (size_t (Z.of_nat (sum_over n (fun d => length (filter snd (through d s ops outs no_tally))))))
                 m) w.
Proof.
  intros HT F LN. rewrite (any_totals HT F). eexists. f_equal.
  assert (TC : Tell -> tellable ops (@init_world K V)).
  { intros HT'. destruct (C HT') as [D|D]; [left; split; [exact D|exact untimed_init]|right; exact D]. }
  destruct (sums_any s right_init TC H LN tally_length (or_introl (conj eq_refl (fun _ _ => eq_refl)))) as (_ & S1).
  destruct (sums_any s right_init TC H LN tally_hits (g := n_hits)) as (_ & S2).
  { right. split; auto. intros k []; auto. }
  unfold t, tally_of. rewrite S1, S2. simpl. destruct (Nat.ltb s (length (w_stats w))); reflexivity.
Qed.
End Ends.
End TallyRun.

(** ** The statements *)
Section TallyEnds.
Context {K V : Type}.
Variable E : env K V.
Hypothesis Cb : passive E.
Notation world := (world K V).

Lemma no_tell (P : Prop) : False -> P.
Proof. intros []. Qed.
Lemma tally_monitoring ops outs (w : world) c : run E ops init_world = Finished outs w -> alive w c = true ->
  exec E (IsMonitoring c) w = Val (RBool (match feeds (tally_of ops outs) c with Some (Some _) => true | _ => false end)) w.
Proof.
  intros H A. pose proof (alive_feeds Cb (@no_tell _) (@no_tell _) H c) as F. rewrite A in F.
  destruct (feeds (tally_of ops outs) c) as [m|] eqn:Fc; [|discriminate F].
  rewrite (any_monitoring Cb (@no_tell _) (@no_tell _) H Fc). destruct m; reflexivity.
Qed.
Lemma tally_alive ops outs (w : world) c : run E ops init_world = Finished outs w ->
  alive w c = match feeds (tally_of ops outs) c with Some _ => true | None => false end.
Proof. intros H. apply (alive_feeds Cb (@no_tell _) (@no_tell _) H c). Qed.
Lemma tally_throws ops outs (w : world) o c w' : run E ops init_world = Finished outs w -> uses_stats o = Some c ->
  exec E o w = Exc NotMonitoring w' <-> feeds (tally_of ops outs) c = Some None /\ w' = w.
Proof.
  intros H U. split.
  - intros N. pose proof (any_throws_only Cb (@no_tell _) (@no_tell _) H U N) as F. split; [exact F|].
    rewrite (any_throws Cb (@no_tell _) (@no_tell _) H U F) in N. congruence.
  - intros (F & ->). apply (any_throws Cb (@no_tell _) (@no_tell _) H U F).
Qed.

Section Told.
Variable ops : list (op K V).
Variable outs : list (outcome K V).
Variable w : world.
Hypothesis H : run E ops init_world = Finished outs w.
Hypothesis Eq : eqop_good E.
Hypothesis C : countable ops.
Let t := tally_of ops outs.
Variable c : nat.
Hypothesis A : alive w c = true.

Lemma known : exists m, feeds t c = Some m.
Proof. pose proof (tally_alive c H) as F. rewrite A in F. fold t in F. destruct (feeds t c); [eauto|discriminate F]. Qed.
Lemma tally_totals : exec E (Totals c) w =
    match feeds t c with
    | Some (Some s) => Val (RTotals (size_t (Z.of_nat (n_accesses (page t s)))) (size_t (Z.of_nat (n_hits (page t s))))
                                    (size_t (Z.of_nat (n_misses (page t s))))) w
    | _ => Exc NotMonitoring w
    end.
Proof. destruct known as (m & F). rewrite F. rewrite (any_totals Cb (Tell := True) (fun _ => Eq) (fun _ => C) H I F). destruct m; reflexivity. Qed.
Lemma tally_key k : exec E (StatsFor c k) w =
    match feeds t c with
    | Some (Some s) => match key_count E k (page t s) with
                       | None => Exc UnmonitoredKey w
                       | Some (h, n) => Val (RKeyStats (size_t (Z.of_nat h)) (size_t (Z.of_nat n)) (size_t (Z.of_nat (h + n)))) w
                       end
    | _ => Exc NotMonitoring w
    end.
Proof. destruct known as (m & F). rewrite F. rewrite (any_key Cb (Tell := True) (fun _ => Eq) (fun _ => C) H k I F). destruct m; reflexivity. Qed.
Lemma tally_monitored k : exec E (StatsIsMonitoring c k) w =
    match feeds t c with
    | Some (Some s) => Val (RBool (match key_count E k (page t s) with Some _ => true | None => false end)) w
    | _ => Exc NotMonitoring w
    end.
Proof. destruct known as (m & F). rewrite F. rewrite (any_is_monitored Cb (Tell := True) (fun _ => Eq) (fun _ => C) H k I F). destruct m; reflexivity. Qed.
Lemma tally_number :
  match feeds t c with
  | Some (Some s) => exists ks, exec E (StatsNumber c) w = Val (RNat (length ks)) w /\ unique_keys E ks /\
                       forall k, key_count E k (page t s) <> None <-> exists k', In k' ks /\ key_eqop E k k' = true
  | _ => exec E (StatsNumber c) w = Exc NotMonitoring w
  end.
Proof. destruct known as (m & F). rewrite F. pose proof (any_number Cb (Tell := True) (fun _ => Eq) (fun _ => C) H I F) as N. destruct m; exact N. Qed.
Lemma tally_sums s n : feeds t c = Some (Some s) -> (forall o d k, In o ops -> asks o = Some (d, k) -> d < n) ->
  exists m, exec E (Totals c) w =
    Val (RTotals (size_t (Z.of_nat (sum_over n (fun d => length (through d s ops outs no_tally)))))
                 (size_t (Z.of_nat (sum_over n (fun d => length (filter snd (through d s ops outs no_tally))))))
                 m) w.
Proof. intros F N. exact (any_sums Cb (Tell := True) (fun _ => Eq) (fun _ => C) H I F N). Qed.
End Told.
End TallyEnds.
