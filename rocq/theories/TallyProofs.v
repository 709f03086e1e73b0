(** The client's own books on monitoring and statistics are right, in any history. *)
From Coq Require Import List Arith ZArith Bool Lia.
Import ListNotations.
From Verif Require Import Monad Types Model Api Spec SpecStats SpecSettings Lists Effects StatProofs TallyEff SpecTally.
Set Implicit Arguments.
Unset Strict Implicit.
Local Open Scope cpp_scope.

(** ** Ends of a computation *)
Definition wp {S A} (m : M S A) (P : A -> S -> Prop) (Q : exn -> S -> Prop) (w : S) : Prop :=
  match m w with Val a w' => P a w' | Exc e w' => Q e w' | _ => True end.
Lemma wp_bind {S A B} (m : M S A) (k : A -> M S B) P Q w : wp m (fun a w' => wp (k a) P Q w') Q w -> wp (bind m k) P Q w.
Proof. unfold wp, bind. destruct (m w); auto. Qed.
(** It does not throw. *)
Definition quiet {S A} (m : M S A) : Prop := forall w, match m w with Exc _ _ => False | _ => True end.
Lemma quiet_bind {S A B} (m : M S A) (k : A -> M S B) : quiet m -> (forall a, quiet (k a)) -> quiet (bind m k).
Proof. intros A1 B1 w. unfold bind. specialize (A1 w). destruct (m w); auto. apply B1. Qed.
Lemma quiet_ret {S A} (a : A) : quiet (@ret S A a).
Proof. intros w. exact I. Qed.
Lemma quiet_undef {S A} u : quiet (@undef S A u).
Proof. intros w. exact I. Qed.

Section TallyProofs.
Context {K V : Type}.
Variable E : env K V.
Hypothesis Cb : passive E.
Notation world := (world K V).
Notation calm := (@calm K V true).

Lemma wp_calm {A} (m : M world A) (P : A -> world -> Prop) (Q : exn -> world -> Prop) w : quiet m -> within calm m -> (forall a w', calm w w' -> P a w') -> wp m P Q w.
Proof. intros T C H. unfold wp. specialize (T w). specialize (C w). destruct (m w); auto. contradiction. Qed.

Ltac q1 :=
  match goal with
  | |- quiet (ret _) => apply quiet_ret
  | |- quiet (undef _) => apply quiet_undef
  | |- quiet (bind _ _) => apply quiet_bind; [|intros]
  | |- quiet (let '(_, _) := ?x in _) => destruct x
  | |- quiet (match ?x with _ => _ end) => destruct x
  | |- quiet (if ?b then _ else _) => destruct b
  end.
Ltac qs := repeat (q1; auto); auto.
Lemma q_get_cache c : quiet (@get_cache K V c).
Proof. intros w. unfold get_cache. destruct (slot _ _); exact I. Qed.
Lemma q_get_store c : quiet (@get_store K V c).
Proof. intros w. unfold get_store. destruct (slot _ _); exact I. Qed.
Lemma q_get_stats c : quiet (@get_stats K V c).
Proof. intros w. unfold get_stats. destruct (slot _ _); exact I. Qed.
Lemma q_put_cache c x : quiet (@put_cache K V c x).
Proof. intros w. exact I. Qed.
Lemma q_put_store c x : quiet (@put_store K V c x).
Proof. intros w. exact I. Qed.
Lemma q_put_stats c x : quiet (@put_stats K V c x).
Proof. intros w. exact I. Qed.
Lemma q_cb ev : quiet (cb E ev).
Proof. intros w. rewrite Cb. exact I. Qed.
Lemma q_now : quiet (now E).
Proof. intros w. exact I. Qed.
Hint Resolve q_get_cache q_get_store q_get_stats q_put_cache q_put_store q_put_stats q_cb q_now : core.
Lemma q_deref p : quiet (@deref K V p).
Proof. unfold deref. qs. Qed.
Hint Resolve q_deref : core.
Lemma q_deref_it i : quiet (@deref_it K V i).
Proof. unfold deref_it. qs. Qed.
Lemma q_own c : quiet (@own K V c).
Proof. unfold own. qs. Qed.
Hint Resolve q_deref_it q_own : core.
Lemma q_map_find c k : quiet (map_find E c k).
Proof. unfold map_find. qs. Qed.
Lemma q_map_size c : quiet (@map_size K V c).
Proof. unfold map_size. qs. Qed.
Lemma q_splice c p : quiet (@list_splice_back K V c p).
Proof. unfold list_splice_back. qs. Qed.
Lemma q_list_erase c p : quiet (@list_erase K V c p).
Proof. unfold list_erase. qs. Qed.
Lemma q_map_erase_it c p : quiet (@map_erase_it K V c p).
Proof. unfold map_erase_it. qs. Qed.
Lemma q_last_is c k : quiet (last_is E c k).
Proof. unfold last_is. qs. Qed.
Lemma q_last_ptr c : quiet (@last_ptr K V c).
Proof. unfold last_ptr. qs. Qed.
Lemma q_set_last c p : quiet (@set_last K V c p).
Proof. unfold set_last. qs. Qed.
Lemma q_update_node p f : quiet (@update_node K V p f).
Proof. unfold update_node. qs. Qed.
Lemma q_expired d n : quiet (has_expired_info E d n).
Proof. unfold has_expired_info. qs. Qed.
Hint Resolve q_map_find q_map_size q_splice q_list_erase q_map_erase_it q_last_is q_last_ptr q_set_last q_update_node q_expired : core.
Lemma q_move_to_front c p : quiet (@move_to_front K V c p).
Proof. unfold move_to_front, size. qs. Qed.
Lemma q_erase_it c i : quiet (erase_it E c i).
Proof. unfold erase_it, invalidate_last. qs. Qed.
Lemma q_read p : quiet (@read_entry K V p).
Proof. unfold read_entry. qs. Qed.
Lemma q_u_deref it : quiet (@u_deref K V it).
Proof. unfold u_deref. qs. Qed.
Hint Resolve q_move_to_front q_erase_it q_read q_u_deref : core.
Lemma q_denotes c it : quiet (@denotes K V c it).
Proof. unfold denotes. qs. Qed.
Lemma q_call_each_from sel all c mk ids : (forall id, quiet (mk id)) -> quiet (call_each_from E sel all c mk ids).
Proof. intros H. induction ids; simpl; qs. Qed.
Lemma q_call_each sel c mk : (forall id, quiet (mk id)) -> quiet (call_each E sel c mk).
Proof. intros H. unfold call_each. apply quiet_bind; auto. intros x. apply q_call_each_from; auto. Qed.
Hint Resolve q_denotes q_call_each : core.

Lemma same_c B (m : M world B) : within eq m -> within calm m.
Proof. apply same_calm. Qed.
Lemma c_call_each_from sel all c mk ids : (forall id, within calm (mk id)) -> within calm (call_each_from E sel all c mk ids).
Proof.
  intros H. induction ids; simpl; [apply w_ret, calm_refl|].
  repeat (apply w_bind; [apply calm_trans| |intros]); auto using c_cb, same_c, e_get_cache.
  destruct (natlist_eqb _ _); auto. apply w_undef; auto.
Qed.
Lemma c_call_each sel c mk : (forall id, within calm (mk id)) -> within calm (call_each E sel c mk).
Proof.
  intros H. unfold call_each. apply w_bind; [apply calm_trans|auto using same_c, e_get_cache|]. intros x. apply c_call_each_from; auto.
Qed.

(** ** One access *)
Definition grade (hit : bool) (k : K) (st : statistics K) : statistics K :=
  if hit then stats_register_hit E k st else stats_register_miss E k st.
(** The access is counted by the statistics object the cache feeds, and by no other. *)
Definition counted (c : nat) (k : K) (hit : bool) (w w' : world) : Prop :=
  (forall d, fed w' d = fed w d) /\ (all_untimed w -> all_untimed w') /\
  match fed w c with
  | Some (Some s) => exists st, slot (w_stats w) s = Some st /\ w_stats w' = upd (w_stats w) s (Some (grade hit k st))
  | _ => w_stats w' = w_stats w
  end.
Lemma counted_after c k hit w w1 w2 : calm w w1 -> counted c k hit w1 w2 -> counted c k hit w w2.
Proof.
  intros (A & B & C) (B' & C' & D). specialize (A eq_refl). split; [|split].
  - intros d. rewrite B'. auto.
  - auto.
  - rewrite B, A in D. exact D.
Qed.
Lemma counted_before c k hit w w1 w2 : counted c k hit w w1 -> calm w1 w2 -> counted c k hit w w2.
Proof.
  intros (B & C & D) (A' & B' & C'). specialize (A' eq_refl). split; [|split].
  - intros d. rewrite B'. auto.
  - auto.
  - rewrite A'. exact D.
Qed.

Lemma register_counts hit c k (m1 m2 : M world unit) Q w :
  quiet m1 -> quiet m2 -> within calm m1 -> within calm m2 ->
  wp (x <- get_cache c;;
      match c_stats x with
      | Some s => st <- get_stats s;; put_stats s (grade hit k st)
      | None => ret tt
      end;;; m1;;; m2) (fun _ w' => counted c k hit w w') Q w.
Proof.
  intros T1 T2 C1 C2. apply wp_bind. unfold wp at 1, get_cache at 1.
  destruct (slot (w_caches w) c) as [x|] eqn:Qc; [|exact I].
  assert (F : fed w c = Some (c_stats x)) by (unfold fed; rewrite Qc; reflexivity).
  apply wp_bind. destruct (c_stats x) as [s|].
  - apply wp_bind. unfold wp at 1, get_stats at 1. destruct (slot (w_stats w) s) as [st|] eqn:Qs; [|exact I].
    unfold wp at 1. simpl put_stats. unfold put_stats, modify. 
    assert (C0 : counted c k hit w (with_stats (fun l => upd l s (Some (grade hit k st))) w)).
    { split; [reflexivity|split; [auto|]]. rewrite F. eauto. }
    apply wp_bind. apply wp_calm; auto. intros _ w1 H1. apply wp_calm; auto. intros _ w2 H2.
    eapply counted_before; [eapply counted_before; [exact C0|exact H1]|exact H2].
  - unfold wp at 1, ret at 1.
    assert (C0 : counted c k hit w w) by (split; [reflexivity|split; [auto|rewrite F; reflexivity]]).
    apply wp_bind. apply wp_calm; auto. intros _ w1 H1. apply wp_calm; auto. intros _ w2 H2.
    eapply counted_before; [eapply counted_before; [exact C0|exact H1]|exact H2].
Qed.
Lemma hit_counts c k p Q w : wp (register_hit E c k p) (fun _ w' => counted c k true w w') Q w.
Proof.
  apply (@register_counts true).
  - apply q_call_each. intros id. qs.
  - apply q_call_each. intros id. qs.
  - apply c_call_each. intros id. apply w_bind; [apply calm_trans|auto using same_c, e_deref|]. intros; apply w_ret, calm_refl.
  - apply c_call_each. intros id. apply w_ret, calm_refl.
Qed.
Lemma miss_counts c k Q w : wp (register_miss E c k) (fun _ w' => counted c k false w w') Q w.
Proof.
  apply (@register_counts false).
  - apply q_call_each. intros id. qs.
  - apply q_call_each. intros id. qs.
  - apply c_call_each. intros id. apply w_ret, calm_refl.
  - apply c_call_each. intros id. apply w_ret, calm_refl.
Qed.
Lemma wp_mono {A} (m : M world A) (P P' : A -> world -> Prop) (Q : exn -> world -> Prop) w :
  wp m P' Q w -> (forall a w', P' a w' -> P a w') -> wp m P Q w.
Proof. unfold wp. destruct (m w); auto. Qed.

(** What find gives back tells whether a hit or a miss was counted. *)
Definition answers (c : nat) (hit : bool) (it : uiter) : Prop :=
  if hit then exists i, it = MkU c (UAt i) None else it = unordered_end c.
Ltac calmly := apply wp_bind; apply wp_calm; [solve [auto]|solve [auto using same_c, ticked_calm, e_get_cache, e_map_find, e_deref_it, e_has_expired_info, e_deref, e_last_is, e_last_ptr, e_size, c_move_to_front, c_set_last]|].
Lemma find_hit_counts c k i Q w : wp (find_hit E c k i) (fun _ w' => counted c k true w w') Q w.
Proof.
  unfold find_hit. calmly. intros n0 w0 H0. apply wp_bind.
  eapply wp_mono; [apply hit_counts|]. intros ?u w1 H1.
  calmly. intros n w2 H2. calmly. intros ?u w3 H3. calmly. intros n' w4 H4.
  apply wp_calm; [auto|apply c_set_last|]. intros ?u w5 H5.
  eapply counted_after; [exact H0|]. eapply counted_before; [|exact H5]. eapply counted_before; [|exact H4].
  eapply counted_before; [|exact H3]. eapply counted_before; [|exact H2]. exact H1.
Qed.
Lemma find_counts c k Q w : wp (find E c k) (fun it w' => exists hit, counted c k hit w w' /\ answers c hit it) Q w.
Proof.
  unfold find. calmly. intros x w0 H0. destruct (c_ttl x) as [d|].
  - calmly. intros [i|] w1 H1.
    + calmly. intros n w2 H2. calmly. intros [] w3 H3.
      * apply wp_bind. eapply wp_mono; [apply miss_counts|]. intros ?u w4 H4. exists false. split; [|reflexivity].
        do 4 (eapply counted_after; [eassumption|]). exact H4.
      * apply wp_bind. eapply wp_mono; [apply find_hit_counts|]. intros ?u w4 H4. exists true. split; [|exists i; reflexivity].
        do 4 (eapply counted_after; [eassumption|]). exact H4.
    + apply wp_bind. eapply wp_mono; [apply miss_counts|]. intros ?u w4 H4. exists false. split; [|reflexivity].
      do 2 (eapply counted_after; [eassumption|]). exact H4.
  - calmly. intros [i|] w1 H1.
    + apply wp_bind. eapply wp_mono; [apply find_hit_counts|]. intros ?u w4 H4. exists true. split; [|exists i; reflexivity].
      do 2 (eapply counted_after; [eassumption|]). exact H4.
    + apply wp_bind. eapply wp_mono; [apply miss_counts|]. intros ?u w4 H4. exists false. split; [|reflexivity].
      do 2 (eapply counted_after; [eassumption|]). exact H4.
Qed.

Lemma wp_get_cache c (P : cache -> world -> Prop) (Q : exn -> world -> Prop) w :
  (forall x, slot (w_caches w) c = Some x -> P x w) -> wp (get_cache c) P Q w.
Proof. intros H. unfold wp, get_cache. destruct (slot (w_caches w) c); auto. Qed.
Lemma wp_ret A (a : A) (P : A -> world -> Prop) (Q : exn -> world -> Prop) w : P a w -> wp (ret a) P Q w.
Proof. auto. Qed.
Lemma wp_throw A e (P : A -> world -> Prop) (Q : exn -> world -> Prop) w : Q e w -> wp (throw e) P Q w.
Proof. auto. Qed.
Lemma wp_undef A u (P : A -> world -> Prop) (Q : exn -> world -> Prop) w : wp (undef u) P Q w.
Proof. exact I. Qed.
Lemma calm_true w w' : calm w w' -> all_untimed w -> all_untimed w'.
Proof. intros (_ & _ & H). exact H. Qed.
Lemma counted_untimed c k hit w w' : counted c k hit w w' -> all_untimed w -> all_untimed w'.
Proof. intros (_ & H & _). exact H. Qed.

Definition tells (o : op K V) (c : nat) (k : K) (w : world) (r : outcome K V) (w' : world) : Prop :=
  exists hit, access_of o r = Some (c, k, hit) /\ counted c k hit w w'.

(** lookup of an untimed cache. *)
Lemma lookup_counts c k w : all_untimed w ->
  wp (lookup E c k) (fun _ w' => counted c k true w w') (fun e w' => e = KeyNotFound /\ counted c k false w w') w.
Proof.
  intros U. unfold lookup. calmly. intros [] w1 H1.
  - apply wp_bind. unfold value_for_last_accessed. apply wp_bind. apply wp_get_cache. intros x Qx.
    rewrite (calm_true H1 U Qx). calmly. intros p w2 H2. apply wp_ret.
    apply wp_bind. eapply wp_mono; [apply hit_counts|]. intros ?u w3 H3. apply wp_ret.
    do 2 (eapply counted_after; [eassumption|]). exact H3.
  - apply wp_bind. eapply wp_mono; [apply find_counts|]. intros it w2 (hit & H2 & A2). cbv beta.
    destruct hit; [destruct A2 as (i & ->)|hnf in A2; subst it].
    + simpl u_eq. cbv iota. unfold u_entry, ui_entry, ui_pos. calmly. intros n w3 H3.
      apply wp_bind. unfold throw_if_invalid_u. apply wp_bind. apply wp_get_cache. intros x Qx. simpl u_eq. cbv iota.
      rewrite (calm_true H3 (counted_untimed H2 (calm_true H1 U)) Qx). apply wp_ret, wp_ret.
      eapply counted_after; [exact H1|]. eapply counted_before; [exact H2|exact H3].
    + unfold u_eq. simpl. rewrite Nat.eqb_refl. apply wp_throw. split; [reflexivity|].
      eapply counted_after; [exact H1|exact H2].
Qed.

Lemma access_counts o c k w : asks o = Some (c, k) -> all_untimed w \/ by_find o = true ->
  wp (body E o) (fun r w' => tells o c k w (Returned r) w') (fun e w' => tells o c k w (Threw e) w') w.
Proof.
  intros A T. destruct o; try discriminate A; injection A as -> ->; simpl body.
  - (* find *) apply wp_bind. eapply wp_mono; [apply find_counts|]. intros it w1 (hit & H1 & A1). cbv beta.
    apply wp_bind. unfold denotes. destruct hit; [destruct A1 as (i & ->)|hnf in A1; subst it].
    + simpl u_eq. cbv iota. unfold u_deref, ui_entry, ui_pos. apply wp_bind. calmly. intros n w2 H2. apply wp_ret. cbv beta.
      apply wp_bind. apply wp_calm; [auto|auto using same_c, e_read_entry|]. intros e w3 H3. apply wp_ret, wp_ret.
      exists true. split; [reflexivity|]. do 2 (eapply counted_before; [|eassumption]). exact H1.
    + unfold u_eq. simpl. rewrite Nat.eqb_refl. apply wp_ret, wp_ret. exists false. split; [reflexivity|exact H1].
  - (* *find *) destruct T as [U|T]; [|discriminate T].
    apply wp_bind. eapply wp_mono; [apply find_counts|]. intros it w1 (hit & H1 & A1). cbv beta.
    apply wp_bind. unfold u_entry. destruct hit; [destruct A1 as (i & ->)|hnf in A1; subst it].
    + unfold ui_entry, ui_pos. calmly. intros n w2 H2.
      apply wp_bind. unfold throw_if_invalid_u. apply wp_bind. apply wp_get_cache. intros x Qx. simpl u_eq. cbv iota.
      rewrite (calm_true H2 (counted_untimed H1 U) Qx). apply wp_ret, wp_ret.
      apply wp_bind. apply wp_calm; [auto|auto using same_c, e_read_entry|]. intros e w3 H3. apply wp_ret.
      exists true. split; [reflexivity|]. do 2 (eapply counted_before; [|eassumption]). exact H1.
    + unfold unordered_end, ui_entry, ui_pos. destruct (lenient_end E); [|apply wp_undef].
      apply wp_bind. unfold throw_if_invalid_u. apply wp_bind. apply wp_get_cache. intros x Qx. unfold u_eq. simpl. rewrite Nat.eqb_refl.
      apply wp_throw. exists false. split; [reflexivity|exact H1].
  - (* contains *) destruct T as [U|T]; [|discriminate T].
    apply wp_bind. unfold contains. calmly. intros [] w1 H1.
    + apply wp_bind. unfold last_accessed_is_ok. apply wp_bind. apply wp_get_cache. intros x Qx.
      rewrite (calm_true H1 U Qx). apply wp_ret. calmly. intros p w2 H2.
      apply wp_bind. eapply wp_mono; [apply hit_counts|]. intros ?u w3 H3. apply wp_ret, wp_ret.
      exists true. split; [reflexivity|]. do 2 (eapply counted_after; [eassumption|]). exact H3.
    + apply wp_bind. eapply wp_mono; [apply find_counts|]. intros it w2 (hit & H2 & A2). cbv beta. apply wp_ret, wp_ret.
      exists hit. split; [|eapply counted_after; [exact H1|exact H2]].
      destruct hit; [destruct A2 as (i & ->); reflexivity|hnf in A2; subst it]. unfold u_eq. simpl. rewrite Nat.eqb_refl. reflexivity.
  - (* lookup *) destruct T as [U|T]; [|discriminate T]. apply wp_bind.
    pose proof (lookup_counts c k U) as L. unfold wp in *. destruct (lookup E c k w) as [p w1|e w1|?|?]; auto.
    + cbv beta in L. assert (X : wp (deref p) (fun _ w' => counted c k true w w') (fun _ _ => False) w1).
      { apply wp_calm; [auto|auto using same_c, e_deref|]. intros a w2 H2. eapply counted_before; [exact L|exact H2]. }
      unfold wp, bind in *. destruct (deref p w1); auto; [|contradiction]. simpl. exists true. split; [reflexivity|exact X].
    + destruct L as (-> & L). exists false. split; [reflexivity|exact L].
  - (* write *) destruct T as [U|T]; [|discriminate T]. apply wp_bind. unfold subscript.
    pose proof (lookup_counts c k U) as L. unfold wp in *. destruct (lookup E c k w) as [p w1|e w1|?|?]; auto.
    + cbv beta in L.
      match goal with |- context [update_node p ?f] => assert (X : wp (update_node p f) (fun _ w' => counted c k true w w') (fun _ _ => False) w1) end.
      { apply wp_calm; [auto|apply c_update_node|]. intros a w2 H2. eapply counted_before; [exact L|exact H2]. }
      unfold wp, bind in *. match goal with |- context [update_node p ?f ?z] => destruct (update_node p f z) end; auto; [|contradiction].
      simpl. exists true. split; [reflexivity|exact X].
    + destruct L as (-> & L). exists false. split; [reflexivity|exact L].
  - (* erase(find) *) apply wp_bind. eapply wp_mono; [apply find_counts|]. intros it w1 (hit & H1 & A1). cbv beta.
    apply wp_bind. unfold erase_u. destruct hit; [destruct A1 as (i & ->)|hnf in A1; subst it].
    + change (u_eq (MkU c (UAt i) None) (unordered_end c)) with false. cbv iota. unfold ui_pos. apply wp_calm; [auto|apply c_erase_it|]. intros a w2 H2. apply wp_ret.
      exists true. split; [reflexivity|]. eapply counted_before; [exact H1|exact H2].
    + unfold u_eq. simpl. rewrite Nat.eqb_refl. apply wp_throw. exists false. split; [reflexivity|exact H1].
Qed.
End TallyProofs.
