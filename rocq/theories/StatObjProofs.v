(** Statistics objects that a client holds: proofs. *)
From Coq Require Import List Arith ZArith Bool Permutation Lia.
Import ListNotations.
From Verif Require Import Monad Types Model Api Spec SpecStats StatObj SpecStatObj Ref Lists SimBase SimRel SimOps SimIns SimErase SimIter SimNew SimObs SimExec RefEval SimRun LruProofs CallProofs LruMore Flat Global Safe Frame StatProofs StatMore.
Set Implicit Arguments.
Unset Strict Implicit.
Local Open Scope cpp_scope.

Section StatObjProofs.
Context {K V : Type}.
Variable E : env K V.
Hypothesis G : good E.

Notation acache := (acache K V).
Notation aworld := (aworld K V).
Notation world := (world K V).
Notation qstate := (qstate K V).
Notation sheet := (@sheet K).
Implicit Types (a : acache) (aw : aworld) (w : world) (o : op K V) (L : @ledger K) (T : sheet) (st : qstate).

(** ** What calls leave alone *)
Lemma counted_keeps i (f : statistics K -> statistics K) t s : slot t s <> None ->
  slot (counted i f t) s <> None.
Proof.
  intros H. unfold counted. destruct i as [i|]; auto. destruct (slot t i) as [x|] eqn:Hx; auto.
  destruct (Nat.eq_dec i s) as [->|N]; [erewrite slot_upd_same by eauto; discriminate|rewrite slot_upd_other; auto].
Qed.
Lemma upd_keeps {A} (l : list (option A)) i x s : slot l s <> None -> slot (upd l i (Some x)) s <> None.
Proof.
  intros H. destruct (Nat.eq_dec i s) as [->|N]; [|rewrite slot_upd_other; auto].
  destruct (slot l s) eqn:Q; [|easy]. erewrite slot_upd_same by eauto. discriminate.
Qed.
Lemma app_keeps {A} (l l' : list (option A)) s : slot l s <> None -> slot (l ++ l') s <> None.
Proof.
  intros H. destruct (slot l s) eqn:Q; [|easy]. rewrite slot_app_lt by (eapply slot_lt; eauto). congruence.
Qed.
Definition grows aw aw' : Prop :=
  (forall s, slot (aw_stats aw) s <> None -> slot (aw_stats aw') s <> None) /\
  (forall c, c < length (aw_caches aw) -> slot (aw_caches aw') c <> None -> slot (aw_caches aw) c <> None).
Lemma grows_refl aw : grows aw aw.
Proof. split; auto. Qed.
Lemma grows_awith aw c a b : slot (aw_caches aw) c = Some b -> grows aw (awith c a aw).
Proof.
  intros H. split; simpl; auto. intros d _. destruct (Nat.eq_dec c d) as [->|N]; [congruence|].
  rewrite slot_upd_other by auto. auto.
Qed.
Lemma grows_trans aw aw1 aw2 : grows aw aw1 -> length (aw_caches aw) <= length (aw_caches aw1) -> grows aw1 aw2 -> grows aw aw2.
Proof. intros (A & B) Le (C & D). split; auto. intros c Hc H. apply B; auto. apply D; auto. lia. Qed.
Lemma grows_anew aw a m : grows aw (anew a m aw).
Proof. split; simpl; auto. intros c Hc. rewrite slot_app_lt by auto. auto. Qed.

Lemma astep_grows ch o aw aw' :
  match astep E ch o aw with Val _ w | Exc _ w => w = aw' | _ => False end -> grows aw aw'.
Proof.
  unfold astep. destruct (a_well_formed aw o) eqn:WF; cbn [negb]; [|intros <-; apply grows_refl].
  destruct (target o) as [c|] eqn:T.
  { unfold two. destruct (slot (aw_caches aw) c) as [a|] eqn:Ha; [|intros <-; apply grows_refl].
    destruct (local E ch o a (aw_reads aw)) as (((r & a') & x) & m). simpl.
    intros H. assert (X : aw' = awith c a' (noted E a x (ticks m aw))) by (destruct r; simpl in *; auto; easy).
    subst. split; simpl.
    - intros s. destruct x; simpl; auto; apply counted_keeps.
    - rewrite noted_caches. simpl. intros d _. destruct (Nat.eq_dec c d) as [->|N]; [congruence|].
      rewrite slot_upd_other by auto. auto. }
  destruct (stats_target o) as [c|] eqn:ST.
  { unfold two. destruct (slot (aw_caches aw) c) as [a|] eqn:Ha; [|intros <-; apply grows_refl].
    destruct (a_stats a) as [s|]; [|intros <-; apply grows_refl].
    destruct (slot (aw_stats aw) s) as [x|] eqn:Hx; [|easy].
    destruct (on_stats E o x) as (r & x'). destruct r; simpl; intros H; try easy; subst aw';
      (split; simpl; auto; intros; apply upd_keeps; auto). }
  destruct (building o) as [((cap & ttl) & l)|] eqn:B.
  { destruct (l_inserts E l 0 (fresh_a cap ttl) (aw_reads aw)) as ((cnt & a') & n').
    intros <-. apply grows_anew. }
  destruct o; try discriminate; unfold two.
  - intros <-; apply grows_refl.
  - destruct (slot (aw_caches aw) c) as [a|] eqn:Ha; [|intros <-; apply grows_refl].
    destruct (junk E); [|easy]. intros <-. eapply grows_trans; [eapply grows_awith; eauto| |apply grows_anew].
    simpl. rewrite upd_length. auto.
  - intros <-. split; simpl; auto. intros d _. destruct (Nat.eq_dec c d) as [->|N].
    + destruct (Nat.lt_ge_cases d (length (aw_caches aw))).
      * rewrite slot_upd_lt by auto. easy.
      * intros X. exfalso. apply X. apply slot_overflow. rewrite upd_length. auto.
    + rewrite slot_upd_other by auto. auto.
  - intros <-; apply grows_refl.
  - destruct (slot (aw_caches aw) c) as [a|] eqn:Ha; [|intros <-; apply grows_refl].
    destruct (slot (aw_caches aw) d) as [b|] eqn:Hb; [|intros <-; apply grows_refl].
    destruct (Nat.eqb_spec c d); intros <-; [apply grows_refl|]. unfold pair_put.
    eapply grows_trans; [eapply grows_awith; exact Ha| |eapply grows_awith].
    + simpl. rewrite upd_length. auto.
    + simpl. rewrite slot_upd_other by auto. eauto.
  - destruct (slot (aw_caches aw) c) as [a|] eqn:Ha; [|intros <-; apply grows_refl].
    destruct (slot (aw_caches aw) d) as [b|] eqn:Hb; [|intros <-; apply grows_refl].
    destruct (Nat.eqb_spec c d); intros <-; [apply grows_refl|]. unfold pair_put.
    eapply grows_trans; [eapply grows_awith; exact Ha| |eapply grows_awith].
    + simpl. rewrite upd_length. auto.
    + simpl. rewrite slot_upd_other by auto. eauto.
  - destruct (slot (aw_caches aw) c) as [a|] eqn:Ha; [|intros <-; apply grows_refl].
    destruct (slot (aw_caches aw) d) as [b|] eqn:Hb; intros <-; apply grows_refl.
  - destruct (slot (aw_caches aw) c) as [a|] eqn:Ha; intros <-; [|apply grows_refl].
    split; simpl; [intros; apply app_keeps; auto|].
    intros d _. destruct (Nat.eq_dec c d) as [->|N]; [congruence|]. rewrite slot_upd_other by auto. auto.
Qed.

Lemma call_step2 o w aw oc w' L : rel E w aw -> copy_free o = true -> call E o w oc w' -> linv L aw ->
  exists aw', rel E w' aw' /\ linv (note_call o oc L) aw' /\ grows aw aw' /\
  (eqop_good E -> binv E L aw -> all_untimed aw \/ by_find o = true -> binv E (note_call o oc L) aw') /\
  (all_untimed aw -> untimed o = true -> all_untimed aw').
Proof.
  intros R CF C I. destruct (exec_step G R CF) as (ch & S).
  assert (X : exists oc' aw', outcome_in (astep E ch o aw) = Some oc' /\
     match astep E ch o aw with Val _ w | Exc _ w => w = aw' | _ => False end /\ rel E w' aw' /\
     note_call o oc L = note_call o oc' L).
  { unfold call in C. destruct oc as [r|e]; rewrite C in S; destruct (astep E ch o aw) as [r'|e'| |]; simpl in S; try easy.
    - destruct S as (S1 & S2). do 2 eexists. split; [reflexivity|]. split; [reflexivity|]. split; [exact S1|]. apply note_call_rel; auto.
    - destruct S as (S1 & S2). subst e'. do 2 eexists. split; [reflexivity|]. split; [reflexivity|]. split; [exact S2|]. reflexivity. }
  destruct X as (oc' & aw' & X1 & X2 & X3 & X4). exists aw'. rewrite X4. split; auto. split; [|split; [|split]].
  - eapply linv_step; eauto.
  - eapply astep_grows; eauto.
  - intros. eapply binv_step; eauto using rel_all_cinv, rel_st_ok.
  - intros. eapply untimed_step; eauto.
Qed.

(** ** The invariant *)
Definition shown (x : nat * K * bool) : option (nat * K) := if snd x then Some (fst x) else None.
Record qinv T st aw : Prop := {
  qi_rel : rel E (q_world st) aw;
  qi_l : linv (t_led T) aw;
  qi_p : t_ptrs T = q_ptrs st;
  qi_r : t_refs T = q_refs st;
  qi_k : map shown (t_keys T) = q_keys st;
  qi_ps : forall s, In (Some s) (t_ptrs T) -> slot (aw_stats aw) s <> None;
  qi_rs : forall s, In s (t_refs T) -> slot (aw_stats aw) s <> None;
  qi_ks : forall s k b, In (s, k, b) (t_keys T) -> slot (aw_stats aw) s <> None;
  qi_as : forall c s, attached (t_led T) c = Some s -> slot (aw_stats aw) s <> None
}.
(** What holds of the numbers. *)
Definition qnum T aw : Prop := binv E (t_led T) aw /\
  forall s k, In (s, k, true) (t_keys T) -> key_count E k (books (t_led T) s) <> None.

(** ** Calls on caches *)
Definition keeps_keys (e : @bevent K) : Prop :=
  match e with BUnmonitor _ | BUnmonitorAll => False | _ => True end.
Lemma count_cons k e b : keeps_keys e -> key_count E k b <> None -> key_count E k (e :: b) <> None.
Proof.
  intros Ke H. destruct (key_count E k b) as [x|] eqn:Q; [|easy]. destruct e; simpl in *; try easy; rewrite Q; simpl; try easy.
  - destruct (key_eqop E k k0); easy.
  - destruct (key_eqop E k k0); easy.
Qed.
Lemma record_keys c e L s k : keeps_keys e -> key_count E k (books L s) <> None ->
  key_count E k (books (record c e L) s) <> None.
Proof.
  intros Ke H. unfold record. destruct (attached L c) as [i|]; auto. simpl.
  destruct (Nat.eq_dec i s) as [->|N]; [rewrite fset_same; apply count_cons; auto|rewrite fset_other; auto].
Qed.
Lemma note_keys o r L s k : plain_call o = true ->
  (forall c ks, o = MonitorNew c ks -> r <> Returned (RNat s)) ->
  key_count E k (books L s) <> None -> key_count E k (books (note_call o r L) s) <> None.
Proof.
  intros P N H. unfold note_call. destruct (access_of o r) as [((c & j) & hit)|]; [apply record_keys; simpl; auto|].
  destruct o; try discriminate; auto; destruct r as [[]|]; auto; try (apply record_keys; simpl; auto; fail).
  simpl. rewrite fset_other; auto. intros ->. eapply N; reflexivity.
Qed.
Lemma note_attached o r L c s : plain_call o = true -> attached (note_call o r L) c = Some s ->
  attached L c = Some s \/ (exists ks, o = MonitorNew c ks) /\ r = Returned (RNat s).
Proof.
  intros P. unfold note_call. destruct (access_of o r) as [((d & j) & hit)|]; [rewrite record_attached; auto|].
  destruct o; try discriminate; auto; destruct r as [[]|]; auto; rewrite ?record_attached; auto; simpl.
  - unfold fset. destruct (Nat.eqb_spec c0 c) as [->|]; auto. intros Q; inversion Q; subst. right. eauto.
  - unfold fset. destruct (Nat.eqb_spec c0 c) as [->|]; auto. discriminate.
Qed.
Lemma monitor_new_fresh c ks w s w' : exec E (MonitorNew c ks) w = Val (RNat s) w' ->
  s = length (w_stats w) /\ slot (w_stats w') s <> None.
Proof.
  unfold exec. cbn [well_formed body]. destruct (alive w c) eqn:A; [|discriminate].
  unfold alive in A. destruct (slot (w_caches w) c) as [x|] eqn:X; [|discriminate].
  unfold monitor_new, set_stats, bind. unfold get_cache at 1. rewrite X. unfold alloc_stats.
  unfold get_cache. change (w_caches (with_stats _ w)) with (w_caches w). rewrite X.
  intros H; inversion H; subst. split; auto. simpl. rewrite slot_app_new. discriminate.
Qed.
Lemma plug_step c x w aw L : rel E w aw -> linv L aw -> alive w c = true ->
  (forall s, x = Some s -> slot (aw_stats aw) s <> None) ->
  exists w' aw', exec E (match x with Some s => MonitorShared c s | None => StopMonitoring c end) w = Val RUnit w' /\
    rel E w' aw' /\ linv (attach c x L) aw' /\ grows aw aw' /\ aw_stats aw' = aw_stats aw /\
    (forall d, alive w' d = alive w d) /\
    (eqop_good E -> binv E L aw -> binv E (attach c x L) aw') /\ (all_untimed aw -> all_untimed aw').
Proof.
  intros R I A X. set (o := match x with Some s => MonitorShared c s | None => StopMonitoring c end : op K V).
  assert (A' := A). unfold alive in A'. destruct (slot (w_caches w) c) as [y|] eqn:Hy; [|discriminate].
  set (w1 := with_caches (fun l => upd l c (Some (MkCache (c_rid y) (c_last y) (c_cap y) x (c_cbs y) (c_ttl y)))) w).
  assert (Ex : exec E o w = Val RUnit w1).
  { unfold exec, o. destruct x as [s|]; cbn [well_formed]; rewrite A; cbn [andb].
    - specialize (X s eq_refl). rewrite <- (rel_stats R) in X.
      destruct (slot (w_stats w) s) as [z|] eqn:Z; [|easy]. unfold stats_alive. rewrite Z.
      cbn [body]. unfold monitor_shared, set_stats, get_stats, get_cache, bind. rewrite Z, Hy. reflexivity.
    - cbn [body]. unfold stop_monitoring, set_stats, get_cache, bind. rewrite Hy. reflexivity. }
  assert (Cf : copy_free o = true) by (unfold o; destruct x; reflexivity).
  destruct (call_step2 (oc := Returned RUnit) R Cf Ex I) as (aw' & R' & I' & Gr & B & U).
  exists w1, aw'. split; [exact Ex|]. split; [exact R'|]. split.
  { revert I'. unfold o. destruct x; auto. }
  split; [exact Gr|]. split; [rewrite <- (rel_stats R'), <- (rel_stats R); reflexivity|].
  split.
  { intros d. unfold alive, w1; simpl. destruct (Nat.eq_dec c d) as [->|N].
    - erewrite slot_upd_same by eauto. rewrite Hy. auto.
    - rewrite slot_upd_other by auto. auto. }
  split.
  - intros Q B0. specialize (B Q B0). unfold o in B. destruct x; apply B; auto.
  - intros U0. apply U; auto. unfold o; destruct x; reflexivity.
Qed.

(** ** Handles *)
Lemma alive_attached T st aw c : qinv T st aw -> alive (q_world st) c = true ->
  exists x, slot (w_caches (q_world st)) c = Some x /\ c_stats x = monitors T c.
Proof.
  intros I A. destruct (alive_inv (qi_rel I) A) as (a & Ha).
  destruct (rel_get _ (qi_rel I) Ha) as (x & s & l & At & Rp). exists x. split; [apply At|].
  rewrite (rp_stats Rp). unfold monitors. destruct (proj1 (qi_l I) _ _ Ha) as (-> & _). auto.
Qed.
Lemma owned_iff T st aw s : qinv T st aw -> owned st s = true <-> has_owner T (q_world st) s.
Proof.
  intros I. unfold owned, has_owner, ptr. rewrite (qi_p I). rewrite orb_true_iff, !existsb_exists. split.
  - intros [(x & Hx & Q)|(x & Hx & Q)].
    + left. destruct x as [i|]; [|discriminate]. apply Nat.eqb_eq in Q as <-.
      destruct (In_nth _ _ None Hx) as (p & _ & Hp). eauto.
    + right. destruct x as [y|]; [|discriminate]. destruct (In_nth _ _ None Hx) as (c & _ & Hc).
      assert (A : alive (q_world st) c = true) by (unfold alive, slot; rewrite Hc; auto).
      exists c. split; auto. destruct (alive_attached I A) as (x & Hs & <-).
      unfold slot in Hs. rewrite Hc in Hs. inversion Hs; subst.
      destruct (c_stats x) as [i|]; [|discriminate]. apply Nat.eqb_eq in Q as <-. auto.
  - intros [(p & Hp)|(c & A & M)].
    + left. exists (Some s). split; [|apply Nat.eqb_refl]. rewrite <- Hp. apply nth_In.
      destruct (Nat.lt_ge_cases p (length (q_ptrs st))); auto. rewrite nth_overflow in Hp by auto. discriminate.
    + right. destruct (alive_attached I A) as (x & Hs & Hx). exists (Some x). split.
      * rewrite <- Hs. unfold slot. apply nth_In. eapply slot_lt; eauto.
      * rewrite Hx, M. apply Nat.eqb_refl.
Qed.
Lemma object_ev T st aw h : qinv T st aw -> has_handle st h = true ->
  object h st = match named T h with
                | Some s => if owned st s then Val s st else Undef DanglingReference
                | None => match h with HCache _ => Exc NotMonitoring st | _ => Undef NullPointer end
                end /\
  (named T h = None -> match h with HRef _ => False | _ => True end).
Proof.
  intros I H. destruct h as [c|p|r]; simpl in H |- *.
  - split; auto. destruct (alive_attached I H) as (x & Hs & Hx).
    unfold in_world, stats, get_cache, bind. rewrite Hs, Hx. destruct (monitors T c) as [s|] eqn:M.
    + assert (O : owned st s = true) by (apply (owned_iff s I); right; eauto). rewrite O. destruct st; auto.
    + destruct st; auto.
  - split; auto. unfold bind, gets. rewrite <- (qi_p I). fold (ptr T p). destruct (ptr T p) as [s|] eqn:P; auto.
    assert (O : owned st s = true) by (apply (owned_iff s I); left; eauto). rewrite O. auto.
  - apply Nat.ltb_lt in H. rewrite (qi_r I). destruct (nth_error (q_refs st) r) as [s|] eqn:Nr.
    + split; [|discriminate]. unfold bind, gets. rewrite (nth_error_nth _ _ _ Nr). reflexivity.
    + apply nth_error_None in Nr. lia.
Qed.
Lemma named_slot T st aw h s : qinv T st aw -> named T h = Some s -> slot (aw_stats aw) s <> None.
Proof.
  intros I. destruct h as [c|p|r]; simpl; intros H.
  - eapply (qi_as I); eauto.
  - apply (qi_ps I). unfold ptr in H. rewrite <- H. apply nth_In.
    destruct (Nat.lt_ge_cases p (length (t_ptrs T))); auto. rewrite nth_overflow in H by auto. discriminate.
  - apply (qi_rs I). eapply nth_error_In; eauto.
Qed.
Lemma got T st aw s x : qinv T st aw -> slot (aw_stats aw) s = Some x ->
  in_world (get_stats s) st = Val x st.
Proof.
  intros I H. unfold in_world, get_stats. rewrite (rel_stats (qi_rel I)), H. destruct st; auto.
Qed.

(** ** Changes of objects *)
Lemma with_same s x w : slot (w_stats w) s = Some x -> with_stats (fun l => upd l s (Some x)) w = w.
Proof. intros H. unfold with_stats. rewrite upd_slot by auto. destruct w; auto. Qed.
Lemma shown_forget s g (l : list (nat * K * bool)) :
  map shown (map (fun x => (fst x, snd x && negb (Nat.eqb (fst (fst x)) s && g (snd (fst x))))) l) =
  forget s g (map shown l).
Proof.
  unfold forget. rewrite !map_map. apply map_ext. intros ((i & k) & b). unfold shown; simpl.
  destruct b; simpl; auto. rewrite (Nat.eqb_sym s i). destruct (Nat.eqb i s && g k); auto.
Qed.
Lemma shown_follow s s' (l : list (nat * K * bool)) :
  map shown (map (fun x => ((if Nat.eqb (fst (fst x)) s then s' else fst (fst x), snd (fst x)), snd x)) l) =
  follow s s' (map shown l).
Proof.
  unfold follow. rewrite !map_map. apply map_ext. intros ((i & k) & b). unfold shown; simpl.
  destruct b; simpl; auto. rewrite (Nat.eqb_sym s i). destruct (Nat.eqb i s); auto.
Qed.
Lemma forget_none s (l : list (option (nat * K))) : forget s (fun _ => false) l = l.
Proof.
  unfold forget. rewrite <- (map_id l) at 2. apply map_ext. intros [(i & k)|]; auto. rewrite andb_false_r. auto.
Qed.
Definition with_book L s b : ledger := MkLedger (attached L) (subs L) (fset (books L) s b).

Lemma qinv_write T st aw s x x' b kT kM : qinv T st aw -> slot (aw_stats aw) s = Some x ->
  map shown kT = kM -> (forall i k b, In (i, k, b) kT -> slot (aw_stats aw) i <> None) ->
  qinv (MkSheet (with_book (t_led T) s b) (t_ptrs T) (t_refs T) kT)
       (MkQ (with_stats (fun l => upd l s (Some x')) (q_world st)) (q_ptrs st) (q_refs st) kM)
       (wstats s x' aw).
Proof.
  intros I Hs Hk Hi. assert (R := put_stats_rel s x' (qi_rel I)).
  unfold put_stats, a_putstats, modify in R; simpl in R. destruct R as (R & _).
  constructor; simpl; auto.
  - exact (qi_l I).
  - exact (qi_p I).
  - exact (qi_r I).
  - intros; apply upd_keeps; apply (qi_ps I); auto.
  - intros; apply upd_keeps; apply (qi_rs I); auto.
  - intros; apply upd_keeps; eauto.
  - intros; apply upd_keeps; eapply (qi_as I); eauto.
Qed.
Lemma qnum_write T aw s x x' b kT : qnum T aw -> slot (aw_stats aw) s = Some x ->
  matches E b x' ->
  (forall i k, In (i, k, true) kT -> if Nat.eqb i s then key_count E k b <> None else In (i, k, true) (t_keys T)) ->
  qnum (MkSheet (with_book (t_led T) s b) (t_ptrs T) (t_refs T) kT) (wstats s x' aw).
Proof.
  intros (B & N) Hs M Hk. split.
  - intros i y. simpl. destruct (Nat.eq_dec s i) as [->|D].
    + erewrite slot_upd_same, fset_same by eauto. intros Q; inversion Q; subst; auto.
    + rewrite slot_upd_other, fset_other by auto. apply B.
  - simpl. intros i k Hi. specialize (Hk _ _ Hi). destruct (Nat.eqb_spec i s) as [->|D].
    + rewrite fset_same. auto.
    + rewrite fset_other by auto. apply N; auto.
Qed.

Definition add_stats x aw : aworld := MkAW (aw_caches aw) (aw_stats aw ++ [Some x]) (aw_log aw) (aw_reads aw).
Lemma qinv_alloc T st aw x b : qinv T st aw ->
  let n := length (w_stats (q_world st)) in
  qinv (MkSheet (with_book (t_led T) n b) (t_ptrs T ++ [Some n]) (t_refs T) (t_keys T))
       (MkQ (with_stats (fun l => l ++ [Some x]) (q_world st)) (q_ptrs st ++ [Some n]) (q_refs st) (q_keys st))
       (add_stats x aw).
Proof.
  intros I n. assert (R := new_stats_rel x (qi_rel I)). unfold alloc_stats, a_newstats in R; simpl in R.
  destruct R as (R & _).
  assert (N : n = length (aw_stats aw)) by (unfold n; rewrite (rel_stats (qi_rel I)); auto).
  constructor; simpl; auto.
  - exact (qi_l I).
  - rewrite (qi_p I). auto.
  - exact (qi_r I).
  - exact (qi_k I).
  - intros s Hs. apply in_app_iff in Hs as [Hs|[Hs|[]]].
    + apply app_keeps. apply (qi_ps I); auto.
    + inversion Hs; subst s. rewrite N, slot_app_new. discriminate.
  - intros; apply app_keeps; apply (qi_rs I); auto.
  - intros; apply app_keeps; eapply (qi_ks I); eauto.
  - intros; apply app_keeps; eapply (qi_as I); eauto.
Qed.
Lemma qnum_alloc T st aw x b : qinv T st aw -> qnum T aw -> matches E b x ->
  let n := length (w_stats (q_world st)) in
  qnum (MkSheet (with_book (t_led T) n b) (t_ptrs T ++ [Some n]) (t_refs T) (t_keys T)) (add_stats x aw).
Proof.
  intros I (B & N) M n. assert (Q : n = length (aw_stats aw)) by (unfold n; rewrite (rel_stats (qi_rel I)); auto).
  split.
  - intros i y. simpl. destruct (Nat.lt_ge_cases i n) as [D|D].
    + rewrite slot_app_lt, fset_other by lia. apply B.
    + destruct (Nat.eq_dec i n) as [->|D'].
      * rewrite fset_same, Q, slot_app_new. intros X; inversion X; subst; auto.
      * intros X. apply slot_lt in X. rewrite app_length in X. simpl in X. lia.
  - simpl. intros i k Hi. rewrite fset_other; [apply N; auto|].
    intros ->. apply (qi_ks I) in Hi. rewrite slot_overflow in Hi by (rewrite Q; lia). easy.
Qed.
Lemma untimed_stats aw aw' : all_untimed aw -> aw_caches aw' = aw_caches aw -> all_untimed aw'.
Proof. unfold all_untimed. intros H ->. auto. Qed.

Lemma act_matches (Q : eqop_good E) (a : act K) x r x' b : act_on E a x = Some (r, x') -> matches E b x ->
  matches E (match event_of a with Some e => e :: b | None => b end) x'.
Proof.
  intros H M. destruct a; simpl in H |- *; try (inversion H; subst; auto; fail).
  - destruct (stats_for E x k); inversion H; subst; auto.
  - inversion H; subst. apply matches_monitor; auto.
  - destruct (stats_unmonitor E k x) as [y|] eqn:Y; inversion H; subst. eapply matches_unmonitor; eauto.
  - inversion H; subst. apply matches_unmonitor_all; auto.
  - destruct (stats_reset_key E k x) as [y|] eqn:Y; inversion H; subst. eapply matches_reset; eauto.
Qed.
Lemma act_same (a : act K) x r x' : act_on E a x = Some (r, x') -> event_of a = None -> x' = x.
Proof.
  intros H N. destruct a; try discriminate; simpl in H; try (inversion H; subst; auto; fail).
  destruct (stats_for E x k); inversion H; subst; auto.
Qed.
Lemma stops_gone (a : act K) k : gone_by E a k = stops E a k.
Proof. reflexivity. Qed.
Lemma event_keeps (a : act K) e b k : event_of a = Some e -> stops E a k = false -> key_count E k b <> None ->
  key_count E k (e :: b) <> None.
Proof.
  intros H S N. destruct a; inversion H; subst; simpl in S; try discriminate; try (apply count_cons; simpl; auto; fail).
  simpl. rewrite S. auto.
Qed.
Lemma upd_split {A} (l : list A) p x : p < length l -> upd l p x = firstn p l ++ [x] ++ skipn (S p) l.
Proof.
  revert p; induction l as [|y l IH]; intros [|p] H; simpl in *; try lia; auto. f_equal. rewrite IH by lia. auto.
Qed.

(** ** Steps *)
Definition q_ends q st (r : qend K V) st' : Prop :=
  q_step E q st = match r with QRet x => Val x st' | QThrew e => Exc e st' end.
Definition q_copy_free (q : qop K V) : bool := match q with QCall o => copy_free o | _ => true end.
Definition q_by_find (q : qop K V) : bool := match q with QCall o => by_find o | _ => true end.
Definition q_untimed (q : qop K V) : bool := match q with QCall o => untimed o | _ => true end.
Record advance q T st aw T' st' aw' : Prop := {
  ad_inv : qinv T' st' aw';
  ad_num : eqop_good E -> qnum T aw -> all_untimed aw \/ q_by_find q = true -> qnum T' aw';
  ad_unt : all_untimed aw -> q_untimed q = true -> all_untimed aw';
  ad_slot : forall s, slot (aw_stats aw) s <> None -> slot (aw_stats aw') s <> None;
  ad_own : forall s, slot (aw_stats aw) s <> None -> has_owner T' (q_world st') s -> has_owner T (q_world st) s
}.
Lemma advance_refl q T st aw : qinv T st aw -> advance q T st aw T st aw.
Proof. constructor; auto. Qed.

Lemma nth_snoc {A} (l : list (option A)) x p s : nth p (l ++ [x]) None = Some s -> nth p l None = Some s \/ x = Some s.
Proof.
  destruct (Nat.lt_ge_cases p (length l)) as [H|H]; [rewrite app_nth1 by auto; auto|].
  rewrite app_nth2 by auto. destruct (p - length l) as [|[|n]]; simpl; auto; discriminate.
Qed.
Lemma nth_cleared {A} (l : list (option A)) p i s : nth i (upd l p None) None = Some s -> nth i l None = Some s.
Proof.
  destruct (Nat.eq_dec p i) as [->|N]; [|rewrite nth_upd_other; auto].
  destruct (Nat.lt_ge_cases i (length l)).
  - rewrite nth_upd_same by auto. discriminate.
  - rewrite nth_overflow by (rewrite upd_length; auto). discriminate.
Qed.
Lemma in_cleared {A} (l : list (option A)) p s : In (Some s) (upd l p None) -> In (Some s) l.
Proof.
  intros H. destruct (In_nth _ _ None H) as (i & _ & Hi). apply nth_cleared in Hi. rewrite <- Hi. apply nth_In.
  destruct (Nat.lt_ge_cases i (length l)); auto. rewrite nth_overflow in Hi by auto. discriminate.
Qed.

Lemma qinv_plug T st aw c x : qinv T st aw -> alive (q_world st) c = true ->
  (forall s, x = Some s -> slot (aw_stats aw) s <> None) ->
  exists w' aw', plug E c x st = Val RUnit (MkQ w' (q_ptrs st) (q_refs st) (q_keys st)) /\
    qinv (on_ledger (attach c x) T) (MkQ w' (q_ptrs st) (q_refs st) (q_keys st)) aw' /\
    (eqop_good E -> qnum T aw -> qnum (on_ledger (attach c x) T) aw') /\
    (all_untimed aw -> all_untimed aw') /\ aw_stats aw' = aw_stats aw /\
    (forall d, alive w' d = alive (q_world st) d).
Proof.
  intros I A X. destruct (plug_step (qi_rel I) (qi_l I) A X) as (w' & aw' & Ex & R & L' & Gr & Sm & Al & B & U).
  exists w', aw'. split; [unfold plug, in_world; rewrite Ex; auto|]. split.
  { constructor; simpl; rewrite ?Sm; try apply I; auto.
    intros d s. unfold fset. destruct (Nat.eqb_spec c d); [apply X|apply (qi_as I)]. }
  split; [|auto]. intros Q (B0 & N). split; auto.
Qed.
Lemma shared_ev T st aw c : qinv T st aw -> alive (q_world st) c = true ->
  shared c st = Val (monitors T c) st.
Proof.
  intros I A. destruct (alive_attached I A) as (x & Hs & <-).
  unfold shared, in_world, get_cache, bind. rewrite Hs. destruct st; auto.
Qed.
Lemma ptr_slot T st aw p s : qinv T st aw -> ptr T p = Some s -> slot (aw_stats aw) s <> None.
Proof. intros I. apply (named_slot (h := HPtr p) I). Qed.

Lemma step_call o st r st' T aw : qinv T st aw -> copy_free o = true -> q_formed st (QCall o) = true ->
  q_ends (QCall o) st r st' -> exists aw', advance (QCall o) T st aw (note_step E (QCall o) r T) st' aw'.
Proof.
  intros I CF WF H.
  assert (X : exists oc w', call E o (q_world st) oc w' /\ st' = MkQ w' (q_ptrs st) (q_refs st) (q_keys st) /\
              note_step E (QCall o) r T = on_ledger (note_call o oc) T).
  { unfold q_ends, q_step in H. rewrite WF in H. cbn [q_body] in H. unfold bind, in_world in H.
    destruct r as [x|e]; destruct (exec E o (q_world st)) as [y w'|e' w'| |] eqn:Ex; inversion H; subst.
    - exists (Returned y), w'. split; [exact Ex|]. auto.
    - exists (Threw e), w'. split; [exact Ex|]. auto. }
  destruct X as (oc & w' & C & -> & ->). simpl in WF.
  destruct (call_step2 (qi_rel I) CF C (qi_l I)) as (aw' & R & L' & Gr & B & U). destruct Gr as (G1 & G2).
  assert (FR : forall c ks s, o = MonitorNew c ks -> oc = Returned (RNat s) ->
            s = length (aw_stats aw) /\ slot (aw_stats aw') s <> None).
  { intros c ks s -> ->. unfold call in C. destruct (monitor_new_fresh C) as (S1 & S2).
    rewrite <- (rel_stats R), <- (rel_stats (qi_rel I)). auto. }
  exists aw'. constructor; auto.
  - constructor; simpl; try apply I; auto.
    + intros s Hs. apply G1. apply (qi_ps I); auto.
    + intros s Hs. apply G1. apply (qi_rs I); auto.
    + intros s k b Hs. apply G1. eapply (qi_ks I); eauto.
    + intros c s Hs. apply note_attached in Hs as [Hs|((ks & Ho) & Hr)]; auto.
      * apply G1. eapply (qi_as I); eauto.
      * eapply FR; eauto.
  - intros Q (B0 & N) D. split; [simpl; auto|]. simpl. intros s k Hs. apply note_keys; auto.
    intros c ks Ho Hr. destruct (FR _ _ _ Ho Hr) as (Fs & _). apply (qi_ks I) in Hs.
    rewrite slot_overflow in Hs by lia. easy.
  - intros s Hs. simpl. intros [(p & Hp)|(c & A & M)]; [left; exists p; exact Hp|].
    unfold monitors in M; simpl in M. apply note_attached in M as [M|((ks & Ho) & Hr)]; auto.
    + right. exists c. split; auto.
      destruct (Nat.lt_ge_cases c (length (aw_caches aw))) as [Hc|Hc].
      * destruct (alive_inv R A) as (a' & Ha'). rewrite (rel_alive _ (qi_rel I)).
        destruct (slot (aw_caches aw) c) as [a|] eqn:Ha; [eapply slot_alive; eauto|].
        exfalso. eapply G2; eauto. congruence.
      * destruct (proj2 (qi_l I) c Hc) as (X & _). congruence.
    + destruct (FR _ _ _ Ho Hr) as (Fs & _). rewrite slot_overflow in Hs by lia. easy.
Qed.

Lemma advance_ptr q T st aw x : qinv T st aw ->
  (forall s, x = Some s -> has_owner T (q_world st) s /\ slot (aw_stats aw) s <> None) ->
  advance q T st aw (add_ptr x T) (MkQ (q_world st) (q_ptrs st ++ [x]) (q_refs st) (q_keys st)) aw.
Proof.
  intros I X. constructor; auto.
  - constructor; simpl; try apply I.
    + rewrite (qi_p I); auto.
    + intros s Hs. apply in_app_iff in Hs as [Hs|[Hs|[]]]; [apply (qi_ps I); auto|]. apply X; auto.
  - intros s Hs [(p & Hp)|O]; [|right; exact O]. apply nth_snoc in Hp as [Hp|Hp]; [left; eauto|]. apply X; auto.
Qed.
Lemma advance_null q T st aw p : qinv T st aw -> p < length (q_ptrs st) ->
  advance q T st aw (null_ptr p T) (MkQ (q_world st) (upd (q_ptrs st) p None) (q_refs st) (q_keys st)) aw.
Proof.
  intros I Hp. assert (Q : firstn p (t_ptrs T) ++ [None] ++ skipn (S p) (t_ptrs T) = upd (q_ptrs st) p None).
  { rewrite <- (qi_p I), upd_split; auto. rewrite (qi_p I); auto. }
  constructor; auto.
  - constructor; unfold null_ptr, on_ptrs; cbn [t_led t_ptrs t_refs t_keys]; try apply I; auto.
    rewrite Q. intros s Hs. apply in_cleared in Hs. apply (qi_ps I). rewrite (qi_p I). auto.
  - intros s Hs [(i & Hi)|O]; [|right; exact O]. left. exists i. unfold ptr in *.
    unfold null_ptr, on_ptrs in Hi; cbn [t_ptrs] in Hi. rewrite Q in Hi. apply nth_cleared in Hi. rewrite (qi_p I). auto.
Qed.
Lemma attach_owner T T' w w' c x s : t_ptrs T' = t_ptrs T -> attached (t_led T') = fset (attached (t_led T)) c x ->
  (forall d, alive w' d = alive w d) -> (x = Some s -> has_owner T w s) ->
  has_owner T' w' s -> has_owner T w s.
Proof.
  intros P A W X [(p & Hp)|(d & D & M)].
  - left. exists p. unfold ptr in *. rewrite P in Hp. auto.
  - unfold monitors in M. rewrite A in M. unfold fset in M. destruct (Nat.eqb c d); auto.
    right. exists d. rewrite W in D. auto.
Qed.

Ltac formed H := unfold q_ends, q_step in H.

Lemma step_attach c p st r st' T aw (give : bool) : qinv T st aw ->
  alive (q_world st) c = true -> p < length (q_ptrs st) ->
  let q := if give then QGive c p else QAttach c p in
  q_formed st q = true -> q_ends q st r st' -> exists aw', advance q T st aw (note_step E q r T) st' aw'.
Proof.
  intros I A P q WF H.
  assert (X : forall s, ptr T p = Some s -> slot (aw_stats aw) s <> None) by (intros; eapply ptr_slot; eauto).
  destruct (qinv_plug I A X) as (w' & aw' & Ex & I' & N' & U' & Sm & Al).
  exists aw'. formed H. rewrite WF in H. unfold q in H |- *. destruct give.
  - cbn [q_body] in H. unfold bind at 1, gets in H. rewrite <- (qi_p I) in H. fold (ptr T p) in H.
    unfold bind at 1, set_ptrs, modify in H.
    assert (Ex' : plug E c (ptr T p) (MkQ (q_world st) (upd (q_ptrs st) p None) (q_refs st) (q_keys st)) =
              Val RUnit (MkQ w' (upd (q_ptrs st) p None) (q_refs st) (q_keys st))).
    { unfold plug, in_world in *. simpl. destruct (exec E _ (q_world st)); inversion Ex; subst; auto. }
    unfold bind in H. rewrite Ex' in H. unfold ret in H. destruct r as [x|e]; inversion H; subst; clear H.
    cbn [note_step].
    assert (Ad := advance_null (QGive c p) I' P).
    constructor.
    + apply Ad.
    + intros Q N _. apply (ad_num Ad); auto.
    + auto.
    + rewrite Sm; auto.
    + intros s Hs O. apply (ad_own Ad) in O; [|rewrite Sm; auto].
      refine (attach_owner (T := T) (T' := on_ledger (attach c (ptr T p)) T) (c := c) (x := ptr T p) eq_refl eq_refl Al _ O). intros Q. left; eauto.
  - cbn [q_body] in H. unfold bind at 1, gets in H. rewrite <- (qi_p I) in H. fold (ptr T p) in H.
    unfold bind in H. rewrite Ex in H. unfold ret in H. destruct r as [x|e]; inversion H; subst; clear H.
    cbn [note_step]. constructor; auto.
    + rewrite Sm; auto.
    + intros s Hs O. refine (attach_owner (T := T) (T' := on_ledger (attach c (ptr T p)) T) (c := c) (x := ptr T p) eq_refl eq_refl Al _ O). intros Q. left; eauto.
Qed.
Lemma step_two c d st r st' T aw (steal : bool) : qinv T st aw ->
  alive (q_world st) c = true -> alive (q_world st) d = true ->
  let q := if steal then QSteal c d else QSwap c d in
  q_formed st q = true -> q_ends q st r st' -> exists aw', advance q T st aw (note_step E q r T) st' aw'.
Proof.
  intros I A D q WF H.
  assert (X : forall e s, monitors T e = Some s -> slot (aw_stats aw) s <> None)
    by (intros; eapply (qi_as I); eauto).
  formed H. rewrite WF in H. unfold q in H |- *. destruct steal; cbn [q_body] in H.
  - unfold bind at 1 in H. rewrite (shared_ev I D) in H.
    destruct (qinv_plug (x := None) I D) as (w1 & aw1 & E1 & I1 & N1 & U1 & S1 & A1); [discriminate|].
    unfold bind at 1 in H. rewrite E1 in H.
    destruct (qinv_plug (c := c) (x := monitors T d) I1) as (w2 & aw2 & E2 & I2 & N2 & U2 & S2 & A2).
    { simpl. rewrite A1. auto. }
    { rewrite S1. eauto. }
    unfold bind in H. rewrite E2 in H. exists aw2.
    unfold ret in H. destruct r as [x|e]; inversion H; subst; clear H. cbn [note_step]. constructor; auto.
    + rewrite S2, S1; auto.
    + simpl. intros s Hs [(p & Hp)|(e & Ae & M)]; [left; exists p; exact Hp|].
      assert (Ae' : alive (q_world st) e = true) by (rewrite <- A1; specialize (A2 e); simpl in A2; rewrite <- A2; exact Ae).
      right. unfold monitors in M; simpl in M. unfold fset in M. destruct (Nat.eqb_spec c e); [eauto|].
      destruct (Nat.eqb_spec d e); [discriminate|]. eauto.
  - unfold bind at 1 in H. rewrite (shared_ev I A) in H. unfold bind at 1 in H. rewrite (shared_ev I D) in H.
    destruct (qinv_plug (x := monitors T d) I A) as (w1 & aw1 & E1 & I1 & N1 & U1 & S1 & A1); [eauto|].
    unfold bind at 1 in H. rewrite E1 in H.
    destruct (qinv_plug (c := d) (x := monitors T c) I1) as (w2 & aw2 & E2 & I2 & N2 & U2 & S2 & A2).
    { simpl. rewrite A1. auto. }
    { rewrite S1. eauto. }
    unfold bind in H. rewrite E2 in H. exists aw2.
    unfold ret in H. destruct r as [x|e]; inversion H; subst; clear H. cbn [note_step]. constructor; auto.
    + rewrite S2, S1; auto.
    + simpl. intros s Hs [(p & Hp)|(e & Ae & M)]; [left; exists p; exact Hp|].
      assert (Ae' : alive (q_world st) e = true) by (rewrite <- A1; specialize (A2 e); simpl in A2; rewrite <- A2; exact Ae).
      right. unfold monitors in M; simpl in M. unfold fset in M. destruct (Nat.eqb_spec d e); [eauto|].
      destruct (Nat.eqb_spec c e); [|eauto]. eauto.
Qed.

(** Steps that name an object: it has no name, or it is dead, or ... *)
Lemma handle_case T st aw h : qinv T st aw -> has_handle st h = true ->
  (exists c, h = HCache c /\ named T h = None /\ object h st = Exc NotMonitoring st) \/
  (exists u, object h st = Undef u) \/
  (exists s x, named T h = Some s /\ owned st s = true /\ object h st = Val s st /\ slot (aw_stats aw) s = Some x).
Proof.
  intros I H. destruct (object_ev I H) as (Ev & R). destruct (named T h) as [s|] eqn:N.
  - pose proof (named_slot I N) as S. destruct (slot (aw_stats aw) s) as [x|] eqn:Sx; [|easy].
    destruct (owned st s) eqn:O; rewrite Ev; eauto 10.
  - specialize (R eq_refl). destruct h; rewrite Ev; eauto 10; easy.
Qed.
Ltac handle H I Hh s x Hn Ho Hob Hs :=
  destruct (handle_case I Hh) as [(? & -> & Hn & Hob)|[(? & Hob)|(s & x & Hn & Ho & Hob & Hs)]];
  unfold bind at 1 in H; rewrite Hob in H.

Lemma owner_named T st aw s x : qinv T st aw -> owned st s = true ->
  x = Some s -> forall i, x = Some i -> has_owner T (q_world st) i.
Proof. intros I O -> i Q; inversion Q; subst. apply (owned_iff i I); auto. Qed.

Lemma step_use h (a : act K) st r st' T aw : qinv T st aw -> has_handle st h = true ->
  q_ends (QUse h a) st r st' -> exists aw', advance (QUse h a) T st aw (note_step E (QUse h a) r T) st' aw'.
Proof.
  intros I Hh H. formed H. cbn [q_formed] in H. rewrite Hh in H. cbn [q_body] in H. unfold bind at 1, use in H.
  handle H I Hh s x Hn Ho Hob Hs.
  - destruct r; inversion H; subst. exists aw. apply advance_refl; auto.
  - destruct r; discriminate.
  - unfold bind at 1 in H. rewrite (got I Hs) in H. destruct (act_on E a x) as [(y & x')|] eqn:Ac.
    2:{ destruct r; inversion H; subst. exists aw. apply advance_refl; auto. }
    unfold bind, in_world, put_stats, modify, set_keys in H. simpl in H.
    unfold ret in H. destruct r as [z|]; inversion H; subst; clear H. cbn [note_step]. rewrite Hn.
    destruct (event_of a) as [e|] eqn:Ev.
    + exists (wstats s x' aw). constructor; auto.
      * unfold outdate, write_book, on_keys, on_ledger; simpl.
        apply (qinv_write (x := x)); auto.
        { rewrite shown_forget, (qi_k I). reflexivity. }
        { intros i k b Hi. apply in_map_iff in Hi as (((i' & k') & b') & Q & Hi). inversion Q; subst. eapply (qi_ks I); eauto. }
      * intros Q N _. unfold outdate, write_book, on_keys, on_ledger; simpl. apply (qnum_write (x := x)); auto.
        { pose proof (act_matches Q Ac (proj1 N _ _ Hs)) as M. rewrite Ev in M. exact M. }
        { intros i k Hi. simpl in Hi. apply in_map_iff in Hi as (((i' & k') & b') & R & Hi). simpl in R.
          inversion R; subst. apply andb_prop in H2 as (-> & Hg). destruct (Nat.eqb_spec i s) as [->|]; auto.
          simpl in Hg. eapply event_keeps; eauto; [destruct (stops E a k); auto; discriminate|].
          apply N; auto. }
      * simpl. intros; apply upd_keeps; auto.
    + exists aw. rewrite (act_same Ac Ev).
      assert (W : with_stats (fun l => upd l s (Some x)) (q_world st) = q_world st)
        by (apply with_same; rewrite (rel_stats (qi_rel I)); auto).
      rewrite W. assert (Fg : forget s (gone_by E a) (q_keys st) = q_keys st).
      { destruct a; try discriminate; apply forget_none. }
      rewrite Fg. destruct st. apply advance_refl; auto.
Qed.

Lemma alloc_owner T st aw L' s : qinv T st aw -> slot (aw_stats aw) s <> None -> attached L' = attached (t_led T) ->
  forall ks w', (forall d, alive w' d = alive (q_world st) d) ->
  has_owner (MkSheet L' (t_ptrs T ++ [Some (length (w_stats (q_world st)))]) (t_refs T) ks) w' s ->
  has_owner T (q_world st) s.
Proof.
  intros I Hs A ks w' W [(p & Hp)|(c & Al & M)].
  - unfold ptr in Hp; simpl in Hp. apply nth_snoc in Hp as [Hp|Hp]; [left; exists p; exact Hp|].
    inversion Hp; subst s. rewrite slot_overflow in Hs by (rewrite (rel_stats (qi_rel I)); lia). easy.
  - right. exists c. unfold monitors in M; simpl in M. rewrite A in M. rewrite W in Al. auto.
Qed.
Lemma step_make ks st r st' T aw : qinv T st aw -> q_ends (QMake ks) st r st' ->
  exists aw', advance (QMake ks) T st aw (note_step E (QMake ks) r T) st' aw'.
Proof.
  intros I H. formed H. cbn [q_formed q_body] in H.
  unfold bind, in_world, alloc_stats, set_ptrs, modify, ret in H. simpl in H.
  destruct r as [z|]; inversion H; subst; clear H. cbn [note_step].
  exists (add_stats (new_stats E ks) aw). unfold add_ptr, write_book, on_ledger, on_ptrs; simpl. constructor.
  - apply (qinv_alloc (new_stats E ks) (rev (map (@BMonitor K) ks)) I).
  - intros Q N _. apply qnum_alloc; auto. apply matches_new; auto.
  - intros U _. apply (untimed_stats U). auto.
  - simpl. intros; apply app_keeps; auto.
  - intros s Hs. apply (alloc_owner I Hs); auto.
Qed.
Lemma step_copy h st r st' T aw : qinv T st aw -> has_handle st h = true -> q_ends (QCopy h) st r st' ->
  exists aw', advance (QCopy h) T st aw (note_step E (QCopy h) r T) st' aw'.
Proof.
  intros I Hh H. formed H. cbn [q_formed] in H. rewrite Hh in H. cbn [q_body] in H.
  handle H I Hh s x Hn Ho Hob Hs.
  - destruct r; inversion H; subst. exists aw. apply advance_refl; auto.
  - destruct r; discriminate.
  - unfold bind at 1 in H. rewrite (got I Hs) in H.
    unfold bind, in_world, alloc_stats, set_ptrs, modify, ret in H. simpl in H.
    destruct r as [z|]; inversion H; subst; clear H. cbn [note_step]. rewrite Hn.
    exists (add_stats x aw). unfold add_ptr, write_book, on_ledger, on_ptrs; simpl. constructor.
    + apply (qinv_alloc x (book T s) I).
    + intros Q N _. apply qnum_alloc; auto. apply (proj1 N _ _ Hs).
    + intros U _. apply (untimed_stats U). auto.
    + simpl. intros; apply app_keeps; auto.
    + intros i Hi. apply (alloc_owner I Hi); auto.
Qed.
Lemma step_move h st r st' T aw : qinv T st aw -> has_handle st h = true -> q_ends (QMove h) st r st' ->
  exists aw', advance (QMove h) T st aw (note_step E (QMove h) r T) st' aw'.
Proof.
  intros I Hh H. formed H. cbn [q_formed] in H. rewrite Hh in H. cbn [q_body] in H.
  handle H I Hh s x Hn Ho Hob Hs.
  - destruct r; inversion H; subst. exists aw. apply advance_refl; auto.
  - destruct r; discriminate.
  - unfold bind at 1 in H. rewrite (got I Hs) in H.
    unfold bind, in_world, alloc_stats, put_stats, set_keys, set_ptrs, modify, ret in H. simpl in H.
    destruct r as [z|]; inversion H; subst; clear H. cbn [note_step]. rewrite Hn.
    set (n := length (w_stats (q_world st))).
    assert (Nn : n = length (aw_stats aw)) by (unfold n; rewrite (rel_stats (qi_rel I)); auto).
    assert (Ns : n <> s) by (intros <-; rewrite slot_overflow in Hs by lia; discriminate).
    assert (I1 := qinv_alloc x (book T s) I). fold n in I1. cbv zeta in I1.
    assert (Hs1 : slot (aw_stats (add_stats x aw)) s = Some x)
      by (simpl; rewrite slot_app_lt; auto; eapply slot_lt; eauto).
    exists (wstats s (stats_unmonitor_all x) (add_stats x aw)).
    set (kT := map (fun y => ((if Nat.eqb (fst (fst y)) s then n else fst (fst y), snd (fst y)), snd y)) (t_keys T)).
    assert (BK : book (MkSheet (with_book (t_led T) n (book T s)) (t_ptrs T ++ [Some n]) (t_refs T) (t_keys T)) s = book T s)
      by (unfold book; simpl; rewrite fset_other; auto).
    unfold add_ptr, take_along, write_book, on_ledger, on_ptrs, on_keys; simpl. fold kT. constructor.
    + refine (qinv_write (T := MkSheet (with_book (t_led T) n (book T s)) (t_ptrs T ++ [Some n]) (t_refs T) (t_keys T))
        (x := x) (kT := kT) (stats_unmonitor_all x) (@BUnmonitorAll K :: book T s) I1 Hs1 _ _).
      * unfold kT. rewrite shown_follow, (qi_k I). reflexivity.
      * intros i k b Hi. unfold kT in Hi. apply in_map_iff in Hi as (((i' & k') & b') & R & Hi). simpl in R.
        inversion R; subst. simpl. destruct (Nat.eqb i' s).
        { rewrite Nn, slot_app_new. discriminate. }
        { apply app_keeps. eapply (qi_ks I); eauto. }
    + intros Q N _.
      assert (N1 : qnum (MkSheet (with_book (t_led T) n (book T s)) (t_ptrs T ++ [Some n]) (t_refs T) (t_keys T)) (add_stats x aw))
        by (apply qnum_alloc; auto; apply (proj1 N _ _ Hs)).
      split.
      * apply (qnum_write (T := MkSheet (with_book (t_led T) n (book T s)) (t_ptrs T ++ [Some n]) (t_refs T) (t_keys T))
          (x := x) (x' := stats_unmonitor_all x) (b := @BUnmonitorAll K :: book T s) (kT := [])); auto; [|easy].
        apply matches_unmonitor_all. apply (proj1 N _ _ Hs).
      * simpl. intros i k Hi. unfold kT in Hi. apply in_map_iff in Hi as (((i' & k') & b') & R & Hi). simpl in R.
        injection R as R1 R2 R3. subst k' b' i. destruct (Nat.eqb_spec i' s) as [->|D].
        { rewrite fset_other, fset_same by auto. apply N; auto. }
        { rewrite fset_other by auto. rewrite fset_other; [apply N; auto|]. intros <-.
          apply (qi_ks I) in Hi. rewrite slot_overflow in Hi by lia. easy. }
    + intros U _. apply (untimed_stats U). auto.
    + simpl. intros; apply upd_keeps. apply app_keeps; auto.
    + intros i Hi. apply (alloc_owner I Hi); auto.
Qed.
Lemma step_assign h g st r st' T aw : qinv T st aw -> has_handle st h = true -> has_handle st g = true ->
  q_ends (QAssign h g) st r st' ->
  exists aw', advance (QAssign h g) T st aw (note_step E (QAssign h g) r T) st' aw'.
Proof.
  intros I Hh Hg H. formed H. cbn [q_formed] in H. rewrite Hh, Hg in H. cbn [q_body andb] in H.
  handle H I Hh s x Hn Ho Hob Hs.
  - destruct r; inversion H; subst. exists aw. apply advance_refl; auto.
  - destruct r; discriminate.
  - handle H I Hg i y Hn' Ho' Hob' Hs'.
    + destruct r; inversion H; subst. exists aw. apply advance_refl; auto.
    + destruct r; discriminate.
    + unfold bind at 1 in H. rewrite (got I Hs') in H. unfold bind at 1 in H. rewrite (got I Hs) in H.
      unfold bind, in_world, put_stats, set_keys, modify, ret in H. simpl in H.
      destruct r as [z|]; inversion H; subst; clear H. cbn [note_step]. rewrite Hn, Hn'.
      destruct (Nat.eqb_spec s i) as [->|D].
      * rewrite Hs in Hs'. inversion Hs'; subst. rewrite with_same by (rewrite (rel_stats (qi_rel I)); auto).
        exists aw. destruct st. apply advance_refl; auto.
      * exists (wstats s y aw). unfold outdate, write_book, on_ledger, on_keys; simpl. constructor.
        { apply (qinv_write (x := x)); auto.
          - rewrite <- (qi_k I). exact (shown_forget s (fun _ => true) (t_keys T)).
          - intros j k b Hj. apply in_map_iff in Hj as (((j' & k') & b') & R & Hj). inversion R; subst. eapply (qi_ks I); eauto. }
        { intros Q N _. apply (qnum_write (x := x)); auto; [apply (proj1 N _ _ Hs')|].
          intros j k Hj. apply in_map_iff in Hj as (((j' & k') & b') & R & Hj). simpl in R. inversion R; subst.
          apply andb_prop in H2 as (-> & X). destruct (Nat.eqb j s); simpl in X; auto. discriminate. }
        { intros U _. apply (untimed_stats U). auto. }
        { simpl. intros; apply upd_keeps; auto. }
        { auto. }
Qed.
Lemma step_ref h st r st' T aw : qinv T st aw -> has_handle st h = true -> q_ends (QRef h) st r st' ->
  exists aw', advance (QRef h) T st aw (note_step E (QRef h) r T) st' aw'.
Proof.
  intros I Hh H. formed H. cbn [q_formed] in H. rewrite Hh in H. cbn [q_body] in H.
  handle H I Hh s x Hn Ho Hob Hs.
  - destruct r; inversion H; subst. exists aw. apply advance_refl; auto.
  - destruct r; discriminate.
  - unfold bind, set_refs, modify, ret in H. simpl in H.
    destruct r as [z|]; inversion H; subst; clear H. cbn [note_step]. rewrite Hn.
    exists aw. constructor; auto.
    constructor; simpl; try apply I.
    + rewrite (qi_r I). auto.
    + intros i Hi. apply in_app_iff in Hi as [Hi|[<-|[]]]; [apply (qi_rs I); auto|congruence].
Qed.
Lemma step_keyref h k st r st' T aw : qinv T st aw -> has_handle st h = true -> q_ends (QKeyRef h k) st r st' ->
  exists aw', advance (QKeyRef h k) T st aw (note_step E (QKeyRef h k) r T) st' aw'.
Proof.
  intros I Hh H. formed H. cbn [q_formed] in H. rewrite Hh in H. cbn [q_body] in H.
  handle H I Hh s x Hn Ho Hob Hs.
  - destruct r; inversion H; subst. exists aw. apply advance_refl; auto.
  - destruct r; discriminate.
  - unfold bind at 1 in H. rewrite (got I Hs) in H. destruct (stats_for E x k) as [y|] eqn:Y.
    2:{ destruct r; inversion H; subst. exists aw. apply advance_refl; auto. }
    unfold bind, set_keys, modify, ret in H. simpl in H.
    destruct r as [z|]; inversion H; subst; clear H. cbn [note_step]. rewrite Hn.
    exists aw. constructor; auto.
    + constructor; simpl; try apply I.
      * rewrite map_app, (qi_k I). auto.
      * intros i j b Hi. apply in_app_iff in Hi as [Hi|[Hi|[]]]; [eapply (qi_ks I); eauto|]. inversion Hi; subst. congruence.
    + intros Q (B & N) _. split; auto. simpl. intros i j Hi. apply in_app_iff in Hi as [Hi|[Hi|[]]]; auto.
      inversion Hi; subst. pose proof (m_keys (B _ _ Hs) j) as M. unfold stats_for in Y. rewrite Y in M.
      intros X. rewrite X in M. discriminate.
Qed.
Lemma step_keyread j st r st' T aw : qinv T st aw -> q_formed st (QKeyRead j) = true -> q_ends (QKeyRead j) st r st' ->
  exists aw', advance (QKeyRead j) T st aw (note_step E (QKeyRead j) r T) st' aw'.
Proof.
  intros I Hh H. formed H. rewrite Hh in H. cbn [q_body] in H. unfold bind at 1, gets in H.
  destruct (nth j (q_keys st) None) as [(s & k)|]; [|destruct r; discriminate].
  unfold bind at 1, living in H. destruct (owned st s); [|destruct r; discriminate].
  unfold bind, in_world, get_stats in H. destruct (slot (w_stats (q_world st)) s) as [x|]; [|destruct r; discriminate].
  destruct (stats_for E x k); [|destruct r; discriminate].
  destruct r; inversion H; subst. exists aw. destruct st. cbn [note_step].
  apply advance_refl; auto.
Qed.

Lemma q_inv_step q st r st' T aw : qinv T st aw -> q_copy_free q = true -> q_ends q st r st' ->
  exists aw', advance q T st aw (note_step E q r T) st' aw'.
Proof.
  intros I CF H. destruct (q_formed st q) eqn:WF.
  2:{ formed H. rewrite WF in H. destruct r; inversion H; subst. exists aw. destruct q; apply advance_refl; auto. }
  assert (WF' := WF).
  destruct q; simpl in WF'.
  - apply (step_call I CF WF H).
  - apply (step_make I H).
  - apply Nat.ltb_lt in WF'. formed H. rewrite WF in H. cbn [q_body] in H.
    unfold bind, gets, set_ptrs, modify, ret in H. destruct r as [z|]; inversion H; subst; clear H. exists aw.
    rewrite <- (qi_p I). fold (ptr T p). cbn [note_step]. rewrite (qi_p I). apply advance_ptr; auto.
    intros s Hs. split; [left; eauto|eapply ptr_slot; eauto].
  - formed H. rewrite WF in H. cbn [q_body] in H. unfold bind at 1 in H. rewrite (shared_ev I WF') in H.
    unfold bind, set_ptrs, modify, ret in H. destruct r as [z|]; inversion H; subst; clear H. exists aw.
    cbn [note_step]. apply advance_ptr; auto. intros s Hs. split; [right; eauto|eapply (qi_as I); eauto].
  - apply andb_prop in WF' as (A & P). apply Nat.ltb_lt in P. apply (step_attach (give := false) I A P WF H).
  - apply andb_prop in WF' as (A & P). apply Nat.ltb_lt in P. apply (step_attach (give := true) I A P WF H).
  - apply andb_prop in WF' as (A & P). apply (step_two (steal := true) I A P WF H).
  - apply andb_prop in WF' as (A & P). apply (step_two (steal := false) I A P WF H).
  - apply Nat.ltb_lt in WF'. formed H. rewrite WF in H. cbn [q_body] in H.
    unfold bind, set_ptrs, modify, ret in H. destruct r as [z|]; inversion H; subst; clear H. exists aw.
    cbn [note_step]. apply advance_null; auto.
  - apply (step_ref I WF' H).
  - apply (step_use I WF' H).
  - apply (step_copy I WF' H).
  - apply (step_move I WF' H).
  - apply andb_prop in WF' as (A & P). apply (step_assign I A P H).
  - apply (step_keyref I WF' H).
  - apply (step_keyread I WF H).
Qed.

Lemma q_inv_run l : forall st outs st' T aw, qinv T st aw -> forallb copy_free (calls_of l) = true ->
  q_run E l st = Some (outs, st') ->
  exists aw', qinv (note_steps E l outs T) st' aw' /\
    (eqop_good E -> qnum T aw -> (all_untimed aw /\ forallb untimed (calls_of l) = true) \/ forallb by_find (calls_of l) = true ->
     qnum (note_steps E l outs T) aw') /\
    (forall s, slot (aw_stats aw) s <> None -> slot (aw_stats aw') s <> None) /\
    (forall s, slot (aw_stats aw) s <> None -> has_owner (note_steps E l outs T) (q_world st') s -> has_owner T (q_world st) s).
Proof.
  induction l as [|q l IH]; intros st outs st' T aw I CF H.
  - inversion H; subst. exists aw. simpl. auto.
  - assert (CF1 : q_copy_free q = true /\ forallb copy_free (calls_of l) = true).
    { unfold calls_of in CF. simpl in CF. destruct q; simpl in CF |- *; auto. apply andb_prop in CF. auto. }
    destruct CF1 as (CF1 & CF2).
    assert (X : exists r st1 rs, q_ends q st r st1 /\ q_run E l st1 = Some (rs, st') /\ outs = r :: rs).
    { simpl in H. destruct (q_step E q st) as [x st1|e st1| |] eqn:Q; try discriminate;
        destruct (q_run E l st1) as [(rs & st2)|] eqn:Rn; inversion H; subst.
      - exists (QRet x), st1, rs. auto.
      - exists (QThrew e), st1, rs. auto. }
    destruct X as (r & st1 & rs & H1 & H2 & ->).
    destruct (q_inv_step I CF1 H1) as (aw1 & [A1 A2 A3 A4 A5]).
    destruct (IH _ _ _ _ _ A1 CF2 H2) as (aw' & B1 & B2 & B3 & B4).
    exists aw'. simpl. split; auto. split; [|split; auto].
    intros Q N D. apply B2; auto.
    + apply A2; auto. destruct D as [(D & _)|D]; auto. right. destruct q; auto. simpl in D. apply andb_prop in D as (D & _). auto.
    + destruct D as [(D & D')|D]; [left|right].
      * unfold calls_of in D'. simpl in D'. destruct q; simpl in D'; auto; try (split; auto).
        { apply andb_prop in D' as (D1 & D2). auto. }
        { apply andb_prop in D' as (D1 & D2). auto. }
      * unfold calls_of in D. simpl in D. destruct q; simpl in D; auto. apply andb_prop in D as (_ & D). auto.
Qed.
Lemma qinv_init : qinv (@no_sheet K) (@init_qstate K V) (@init_aworld K V).
Proof.
  constructor; simpl; auto; try easy.
  - apply rel_init.
  - apply linv_init.
Qed.
Lemma qnum_init : qnum (@no_sheet K) (@init_aworld K V).
Proof. split; [apply binv_init|easy]. Qed.

Lemma q_after_inv l T st : q_after E l T st ->
  exists aw, qinv T st aw /\ (eqop_good E -> countable (calls_of l) -> qnum T aw).
Proof.
  intros (CF & outs & H & ->). destruct (q_inv_run qinv_init CF H) as (aw & I & N & _). exists aw. split; auto.
  intros Q [D|D]; apply N; auto using qnum_init. left. split; auto. apply untimed_init.
Qed.

(** ** What the client sees *)
Section After.
Variables (l : list (qop K V)) (T : sheet) (st : qstate).
Hypothesis Af : q_after E l T st.
Let w := q_world st.

Lemma obj_names h : has_handle st h = true ->
  match named T h with
  | None => match h with
            | HCache _ => q_step E (QRef h) st = Exc NotMonitoring st
            | HPtr _ => q_step E (QRef h) st = Undef NullPointer
            | HRef _ => False
            end
  | Some s =>
      (has_owner T w s -> exists st', q_step E (QRef h) st = Val (QObj (Some s)) st' /\ q_world st' = w) /\
      (~ has_owner T w s -> q_step E (QRef h) st = Undef DanglingReference /\
                            forall a : act K, q_step E (QUse h a) st = Undef DanglingReference) /\
      match h with HRef _ => True | _ => has_owner T w s end
  end.
Proof.
  intros Hh. destruct (q_after_inv Af) as (aw & I & _). destruct (object_ev I Hh) as (Ev & Rf).
  assert (Q : forall a : act K, q_step E (QUse h a) st = bind (use E h a) (fun r => ret (QO r)) st)
    by (intros; unfold q_step; cbn [q_formed]; rewrite Hh; auto).
  assert (R : q_step E (QRef h) st = bind (object h) (fun s => set_refs (fun l => l ++ [s]);;; ret (QObj (Some s))) st)
    by (unfold q_step; cbn [q_formed]; rewrite Hh; auto).
  destruct (named T h) as [s|] eqn:N.
  - split; [|split].
    + intros O. apply (owned_iff s I) in O. rewrite O in Ev. rewrite R. unfold bind. rewrite Ev.
      eexists. split; [reflexivity|]. reflexivity.
    + intros O. assert (O' : owned st s = false) by (destruct (owned st s) eqn:X; auto; apply (owned_iff s I) in X; easy).
      rewrite O' in Ev. split; [rewrite R; unfold bind; rewrite Ev; auto|].
      intros a. rewrite Q. unfold use, bind. rewrite Ev. auto.
    + destruct h; auto; simpl in N, Hh; [right|left]; eauto.
  - specialize (Rf eq_refl). destruct h; auto; rewrite R; unfold bind; rewrite Ev; auto.
Qed.

Section Reading.
Hypothesis Q : eqop_good E.
Hypothesis D : countable (calls_of l).
Variables (h : handle) (s : nat).
Hypothesis Hh : has_handle st h = true.
Hypothesis Nm : named T h = Some s.
Hypothesis Ow : has_owner T w s.

Lemma use_ev : exists x, matches E (book T s) x /\
  forall a : act K, q_step E (QUse h a) st =
    match act_on E a x with
    | None => Exc UnmonitoredKey st
    | Some (r, x') => Val (QO r) (MkQ (with_stats (fun l => upd l s (Some x')) w) (q_ptrs st) (q_refs st)
                                      (forget s (gone_by E a) (q_keys st)))
    end /\
    (event_of a = None -> forall r x', act_on E a x = Some (r, x') -> q_step E (QUse h a) st = Val (QO r) st).
Proof.
  destruct (q_after_inv Af) as (aw & I & N). specialize (N Q D).
  destruct (object_ev I Hh) as (Ev & _). rewrite Nm in Ev. rewrite (proj2 (owned_iff s I) Ow) in Ev.
  pose proof (named_slot I Nm) as S. destruct (slot (aw_stats aw) s) as [x|] eqn:Hx; [|easy].
  exists x. split; [apply (proj1 N); auto|]. intros a.
  assert (X : q_step E (QUse h a) st =
    match act_on E a x with
    | None => Exc UnmonitoredKey st
    | Some (r, x') => Val (QO r) (MkQ (with_stats (fun l => upd l s (Some x')) w) (q_ptrs st) (q_refs st)
                                      (forget s (gone_by E a) (q_keys st)))
    end).
  { unfold q_step. cbn [q_formed]. rewrite Hh. cbn [q_body]. unfold bind at 1, use. unfold bind at 1. rewrite Ev.
    unfold bind at 1. rewrite (got I Hx). destruct (act_on E a x) as [(r & x')|]; reflexivity. }
  split; auto. intros Ne r x' Ac. rewrite X, Ac, (act_same Ac Ne).
  assert (W : with_stats (fun l => upd l s (Some x)) w = w)
    by (apply with_same; unfold w; rewrite (rel_stats (qi_rel I)); auto).
  rewrite W. assert (Fg : forget s (gone_by E a) (q_keys st) = q_keys st).
  { destruct a; try discriminate; apply forget_none. }
  rewrite Fg. unfold w. destruct st; auto.
Qed.

Lemma obj_totals : q_step E (QUse h (@ATotals K)) st =
  Val (QO (RTotals (size_t (Z.of_nat (n_accesses (book T s)))) (size_t (Z.of_nat (n_hits (book T s))))
                   (size_t (Z.of_nat (n_misses (book T s)))))) st.
Proof.
  destruct use_ev as (x & M & U). destruct (U (@ATotals K)) as (_ & U').
  erewrite U' by reflexivity. rewrite (misses_diff M). unfold total_accesses, total_hits.
  rewrite (m_acc M), (m_hits M). reflexivity.
Qed.
Lemma obj_key k : q_step E (QUse h (AFor k)) st =
  match key_count E k (book T s) with
  | None => Exc UnmonitoredKey st
  | Some (a, b) => Val (QO (RKeyStats (size_t (Z.of_nat a)) (size_t (Z.of_nat b)) (size_t (Z.of_nat (a + b))))) st
  end.
Proof.
  destruct use_ev as (x & M & U). destruct (U (AFor k)) as (U1 & U').
  cbn [act_on] in U1, U'. unfold stats_for in U1, U'. rewrite (m_keys M) in U1, U'.
  destruct (key_count E k (book T s)) as [(a & b)|]; cbn [option_map] in U1, U'; auto.
  erewrite U' by reflexivity. rewrite accesses_sum. reflexivity.
Qed.
Lemma obj_has k : q_step E (QUse h (AHas k)) st =
  Val (QO (RBool (match key_count E k (book T s) with Some _ => true | None => false end))) st.
Proof.
  destruct use_ev as (x & M & U). destruct (U (AHas k)) as (_ & U'). erewrite U' by reflexivity.
  unfold stats_is_monitoring. rewrite (m_keys M). destruct (key_count E k (book T s)); auto.
Qed.
Lemma obj_number : exists ks, unique_keys E ks /\
  (forall k, key_count E k (book T s) <> None <-> exists k', In k' ks /\ key_eqop E k k' = true) /\
  q_step E (QUse h (@ANumber K)) st = Val (QO (RNat (length ks))) st /\
  q_step E (QUse h (@AAny K)) st = Val (QO (RBool (match ks with [] => false | _ => true end))) st.
Proof.
  destruct use_ev as (x & M & U). exists (map fst (st_keys x)). split; [apply ukeys_unique; apply M|]. split.
  { intros k. pose proof (m_keys M k) as Mk. split.
    - intros H. destruct (key_count E k (book T s)) as [y|]; [|congruence]. simpl in Mk.
      apply find_in in Mk as (k' & I' & Q'). exists k'. split; auto. apply (in_map fst) in I'. auto.
    - intros (k' & I' & Q') H. rewrite H in Mk. simpl in Mk. rewrite find_none in Mk.
      apply in_map_iff in I' as (p & <- & I'). rewrite Mk in Q' by auto. discriminate. }
  split.
  - destruct (U (@ANumber K)) as (_ & U'). erewrite U' by reflexivity. rewrite map_length. reflexivity.
  - destruct (U (@AAny K)) as (_ & U'). erewrite U' by reflexivity. unfold number_of_monitored_keys.
    destruct (st_keys x); reflexivity.
Qed.
Lemma obj_change k :
  (exists st', q_step E (QUse h (AMonitor k)) st = Val (QO RUnit) st') /\
  (exists st', q_step E (QUse h (@AUnmonitorAll K)) st = Val (QO RUnit) st') /\
  forall a : act K, a = AUnmonitor k \/ a = AReset k ->
    if key_count E k (book T s) then exists st', q_step E (QUse h a) st = Val (QO RUnit) st'
    else q_step E (QUse h a) st = Exc UnmonitoredKey st.
Proof.
  destruct use_ev as (x & M & U). split; [|split].
  - destruct (U (AMonitor k)) as (-> & _). simpl. eauto.
  - destruct (U (@AUnmonitorAll K)) as (-> & _). simpl. eauto.
  - intros a [->| ->].
    + destruct (U (AUnmonitor k)) as (-> & _). simpl. unfold stats_unmonitor. rewrite (m_keys M).
      destruct (key_count E k (book T s)); simpl; eauto.
    + destruct (U (AReset k)) as (-> & _). simpl. unfold stats_reset_key. rewrite (m_keys M).
      destruct (key_count E k (book T s)); simpl; eauto.
Qed.
End Reading.

Lemma obj_keyref j s k ok : nth_error (t_keys T) j = Some (s, k, ok) -> eqop_good E -> countable (calls_of l) ->
  (ok = true -> has_owner T w s ->
   exists (a b : nat), key_count E k (book T s) = Some (a, b) /\
     q_step E (QKeyRead j) st =
       Val (QO (RKeyStats (size_t (Z.of_nat a)) (size_t (Z.of_nat b)) (size_t (Z.of_nat (a + b))))) st) /\
  (ok = false \/ ~ has_owner T w s -> q_step E (QKeyRead j) st = Undef DanglingReference).
Proof.
  intros Hj Q D. destruct (q_after_inv Af) as (aw & I & N). specialize (N Q D).
  assert (Nt : nth j (q_keys st) None = shown (s, k, ok)).
  { rewrite <- (qi_k I). apply nth_error_nth. apply (map_nth_error shown). auto. }
  assert (F : q_formed st (QKeyRead j) = true).
  { simpl. apply Nat.ltb_lt. rewrite <- (qi_k I), map_length. apply nth_error_Some. congruence. }
  assert (X : q_step E (QKeyRead j) st = q_body E (QKeyRead j) st) by (unfold q_step; rewrite F; auto).
  cbn [q_body] in X. unfold bind at 1, gets in X. rewrite Nt in X. rewrite X. clear X.
  destruct ok; unfold shown; cbn [fst snd].
  - split.
    + intros _ O. apply (owned_iff s I) in O. unfold bind at 1, living. rewrite O.
      apply nth_error_In in Hj. pose proof (qi_ks I Hj) as S.
      destruct (slot (aw_stats aw) s) as [x|] eqn:Hx; [|easy]. unfold bind. rewrite (got I Hx).
      pose proof (proj2 N _ _ Hj) as Kc. pose proof (m_keys (proj1 N _ _ Hx) k) as M. unfold book.
      destruct (key_count E k (books (t_led T) s)) as [(a & b)|]; [|easy]. exists a, b. split; auto.
      unfold stats_for. rewrite M. cbn [option_map]. rewrite accesses_sum. reflexivity.
    + intros [|O]; [discriminate|]. assert (O' : owned st s = false) by (destruct (owned st s) eqn:Y; auto; apply (owned_iff s I) in Y; easy).
      unfold bind at 1, living. rewrite O'. auto.
  - split; [discriminate|]. auto.
Qed.

Lemma sight_slot aw s : qinv T st aw -> in_sight T s -> slot (aw_stats aw) s <> None.
Proof.
  intros I [H|[H|[(c & H)|(k & ok & H)]]].
  - apply (qi_ps I); auto.
  - apply (qi_rs I); auto.
  - eapply (qi_as I); eauto.
  - eapply (qi_ks I); eauto.
Qed.
Lemma obj_new ks : exists s st', q_step E (QMake ks) st = Val (QObj (Some s)) st' /\ ~ in_sight T s.
Proof.
  destruct (q_after_inv Af) as (aw & I & _). do 2 eexists. split; [reflexivity|].
  intros H. apply (sight_slot I H). apply slot_overflow. rewrite (rel_stats (qi_rel I)). auto.
Qed.
Lemma obj_copies h s q : q = QCopy h \/ q = QMove h -> has_handle st h = true -> named T h = Some s ->
  has_owner T w s -> exists s' st', q_step E q st = Val (QObj (Some s')) st' /\ ~ in_sight T s'.
Proof.
  intros Hq Hh Nm Ow. destruct (q_after_inv Af) as (aw & I & _).
  destruct (object_ev I Hh) as (Ev & _). rewrite Nm in Ev. rewrite (proj2 (owned_iff s I) Ow) in Ev.
  pose proof (named_slot I Nm) as S. destruct (slot (aw_stats aw) s) as [x|] eqn:Hx; [|easy].
  exists (length (w_stats (q_world st))).
  assert (F : ~ in_sight T (length (w_stats (q_world st)))).
  { intros H. apply (sight_slot I H). apply slot_overflow. rewrite (rel_stats (qi_rel I)). auto. }
  destruct Hq as [-> | ->]; eexists; (split; [|exact F]); unfold q_step; cbn [q_formed]; rewrite Hh; cbn [q_body];
    unfold bind at 1; rewrite Ev; unfold bind at 1; rewrite (got I Hx); reflexivity.
Qed.
Lemma obj_shared p : p < length (q_ptrs st) ->
  exists st', q_step E (QShare p) st = Val (QObj (ptr T p)) st'.
Proof.
  intros P. destruct (q_after_inv Af) as (aw & I & _). unfold q_step. cbn [q_formed].
  apply Nat.ltb_lt in P. rewrite P. cbn [q_body]. unfold bind, gets. unfold ptr. rewrite (qi_p I). eexists. reflexivity.
Qed.
Lemma obj_taken c : alive w c = true -> exists st', q_step E (QTake c) st = Val (QObj (monitors T c)) st'.
Proof.
  intros A. destruct (q_after_inv Af) as (aw & I & _). unfold q_step. cbn [q_formed]. unfold w in A. rewrite A.
  cbn [q_body]. unfold bind at 1. rewrite (shared_ev I A). eexists. reflexivity.
Qed.
Lemma obj_monitor_new c ks : alive w c = true ->
  exists s st', q_step E (QCall (MonitorNew c ks)) st = Val (QO (RNat s)) st' /\ ~ in_sight T s.
Proof.
  intros A. destruct (q_after_inv Af) as (aw & I & _). unfold w in A.
  assert (X : exists w', exec E (MonitorNew c ks) (q_world st) = Val (RNat (length (w_stats (q_world st)))) w').
  { unfold exec. cbn [well_formed body]. rewrite A. unfold alive in A.
    destruct (slot (w_caches (q_world st)) c) as [x|] eqn:X; [|discriminate].
    unfold monitor_new, set_stats, bind. unfold get_cache at 1. rewrite X. unfold alloc_stats.
    unfold get_cache. simpl. rewrite X. eexists. reflexivity. }
  destruct X as (w' & X). exists (length (w_stats (q_world st))). eexists. split.
  - unfold q_step. cbn [q_formed plain_call q_body]. unfold bind, in_world. rewrite X. reflexivity.
  - intros H. apply (sight_slot I H). apply slot_overflow. rewrite (rel_stats (qi_rel I)). auto.
Qed.
Lemma obj_pointers c d p q : alive w c = true -> alive w d = true -> p < length (q_ptrs st) ->
  In q [QAttach c p; QGive c p; QSteal c d; QSwap c d; QDrop p] ->
  exists st', q_step E q st = Val (QO RUnit) st'.
Proof.
  intros A D P Hq. destruct (q_after_inv Af) as (aw & I & _). unfold w in A, D.
  assert (P' := proj2 (Nat.ltb_lt _ _) P).
  assert (Pt : nth p (q_ptrs st) None = ptr T p) by (unfold ptr; rewrite (qi_p I); auto).
  simpl in Hq. destruct Hq as [<-|[<-|[<-|[<-|[<-|[]]]]]]; unfold q_step; cbn [q_formed q_body]; rewrite ?A, ?D, ?P'; cbn [andb].
  - destruct (qinv_plug (x := ptr T p) I A (fun s H => ptr_slot I H)) as (w' & aw' & Ev & _).
    unfold bind, gets. rewrite Pt, Ev. eexists. reflexivity.
  - pose proof (ad_inv (advance_null (QDrop p) I P)) as I'.
    destruct (qinv_plug (x := ptr T p) (c := c) I' A (fun s H => ptr_slot I H)) as (w' & aw' & Ev & _).
    unfold bind, gets, set_ptrs, modify. rewrite Pt. rewrite Ev. eexists. reflexivity.
  - destruct (qinv_plug (x := None) (c := d) I D) as (w' & aw' & Ev & I' & _ & _ & Sl & Al); [discriminate|].
    destruct (qinv_plug (x := monitors T d) (c := c) I') as (w2 & aw2 & Ev2 & _).
    { simpl. rewrite Al. auto. }
    { intros s H. rewrite Sl. eapply (qi_as I); eauto. }
    unfold bind. rewrite (shared_ev I D), Ev, Ev2. eexists. reflexivity.
  - destruct (qinv_plug (x := monitors T d) (c := c) I A) as (w' & aw' & Ev & I' & _ & _ & Sl & Al).
    { intros s H. eapply (qi_as I); eauto. }
    destruct (qinv_plug (x := monitors T c) (c := d) I') as (w2 & aw2 & Ev2 & _).
    { simpl. rewrite Al. auto. }
    { intros s H. rewrite Sl. eapply (qi_as I); eauto. }
    unfold bind. rewrite (shared_ev I A), (shared_ev I D), Ev, Ev2. eexists. reflexivity.
  - eexists. reflexivity.
Qed.
Lemma obj_assign h g s i : has_handle st h = true -> has_handle st g = true ->
  named T h = Some s -> named T g = Some i -> has_owner T w s -> has_owner T w i ->
  exists st', q_step E (QAssign h g) st = Val (QO RUnit) st'.
Proof.
  intros Hh Hg Ns Ni Os Oi. destruct (q_after_inv Af) as (aw & I & _).
  destruct (object_ev I Hh) as (Ev & _). rewrite Ns, (proj2 (owned_iff s I) Os) in Ev.
  destruct (object_ev I Hg) as (Ev2 & _). rewrite Ni, (proj2 (owned_iff i I) Oi) in Ev2.
  pose proof (named_slot I Ns) as S. destruct (slot (aw_stats aw) s) as [x|] eqn:Hx; [|easy].
  pose proof (named_slot I Ni) as S'. destruct (slot (aw_stats aw) i) as [y|] eqn:Hy; [|easy].
  unfold q_step; cbn [q_formed]; rewrite Hh, Hg; cbn [andb q_body]. unfold bind at 1. rewrite Ev.
  unfold bind at 1. rewrite Ev2. unfold bind at 1. rewrite (got I Hy). unfold bind at 1. rewrite (got I Hx).
  eexists. reflexivity.
Qed.
Lemma obj_take_key h s k : eqop_good E -> countable (calls_of l) -> has_handle st h = true -> named T h = Some s ->
  has_owner T w s ->
  if key_count E k (book T s) then exists st', q_step E (QKeyRef h k) st = Val (QO RUnit) st'
  else q_step E (QKeyRef h k) st = Exc UnmonitoredKey st.
Proof.
  intros Q D Hh Ns Os. destruct (q_after_inv Af) as (aw & I & N). specialize (N Q D).
  destruct (object_ev I Hh) as (Ev & _). rewrite Ns, (proj2 (owned_iff s I) Os) in Ev.
  pose proof (named_slot I Ns) as S. destruct (slot (aw_stats aw) s) as [x|] eqn:Hx; [|easy].
  pose proof (m_keys (proj1 N _ _ Hx) k) as M.
  assert (X : q_step E (QKeyRef h k) st =
    match stat_find E k (st_keys x) with
    | None => throw UnmonitoredKey
    | Some _ => set_keys (fun l => l ++ [Some (s, k)]);;; ret (QO RUnit)
    end st).
  { unfold q_step; cbn [q_formed]; rewrite Hh; cbn [q_body]. unfold bind at 1. rewrite Ev. unfold bind at 1.
    rewrite (got I Hx). reflexivity. }
  rewrite X. clear X. unfold book. rewrite M. destruct (key_count E k (books (t_led T) s)); simpl; [eexists|]; reflexivity.
Qed.
Lemma obj_dead s l' outs st' : in_sight T s -> ~ has_owner T w s ->
  forallb copy_free (calls_of l') = true -> q_run E l' st = Some (outs, st') ->
  ~ has_owner (note_steps E l' outs T) (q_world st') s.
Proof.
  intros Sg No CF H O. destruct (q_after_inv Af) as (aw & I & _).
  destruct (q_inv_run I CF H) as (aw' & _ & _ & _ & X). apply No. apply X; auto. apply (sight_slot I Sg).
Qed.
End After.

End StatObjProofs.

(** Running example programs. *)
Section Final.
Context {K V : Type}.
Variable E : env K V.
Definition q_final (l : list (qop K V)) : qstate K V :=
  match q_run E l (@init_qstate K V) with Some (_, st) => st | None => @init_qstate K V end.
Definition q_sheet (l : list (qop K V)) : sheet :=
  match q_run E l (@init_qstate K V) with Some (outs, _) => sheet_of E l outs | None => no_sheet end.
Lemma q_final_after l : forallb copy_free (calls_of l) = true -> q_run E l (@init_qstate K V) <> None ->
  q_after E l (q_sheet l) (q_final l).
Proof.
  intros C H. split; auto. unfold q_final, q_sheet. destruct (q_run E l init_qstate) as [(o & st)|]; [|easy]. eauto.
Qed.
End Final.
