(** Accesses during which a callback throws. *)
From Coq Require Import List Arith ZArith Bool Permutation Lia.
Import ListNotations.
From Verif Require Import Monad Types Model Api Spec SpecStats SpecFault Ref Lists SimBase SimRel SimOps SimErase SimIter SimNew SimObs SimExec Effects Sturdy SturdyOps SturdyAcc SturdyIns SturdyObs SturdyExec SturdyCb FaultProofs.
Set Implicit Arguments.
Unset Strict Implicit.
Local Open Scope cpp_scope.

Section FaultCb.
Context {K V : Type}.
Variable E : env K V.
Hypothesis Fr : fair E.

Notation world := (world K V).
Notation store := (store K V).
Notation cell := (@cell K V).
Notation trig := (cbevent K V -> list (cbevent K V) -> option nat).
Notation rep_store := (rep_store (calm E)).
Notation find_cell := (find_cell (calm E)).
Notation sound := (sound E).
Notation inv := (inv E).
Implicit Types (w : world) (s : store) (t : trig).

Let G : good (calm E) := calm_good Fr.

(** ** Emitting events *)
Fixpoint emit t (evs : list (cbevent K V)) : M world unit := fun w =>
  match evs with
  | [] => Val tt w
  | ev :: evs =>
      let w' := with_log (fun l => l ++ [ev]) w in
      match t ev (w_log w') with None => emit t evs w' | Some n => Exc (UserExn n) w' end
  end.

Lemma emit_app t e1 e2 w : emit t (e1 ++ e2) w = (emit t e1;;; emit t e2) w.
Proof.
  revert w. induction e1 as [|ev e1 IH]; intros w; simpl; auto. unfold bind in *.
  destruct (t ev (w_log w ++ [ev])); auto.
Qed.

Definition logged evs w : world := with_log (fun l => l ++ evs) w.
Lemma logged_nil w : logged [] w = w.
Proof. unfold logged, with_log. rewrite app_nil_r. destruct w; auto. Qed.
Lemma logged_app e1 e2 w : logged e2 (logged e1 w) = logged (e1 ++ e2) w.
Proof. unfold logged, with_log. simpl. rewrite app_assoc. auto. Qed.

Lemma emit_pass t evs w : lets_pass t (w_log w) evs -> emit t evs w = Val tt (logged evs w).
Proof.
  revert w. induction evs as [|ev evs IH]; intros w P; cbn [emit].
  - rewrite logged_nil. auto.
  - change (w_log (with_log (fun l => l ++ [ev]) w)) with (w_log w ++ [] ++ [ev]). rewrite (P [] ev evs eq_refl).
    fold (logged [ev] w). rewrite IH, logged_app; auto.
    intros e1 e e2 ->. simpl. rewrite <- app_assoc. apply (P (ev :: e1) e e2). auto.
Qed.
Lemma emit_stop t e1 ev e2 n w : lets_pass t (w_log w) e1 -> t ev (w_log w ++ e1 ++ [ev]) = Some n ->
  emit t (e1 ++ ev :: e2) w = Exc (UserExn n) (logged (e1 ++ [ev]) w).
Proof.
  intros P T. rewrite emit_app. rewrite (bind_val _ _ _ (emit_pass P)). cbn [emit].
  fold (logged [ev] (logged e1 w)). rewrite logged_app. cbn [logged w_log with_log]. rewrite T. auto.
Qed.

Lemma emit_heap t evs w u w2 : emit t evs w = Val u w2 -> w_caches w2 = w_caches w /\ w_stores w2 = w_stores w.
Proof.
  revert w. induction evs as [|ev evs IH]; intros w Q; cbn [emit] in Q; [inversion Q; auto|].
  destruct (t ev _); [discriminate|]. apply IH in Q. exact Q.
Qed.

(** ** call_each *)
Lemma call_each_emit t sel c mk f w x : slot (w_caches w) c = Some x ->
  (forall id w', w_caches w' = w_caches w -> w_stores w' = w_stores w -> mk id w' = Val (f id) w') ->
  call_each (throwing t E) sel c mk w = emit t (map f (sel (c_cbs x))) w.
Proof.
  intros A M. unfold call_each. erewrite bind_val by (eapply get_cache_ev; exact A).
  generalize (sel (c_cbs x)) at 2 3 as ids. intros ids. revert w A M.
  induction ids as [|id ids IH]; intros w A M; cbn [map emit call_each_from]; auto.
  rewrite (bind_val _ _ _ (M id w eq_refl eq_refl)). unfold bind at 1. cbn [cb throwing with_cb].
  destruct (t (f id) _); auto.
  erewrite bind_val by (eapply get_cache_ev; exact A). 
  assert (N : natlist_eqb (sel (c_cbs x)) (sel (c_cbs x)) = true).
  { generalize (sel (c_cbs x)). intros q. induction q; simpl; auto. rewrite Nat.eqb_refl; auto. }
  rewrite N. apply IH; auto.
Qed.

Lemma register_hit_emit t w c x s l cl k : at_ w c x s -> rep_store (c_rid x) s l -> In cl l ->
  (forall i, c_stats x = Some i -> slot (w_stats w) i <> None) ->
  register_hit (throwing t E) c k (c_rid x, cl_m cl) w =
  emit t (hit_events (c_cbs x) k (e_val (cl_e cl))) (noted (c_stats x) (stats_register_hit E k) [] w).
Proof.
  intros A R I S. unfold register_hit. erewrite bind_val by (eapply get_cache_ev; exact (proj1 A)).
  change (stats_register_hit (throwing t E)) with (stats_register_hit E).
  rewrite (bind_val _ _ _ (count_ev _ (stats_register_hit E k) S)).
  unfold hit_events. rewrite emit_app. set (w1 := noted _ _ _ w). assert (A1 : at_ w1 c x s) by exact A.
  unfold bind at 1.
  rewrite (@call_each_emit t hit_cbs c _ (fun id => EvHit id k (e_val (cl_e cl))) w1 x (proj1 A1)).
  - unfold bind at 1. destruct (emit t (map _ _) w1) as [u w2|e w2|u|e] eqn:Q; auto.
    assert (H : w_caches w2 = w_caches w1 /\ w_stores w2 = w_stores w1).
    { exact (emit_heap Q). }
    apply call_each_emit; auto. rewrite (proj1 H). exact (proj1 A1).
  - intros id w' _ Hs. assert (H : slot (w_stores w') (c_rid x) = Some s) by (rewrite Hs; exact (proj2 A1)).
    unfold bind. erewrite deref_ev; [|exact H|exact R|exact I]. auto.
Qed.

Lemma register_miss_emit t w c x k : slot (w_caches w) c = Some x ->
  (forall i, c_stats x = Some i -> slot (w_stats w) i <> None) ->
  register_miss (throwing t E) c k w =
  emit t (miss_events (c_cbs x) k) (noted (c_stats x) (stats_register_miss E k) [] w).
Proof.
  intros A S. unfold register_miss. erewrite bind_val by (eapply get_cache_ev; exact A).
  change (stats_register_miss (throwing t E)) with (stats_register_miss E).
  rewrite (bind_val _ _ _ (count_ev _ (stats_register_miss E k) S)).
  unfold miss_events. rewrite emit_app. set (w1 := noted _ _ _ w). assert (A1 : slot (w_caches w1) c = Some x) by exact A.
  unfold bind at 1.
  rewrite (@call_each_emit t miss_cbs c _ (fun id => EvMiss id k) w1 x A1); auto.
  unfold bind at 1. destruct (emit t (map _ _) w1) as [u w2|e w2|u|e] eqn:Q; auto.
  assert (H : w_caches w2 = w_caches w1 /\ w_stores w2 = w_stores w1).
  { exact (emit_heap Q). }
  apply call_each_emit; auto. rewrite (proj1 H). exact A1.
Qed.

(** ** The shape of an access *)

(** After the callbacks neither the log nor any statistics change. *)
Definition kept w w' : Prop :=
  w_log w' = w_log w /\ w_stats w' = w_stats w /\
  forall d, option_map c_stats (slot (w_caches w') d) = option_map c_stats (slot (w_caches w) d).
Lemma kept_refl w : kept w w.
Proof. repeat split. Qed.
Lemma kept_trans a b c : kept a b -> kept b c -> kept a c.
Proof. intros (A1 & A2 & A3) (B1 & B2 & B3). split; [|split]; try congruence; intros d; rewrite B3; auto. Qed.
Lemma ticked_kept A (m : M world A) : within ticked m -> within kept m.
Proof. apply w_weaken. intros a b (H1 & _ & H3 & H4 & _). split; [|split]; auto. rewrite H1. auto. Qed.
Lemma same_kept A (m : M world A) : within (@eq world) m -> within kept m.
Proof. apply w_weaken. intros a b ->. apply kept_refl. Qed.
Lemma k_bind A B (m : M world A) (k : A -> M world B) :
  within kept m -> (forall a, within kept (k a)) -> within kept (bind m k).
Proof. intros. apply w_bind; auto. exact kept_trans. Qed.
Lemma k_ret A (a : A) : within kept (ret a : M world A).
Proof. apply w_ret. exact kept_refl. Qed.
Lemma k_put_store r s : within kept (put_store r s).
Proof. intros w. simpl. repeat split. Qed.
Lemma k_set_last c p : within kept (@set_last K V c p).
Proof.
  intros w. unfold set_last, bind, get_cache. destruct (slot (w_caches w) c) as [x|] eqn:Q; [|exact I].
  unfold put_cache, modify. simpl. split; [|split]; auto. intros d. destruct (Nat.eq_dec c d) as [<-|N]; simpl.
  - erewrite slot_upd_same by exact Q. rewrite Q. auto.
  - rewrite slot_upd_other; auto.
Qed.
Hint Resolve k_ret k_put_store k_set_last same_kept : kp.
Hint Resolve e_get_cache e_get_store e_deref e_deref_it e_own e_map_find e_size e_u_deref e_read_entry e_last_is : kp.
Ltac k1 :=
  match goal with
  | |- within _ (ret _) => apply k_ret
  | |- within _ (throw _) => apply w_throw; exact kept_refl
  | |- within _ (undef _) => apply w_undef; exact kept_refl
  | |- within _ (bind _ _) => apply k_bind; [|intros]
  | |- within _ (let '(_, _) := ?x in _) => destruct x
  | |- within _ (match ?x with _ => _ end) => destruct x
  | |- within _ (if ?b then _ else _) => destruct b
  end.
Ltac kb := repeat (k1; auto with kp); auto with kp.
Lemma k_update_node p f : within kept (@update_node K V p f).
Proof. unfold update_node. kb. Qed.
Lemma k_splice c q : within kept (@list_splice_back K V c q).
Proof. unfold list_splice_back. kb. Qed.
Lemma k_list_erase c q : within kept (@list_erase K V c q).
Proof. unfold list_erase. kb. Qed.
Lemma k_map_erase_it c i : within kept (@map_erase_it K V c i).
Proof. unfold map_erase_it. kb. Qed.
Hint Resolve k_update_node k_splice k_list_erase k_map_erase_it : kp.
Lemma k_move c q : within kept (@move_to_front K V c q).
Proof. unfold move_to_front. kb. Qed.
Lemma k_erase_it c i : within kept (erase_it E c i).
Proof. unfold erase_it, invalidate_last. kb. Qed.
Hint Resolve k_move k_erase_it : kp.
Lemma k_erase_u c it : within kept (erase_u E c it).
Proof. unfold erase_u. kb. Qed.
Lemma k_u_entry it : within kept (u_entry E it).
Proof. apply ticked_kept, e_u_entry. Qed.
Lemma k_denotes c it : within kept (@denotes K V c it).
Proof. unfold denotes. kb. Qed.
Hint Resolve k_erase_u k_u_entry k_denotes : kp.

Definition shape {A} c k w (m : trig -> M world A) : Prop :=
  exists evs w1 suf, within kept suf /\
    w_caches w1 = w_caches w /\ w_stores w1 = w_stores w /\ w_log w1 = w_log w /\
    (evs = [] \/ exists x hit, slot (w_caches w) c = Some x /\
       w_stats w1 = counted (c_stats x) (if hit : bool then stats_register_hit E k else stats_register_miss E k) (w_stats w) /\
       forall ev, In ev evs -> about ev = (k, hit)) /\
    forall t, m t w = (emit t evs;;; suf) w1.

Lemma shape_bind A B c k w (m : trig -> M world A) (g : A -> M world B) :
  shape c k w m -> (forall a, within kept (g a)) -> shape c k w (fun t => bind (m t) g).
Proof.
  intros (evs & w1 & suf & S & C1 & C2 & C3 & H & D) Kg. exists evs, w1, (bind suf g). split; [apply k_bind; auto|].
  split; auto. split; auto. split; auto. split; auto. intros t. rewrite <- bind_assoc. unfold bind in *. rewrite D. auto.
Qed.
Lemma shape_pre A B c k w (m : M world A) (g : trig -> A -> M world B) a w0 : m w = Val a w0 -> ticked w w0 ->
  shape c k w0 (fun t => g t a) -> shape c k w (fun t => bind m (g t)).
Proof.
  intros Q (T1 & T2 & T3 & T4 & _) (evs & w1 & suf & S & C1 & C2 & C3 & H & D). exists evs, w1, suf.
  split; auto. split; [congruence|]. split; [congruence|]. split; [congruence|]. split.
  - destruct H as [H|(x & hit & H1 & H2 & H3)]; auto. right. exists x, hit. rewrite T1 in H1. rewrite T3 in H2. auto.
  - intros t. rewrite (bind_val _ _ _ Q). auto.
Qed.
Lemma shape_none A c k w (m : M world A) : within kept m -> shape c k w (fun _ => m).
Proof. intros H. exists [], w, m. split; [exact H|]. split; [auto|]. split; [auto|]. split; [auto|]. split; [left; auto|]. intros t. auto. Qed.
Lemma shape_eq A c k w (m m' : trig -> M world A) : (forall t, m t w = m' t w) -> shape c k w m' -> shape c k w m.
Proof. intros H (evs & w1 & suf & S & C1 & C2 & C3 & D & Q). exists evs, w1, suf.
  split; auto. split; auto. split; auto. split; auto. split; auto. intros t. rewrite H. auto. Qed.

Lemma shape_hit w c x s l cl k : inv w -> at_ w c x s -> sound x s l -> In cl l ->
  shape c k w (fun t => register_hit (throwing t E) c k (c_rid x, cl_m cl)).
Proof.
  intros I A So In1. pose proof (inv_stats I A) as St.
  exists (hit_events (c_cbs x) k (e_val (cl_e cl))), (noted (c_stats x) (stats_register_hit E k) [] w), (ret tt).
  split; [apply k_ret|]. split; auto. split; auto. split; [apply app_nil_r|]. split.
  - right. exists x, true. split; [exact (proj1 A)|]. split; auto. intros ev H. unfold hit_events in H.
    apply in_app_or in H as [H|H]; apply in_map_iff in H as (i & <- & _); auto.
  - intros t. rewrite (register_hit_emit t k A (so_rep So) In1 St). unfold bind. destruct (emit _ _ _) as [[] ?| | |]; auto.
Qed.
Lemma shape_miss w c x s k : inv w -> at_ w c x s ->
  shape c k w (fun t => register_miss (throwing t E) c k).
Proof.
  intros I A. pose proof (inv_stats I A) as St.
  exists (miss_events (c_cbs x) k), (noted (c_stats x) (stats_register_miss E k) [] w), (ret tt).
  split; [apply k_ret|]. split; auto. split; auto. split; [apply app_nil_r|]. split.
  - right. exists x, false. split; [exact (proj1 A)|]. split; auto. intros ev H. unfold miss_events in H.
    apply in_app_or in H as [H|H]; apply in_map_iff in H as (i & <- & _); auto.
  - intros t. rewrite (register_miss_emit t k (proj1 A) St). unfold bind. destruct (emit _ _ _) as [[] ?| | |]; auto.
Qed.

Lemma ticked_tock w : ticked w (tock w).
Proof. repeat split. Qed.

Lemma shape_find w c k : inv w -> alive w c = true -> shape c k w (fun t => find (throwing t E) c k).
Proof.
  intros I Al. destruct (inv_here I Al) as (x & s & l & A & So). pose proof (so_rep So) as R.
  assert (Miss : forall w (it : uiter), inv w -> at_ w c x s -> shape c k w (fun t => register_miss (throwing t E) c k;;; ret it)).
  { intros v it Iv Av. apply shape_bind; [eapply shape_miss; eauto|]. intros. apply k_ret. }
  assert (Hit : forall w cl, inv w -> at_ w c x s -> In cl l ->
     shape c k w (fun t => find_hit (throwing t E) c k ((c_rid x, cl_m cl), s_epoch s);;; 
                           ret (uiter_of c (Some ((c_rid x, cl_m cl), s_epoch s))))).
  { intros v cl Iv Av Ic. apply shape_bind; [|intros; apply k_ret]. unfold find_hit.
    eapply shape_pre; [eapply deref_it_ev; [exact (proj2 Av)|exact R|exact Ic]|apply ticked_refl|].
    apply shape_bind; [eapply shape_hit; eauto|]. intros _. kb. }
  unfold find. eapply shape_pre; [eapply get_cache_ev; exact (proj1 A)|apply ticked_refl|].
  assert (Mf : forall B (g : trig -> option miter -> M world B), 
     shape c k w (fun t => g t (option_map (fun cl => ((c_rid x, cl_m cl), s_epoch s)) (find_cell k l))) ->
     shape c k w (fun t => bind (map_find (throwing t E) c k) (g t))).
  { intros B g H. eapply (shape_pre (m := map_find E c k)); [eapply (f_map_find Fr); eauto|apply ticked_refl|exact H]. }
  destruct (c_ttl x) as [d|].
  - apply Mf. destruct (find_cell k l) as [cl|] eqn:Q; cbn [option_map]; cbv beta iota.
    + apply find_some in Q as (Ic & Hk).
      eapply shape_pre; [eapply deref_it_ev; [exact (proj2 A)|exact R|exact Ic]|apply ticked_refl|].
      eapply (shape_pre (m := has_expired_info E d _)); [apply has_expired_ev|apply ticked_tock|].
      pose proof (inv_tock I) as It. destruct (Z.ltb _ _).
      * apply (Miss (tock w)); auto.
      * apply (Hit (tock w)); auto.
    + apply Miss; auto.
  - apply Mf. destruct (find_cell k l) as [cl|] eqn:Q; cbn [option_map]; cbv beta iota.
    + apply find_some in Q as (Ic & Hk). apply Hit; auto.
    + apply Miss; auto.
Qed.

Lemma shape_lookup w c k : inv w -> alive w c = true -> shape c k w (fun t => lookup (throwing t E) c k).
Proof.
  intros I Al. destruct (inv_here I Al) as (x & s & l & A & So). pose proof (so_rep So) as R.
  unfold lookup. destruct (last_is_ev2 k A So) as (b & Hb & T & F).
  eapply (shape_pre (m := last_is E c k)); [exact Hb|apply ticked_refl|]. destruct b.
  - destruct (T eq_refl) as (cl & I1 & L & Hk).
    assert (Hit : forall w, inv w -> at_ w c x s ->
      shape c k w (fun t => register_hit (throwing t E) c k (c_rid x, cl_m cl);;; ret (c_rid x, cl_m cl))).
    { intros v Iv Av. apply shape_bind; [eapply shape_hit; eauto|]. intros; apply k_ret. }
    assert (Vl : value_for_last_accessed E c w =
      match c_ttl x with
      | None => Val (c_rid x, cl_m cl) w
      | Some d => if Z.ltb d (dcast E (clock E (w_reads w) - e_time (cl_e cl))) then Exc KeyExpired (tock w) else Val (c_rid x, cl_m cl) (tock w)
      end).
    { unfold value_for_last_accessed. erewrite bind_val by (eapply get_cache_ev; exact (proj1 A)).
      unfold last_ptr. rewrite bind_assoc. erewrite bind_val by (eapply get_cache_ev; exact (proj1 A)). rewrite L, bind_ret.
      destruct (c_ttl x) as [d|]; auto.
      erewrite bind_val by (eapply deref_ev; [exact (proj2 A)|exact R|exact I1]).
      rewrite (bind_val _ _ _ (has_expired_ev _ _ _ _)). cbn [n_time node_of]. destruct (Z.ltb _ _); auto. }
    destruct (c_ttl x) as [d|].
    + destruct (Z.ltb _ _).
      * apply (@shape_eq _ c k w _ (fun _ => fun w => Exc KeyExpired (tock w))).
        { intros t. unfold bind. change (value_for_last_accessed (throwing t E)) with (value_for_last_accessed E). rewrite Vl. auto. }
        apply shape_none. intros v. simpl. repeat split.
      * eapply (shape_pre (m := value_for_last_accessed E c)); [exact Vl|apply ticked_tock|]. apply (Hit (tock w)); auto. apply inv_tock; auto.
    + eapply (shape_pre (m := value_for_last_accessed E c)); [exact Vl|apply ticked_refl|]. apply Hit; auto.
  - apply (@shape_bind _ _ c k w (fun t => find (throwing t E) c k) (fun it => if u_eq it (unordered_end c) then throw KeyNotFound else u_entry E it)).
    + apply shape_find; auto.
    + intros it. kb.
Qed.

Lemma shape_contains w c k : inv w -> alive w c = true -> shape c k w (fun t => contains (throwing t E) c k).
Proof.
  intros I Al. destruct (inv_here I Al) as (x & s & l & A & So). pose proof (so_rep So) as R.
  unfold contains. destruct (last_is_ev2 k A So) as (b & Hb & T & F).
  eapply (shape_pre (m := last_is E c k)); [exact Hb|apply ticked_refl|]. destruct b.
  - destruct (T eq_refl) as (cl & I1 & L & Hk).
    assert (Hit : forall w, inv w -> at_ w c x s ->
      shape c k w (fun t => p <- last_ptr c;; register_hit (throwing t E) c k p;;; ret true)).
    { intros v Iv Av. eapply shape_pre with (w0 := v) (a := (c_rid x, cl_m cl)); [|apply ticked_refl|].
      - unfold last_ptr. erewrite bind_val by (eapply get_cache_ev; exact (proj1 Av)). rewrite L. auto.
      - apply shape_bind; [eapply shape_hit; eauto|]. intros; apply k_ret. }
    assert (Vl : last_accessed_is_ok E c w =
      match c_ttl x with
      | None => Val true w
      | Some d => Val (negb (Z.ltb d (dcast E (clock E (w_reads w) - e_time (cl_e cl))))) (tock w)
      end).
    { unfold last_accessed_is_ok. erewrite bind_val by (eapply get_cache_ev; exact (proj1 A)).
      destruct (c_ttl x) as [d|]; auto.
      unfold last_ptr. rewrite bind_assoc. erewrite bind_val by (eapply get_cache_ev; exact (proj1 A)). rewrite L, bind_ret.
      erewrite bind_val by (eapply deref_ev; [exact (proj2 A)|exact R|exact I1]).
      rewrite (bind_val _ _ _ (has_expired_ev _ _ _ _)). auto. }
    destruct (c_ttl x) as [d|].
    + eapply (shape_pre (m := last_accessed_is_ok E c)); [exact Vl|apply ticked_tock|]. destruct (Z.ltb _ _); cbn [negb]; cbv iota.
      * apply shape_none, k_ret.
      * apply (Hit (tock w)); auto. apply inv_tock; auto.
    + eapply (shape_pre (m := last_accessed_is_ok E c)); [exact Vl|apply ticked_refl|]. apply Hit; auto.
  - apply (@shape_bind _ _ c k w (fun t => find (throwing t E) c k) (fun it => ret (negb (u_eq it (unordered_end c))))).
    + apply shape_find; auto.
    + intros it. apply k_ret.
Qed.

Lemma shape_access w o c k : inv w -> asks o = Some (c, k) -> shape c k w (fun t => exec (throwing t E) o).
Proof.
  intros I As.
  assert (W : well_formed w o = alive w c) by (destruct o; try discriminate; inversion As; subst; auto).
  apply (@shape_eq _ c k w _ (fun t => if alive w c then body (throwing t E) o else ret RIll)).
  { intros t. unfold exec. rewrite W. destruct (alive w c); auto. }
  destruct (alive w c) eqn:Al; [|apply shape_none, k_ret].
  destruct o; try discriminate; inversion As; subst; cbn [body].
  - apply (@shape_bind _ _ c k w (fun t => find (throwing t E) c k) (fun it => e <- denotes c it;; ret (ROpt e))); [apply shape_find; auto|]. intros. kb.
  - apply (@shape_bind _ _ c k w (fun t => find (throwing t E) c k) (fun it => p <- u_entry E it;; e <- read_entry p;; ret (ROpt (Some e)))); [apply shape_find; auto|]. intros. kb.
  - apply (@shape_bind _ _ c k w (fun t => contains (throwing t E) c k)); [apply shape_contains; auto|]. intros. kb.
  - apply (@shape_bind _ _ c k w (fun t => lookup (throwing t E) c k)); [apply shape_lookup; auto|]. intros. kb.
  - apply (@shape_bind _ _ c k w (fun t => lookup (throwing t E) c k)); [apply shape_lookup; auto|]. intros. kb.
  - apply (@shape_bind _ _ c k w (fun t => find (throwing t E) c k) (fun it => erase_u E c it;;; ret RUnit)); [apply shape_find; auto|]. intros. kb.
Qed.

(** ** Statistics calls only see statistics *)
Definition agree w1 w2 : Prop :=
  w_stats w1 = w_stats w2 /\
  forall d, option_map c_stats (slot (w_caches w1) d) = option_map c_stats (slot (w_caches w2) d).

Definition alike {A} (r1 r2 : res world A) : Prop :=
  match r1, r2 with
  | Val a w1, Val b w2 => a = b /\ agree w1 w2
  | Exc e w1, Exc f w2 => e = f /\ agree w1 w2
  | Undef u, Undef v => u = v
  | Term e, Term f => e = f
  | _, _ => False
  end.
Lemma alike_bind A B (m : M world A) (k : A -> M world B) w1 w2 : alike (m w1) (m w2) ->
  (forall a w1 w2, agree w1 w2 -> alike (k a w1) (k a w2)) -> alike (bind m k w1) (bind m k w2).
Proof.
  intros H C. unfold bind. destruct (m w1), (m w2); simpl in *; try contradiction; auto.
  destruct H as (-> & H). auto.
Qed.
Lemma alike_stats c w1 w2 : agree w1 w2 -> alike (stats c w1) (stats c w2).
Proof.
  intros (S & C). unfold stats, bind, get_cache. specialize (C c) as Cc.
  destruct (slot (w_caches w1) c) as [x1|], (slot (w_caches w2) c) as [x2|]; try discriminate; simpl; auto.
  inversion Cc as [Q]. rewrite Q. destruct (c_stats x2); simpl; split; auto; split; auto.
Qed.
Lemma alike_get i w1 w2 : agree w1 w2 -> alike (get_stats i w1) (get_stats i w2).
Proof. intros (S & C). unfold get_stats. rewrite S. destruct (slot _ _); simpl; auto. split; auto. split; auto. Qed.
Lemma alike_put i y w1 w2 : agree w1 w2 -> alike (put_stats i y w1) (put_stats i y w2).
Proof. intros (S & C). unfold put_stats, modify. simpl. split; auto. split; simpl; auto. congruence. Qed.
Lemma alike_ret A (a : A) w1 w2 : agree w1 w2 -> alike (ret a w1) (ret a w2).
Proof. simpl. auto. Qed.

Lemma alike_query q d w1 w2 : uses_stats q = Some d -> agree w1 w2 -> alike (exec E q w1) (exec E q w2).
Proof.
  intros U A.
  assert (W : forall w, well_formed w q = alive w d) by (intros; destruct q; try discriminate; inversion U; subst; auto).
  assert (Al : alive w1 d = alive w2 d).
  { unfold alive. pose proof (proj2 A d) as H. destruct (slot (w_caches w1) d), (slot (w_caches w2) d); try discriminate; auto. }
  unfold exec. rewrite !W, Al. destruct (alive w2 d); [|apply alike_ret; auto].
  assert (Upd : forall c f, alike (stats_update_or c f w1) (stats_update_or c f w2)).
  { intros c f. unfold stats_update_or. apply alike_bind; [apply alike_stats; auto|]. intros i v1 v2 H.
    apply alike_bind; [apply alike_get; auto|]. intros y u1 u2 H'. destruct (f y); [|split; auto].
    apply alike_bind; [apply alike_put; auto|]. intros; apply alike_ret; auto. }
  destruct q; try discriminate; cbn [body]; auto;
    (apply alike_bind; [apply alike_stats; auto|]; intros i v1 v2 H;
     apply alike_bind; [apply alike_get; auto|]; intros y u1 u2 H'; try (apply alike_ret; auto)).
  destruct (stats_for E y k); [apply alike_ret; auto|split; auto].
Qed.

Lemma agree_run qs : forall w1 w2, Forall (fun q => uses_stats q <> None) qs -> agree w1 w2 ->
  seen (run E qs w1) = seen (run E qs w2).
Proof.
  induction qs as [|q qs IH]; intros w1 w2 F A; auto. inversion F as [|? ? Hq Fq]; subst.
  destruct (uses_stats q) as [d|] eqn:U; [|contradiction]. pose proof (alike_query U A) as H.
  cbn [run]. destruct (exec E q w1), (exec E q w2); simpl in H; try contradiction.
  - destruct H as (-> & H). specialize (IH _ _ Fq H). destruct (run E qs s), (run E qs s0); simpl in *; congruence.
  - destruct H as (-> & H). specialize (IH _ _ Fq H). destruct (run E qs s), (run E qs s0); simpl in *; congruence.
  - subst; auto.
  - subst; auto.
Qed.

(** ** The theorem *)
Lemma throw_access t w o c k r w'' : inv w -> asks o = Some (c, k) ->
  call (throwing (fun _ _ => None) E) o w r w'' ->
  exists evs, w_log w'' = w_log w ++ evs /\
    (lets_pass t (w_log w) evs -> call (throwing t E) o w r w'') /\
    forall e1 ev e2 n, evs = e1 ++ ev :: e2 -> lets_pass t (w_log w) e1 -> t ev (w_log w ++ e1 ++ [ev]) = Some n ->
      exists w', call (throwing t E) o w (Threw (UserExn n)) w' /\ w_log w' = w_log w ++ e1 ++ [ev] /\
        (forall d l, contents E d w l -> contents E d w' l) /\
        (forall d i, size_is E d w i -> size_is E d w' i) /\
        (forall d i, capacity_is E d w i -> capacity_is E d w' i) /\
        (forall x, totals_are E c w x -> totals_are E c w' (counts (snd (about ev)) x)) /\
        (forall qs, Forall (fun q => uses_stats q <> None) qs -> seen (run E qs w') = seen (run E qs w'')).
Proof.
  intros I As C. destruct (shape_access I As) as (evs & w1 & suf & Ks & C1 & C2 & C3 & H & D).
  assert (Q : forall u, emit (fun _ _ => None) u w1 = Val tt (logged u w1)).
  { intros u. apply emit_pass. intros a b d _. auto. }
  assert (D0 : exec (throwing (fun _ _ => None) E) o w = suf (logged evs w1)).
  { rewrite D. rewrite (bind_val _ _ _ (Q evs)). auto. }
  specialize (Ks (logged evs w1)).
  assert (Kw : kept (logged evs w1) w'').
  { unfold call in C. destruct r; rewrite C in D0; rewrite <- D0 in Ks; auto. }
  destruct Kw as (L & S & Cs). exists evs. split; [rewrite L; simpl; congruence|]. split.
  - intros P. assert (X : exec (throwing t E) o w = exec (throwing (fun _ _ => None) E) o w).
    { rewrite D0, D. rewrite <- C3 in P. rewrite (bind_val _ _ _ (emit_pass P)). auto. }
    unfold call in *. rewrite X. auto.
  - intros e1 ev e2 n -> P T. rewrite <- C3 in P, T. pose proof (emit_stop e2 P T) as X.
    exists (logged (e1 ++ [ev]) w1). split; [unfold call; rewrite D; unfold bind; rewrite X; auto|].
    split; [simpl; congruence|].
    assert (At : forall d x s, at_ w d x s -> at_ (logged (e1 ++ [ev]) w1) d x s).
    { intros d x s (A1 & A2). split; simpl; [rewrite C1|rewrite C2]; auto. }
    split; [|split; [|split; [|split]]].
    + intros d l Hc. destruct (contents_inv Fr I Hc) as (x & s & cl & A & So & ->).
      eapply contents_at; eauto using so_rep.
    + intros d i Hs. assert (Al : alive w d = true).
      { unfold size_is, exec in Hs. cbn [well_formed] in Hs. destruct (alive w d); auto. discriminate. }
      destruct (inv_here I Al) as (x & s & cl & A & So). pose proof (size_at E A) as Z. 
      unfold size_is in Hs, Z. rewrite Hs in Z. inversion Z. eapply size_at; eauto.
    + intros d i Hc. destruct (capacity_inv I Hc) as (x & s & cl & A & So & ->). eapply capacity_at; eauto.
    + intros x Tx. destruct H as [H|(y & hit & Hy & Hs & He)]; [destruct e1; discriminate|].
      rewrite (He ev ltac:(apply in_or_app; right; left; auto)). cbn [snd].
      revert Tx. unfold totals_are, exec. cbn [well_formed body]. unfold alive, stats, get_cache, get_stats, bind.
      change (w_caches (logged (e1 ++ [ev]) w1)) with (w_caches w1). rewrite C1, Hy. destruct (c_stats y) as [i|] eqn:Sy; [|discriminate].
      cbn [ret]. change (w_stats (logged (e1 ++ [ev]) w1)) with (w_stats w1). rewrite Hs. unfold counted. destruct (slot (w_stats w) i) as [z|] eqn:Sz; [|discriminate].
      intros Tx. inversion Tx as [[X1 X2 X3]]. erewrite slot_upd_same by exact Sz. clear Tx.
      destruct x as ((ra & rh) & rm). simpl in X1, X2, X3.
      unfold total_misses, total_accesses, total_hits, counts, ret, wrap64, size_t in *.
      rewrite <- X1, <- X2, <- X3. destruct hit; cbn [stats_register_hit stats_register_miss st_acc st_hits fst snd];
        unfold wrap64, size_t.
      * rewrite <- Zminus_mod. replace (st_acc z + 1 - (st_hits z + 1))%Z with (st_acc z - st_hits z)%Z by lia. auto.
      * rewrite Zminus_mod_idemp_l, Zplus_mod_idemp_l.
        replace (st_acc z + 1 - st_hits z)%Z with (st_acc z - st_hits z + 1)%Z by lia. auto.
    + intros qs F. apply agree_run; auto. split; [simpl; rewrite S; auto|]. intros d. rewrite Cs. auto.
Qed.
End FaultCb.
