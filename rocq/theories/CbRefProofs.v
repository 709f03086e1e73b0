(** The containers of callbacks hold what the client's own record says. *)
From Coq Require Import List Arith ZArith Bool Lia.
Import ListNotations.
From Verif Require Import Monad Types Model Api Spec SpecSettings Lists Effects SpecStats SimRel SimRun StatProofs Settings CbRefs SpecCbRefs.
Set Implicit Arguments.
Unset Strict Implicit.
Local Open Scope cpp_scope.

Section CbRefProofs.
Context {K V : Type}.
Variable E : env K V.
Hypothesis Cb : passive E.
Notation world := (world K V).

Definition holds (w : world) (c : nat) (g : kind -> list nat) : Prop :=
  exists x, slot (w_caches w) c = Some x /\ forall q, select q (c_cbs x) = g q.
Definition agree (w : world) (t : sheet) : Prop := forall c g, t c = Some g -> holds w c g.

(** A call keeps the callbacks of every cache it may not set. *)
Lemma holds_kept o w r w' c g : exec E o w = Val r w' \/ (exists e, exec E o w = Exc e w') ->
  may_set_callbacks o c = false -> holds w c g -> holds w' c g.
Proof.
  intros X M (x & Q & S). pose proof (callbacks_kept Cb o w) as W.
  assert (Y : kept_set (fun _ _ b _ => b) (may_set_callbacks o) w w') by (destruct X as [X|(e & X)]; rewrite X in W; exact W).
  destruct (Y c x Q M) as (x' & Q' & S'). exists x'. split; [exact Q'|]. unfold setting in S'. rewrite S'. exact S.
Qed.

Lemma with_new_none n t (b : nat -> M world nat) w c w1 :
  (forall e, within (kept_set (fun _ _ b _ => b) (fun _ => false)) (b e)) ->
  with_new n t b w = Val c w1 -> holds w1 c (fun _ => []).
Proof.
  intros Hb. unfold with_new, new_cache, bind, alloc_store, alloc_cache. simpl.
  set (w2 := with_caches _ _). set (e := length (w_caches w)).
  assert (Q : slot (w_caches w2) e = Some (MkCache (length (w_stores w)) None n None no_callbacks t)).
  { unfold w2, e, slot. simpl. rewrite app_nth2, Nat.sub_diag; auto. }
  specialize (Hb e w2). destruct (b e w2) as [a w'|ex w'|u|ex]; intros H; try discriminate H.
  - injection H as <- <-. destruct (Hb e _ Q eq_refl) as (x & Q' & G). unfold setting in G. simpl in G.
    exists x. split; [exact Q'|]. rewrite G. intros []; reflexivity.
  - unfold destroy, bind, get_cache in H. destruct (slot (w_caches w') e); discriminate H.
Qed.
Lemma made_none o w c w1 : (exists t cap l, builds t o cap l) -> exec E o w = Val (RNat c) w1 -> holds w1 c (fun _ => []).
Proof.
  intros (t & cap & l & B) H.
  destruct B; unfold exec in H; simpl in H; unfold bind in H.
  - unfold new_cache, bind, alloc_store, alloc_cache in H. simpl in H. injection H as <- <-.
    eexists. simpl. split; [unfold slot; rewrite app_nth2 by auto; rewrite Nat.sub_diag; reflexivity|intros []; reflexivity].
  - destruct (new_from E cap t l w) as [c' w'|e w'|u|e] eqn:N; try discriminate H. injection H as <- <-.
    eapply with_new_none; [|exact N]. intros e. apply k_insert_range; auto.
  - destruct (new_from_move E cap t l w) as [c' w'|e w'|u|e] eqn:N; try discriminate H. injection H as <- <-.
    eapply with_new_none; [|exact N]. intros e. apply k_insert_move; auto.
  - destruct (new_from_iters E t l w) as [c' w'|e w'|u|e] eqn:N; try discriminate H. injection H as <- <-.
    eapply with_new_none; [|exact N]. intros e. apply k_insert_range; auto.
  - destruct (new_from_rvalue E t l w) as [c' w'|e w'|u|e] eqn:N; try discriminate H. injection H as <- <-.
    eapply with_new_none; [|exact N]. intros e. apply k_insert_move; auto.
  - destruct (new_from_list E t l w) as [c' w'|e w'|u|e] eqn:N; try discriminate H. injection H as <- <-.
    eapply with_new_none; [|exact N]. intros e. apply k_insert_range; auto.
Qed.
Lemma slot_in {A} (l : list (option A)) c x : slot l c = Some x -> c < length l.
Proof. intros Q. destruct (le_lt_dec (length l) c); auto. unfold slot in Q. rewrite nth_overflow in Q by auto. discriminate Q. Qed.
Lemma moved_none d w c w1 : exec E (Move d) w = Val (RNat c) w1 -> holds w1 c (fun _ => []).
Proof.
  intros H. unfold exec in H. simpl in H. destruct (alive w d) eqn:Al; [|discriminate H].
  unfold move_new, base_swap, bind, get_cache, new_cache, alloc_store, alloc_cache in H.
  destruct (slot (w_caches w) d) as [x|] eqn:Q; [|discriminate H].
  destruct (junk E) as [n|]; [|discriminate H]. simpl in H. pose proof (slot_in Q) as L.
  assert (P : forall (l : list (option cache)) b e, e < length l -> slot (l ++ [b]) e = slot l e).
  { intros. unfold slot. rewrite app_nth1; auto. }
  assert (P' : forall (l : list (option cache)) b, slot (l ++ [b]) (length l) = b).
  { intros. unfold slot. rewrite app_nth2, Nat.sub_diag; auto. }
  simpl in H. rewrite P' in H. simpl in H. rewrite P in H by auto. rewrite Q in H.
  destruct (Nat.eqb_spec (length (w_caches w)) d); [lia|]. simpl in H. injection H as <- <-.
  eexists. simpl. split; [|].
  - rewrite slot_upd_other by lia. erewrite slot_upd_same by apply P'. reflexivity.
  - intros []; reflexivity.
Qed.
Lemma fallible_caches w a w1 : fallible E w = Val a w1 -> w_caches w1 = w_caches w.
Proof. unfold fallible. destruct (fails E (w_steps w)); intros H; inversion H; reflexivity. Qed.
Lemma copied d w c w1 g : exec E (Copy d) w = Val (RNat c) w1 -> holds w d g -> holds w1 c g.
Proof.
  intros H (x & Q & S). unfold exec in H. simpl in H. destruct (alive w d) eqn:Al; [|discriminate H].
  unfold copy_new, bind at 1 2, get_cache at 1 in H. rewrite Q in H.
  unfold bind at 1, get_store in H. destruct (slot (w_stores w) (c_rid x)) as [s|]; [|discriminate H].
  unfold bind at 1 in H. destruct (fallible E w) as [a1 w2|? ?|?|?] eqn:F1; try discriminate H.
  unfold bind at 1 in H. destruct (fallible E w2) as [a2 w3|? ?|?|?] eqn:F2; try discriminate H.
  unfold bind at 1, alloc_store at 1 in H. unfold bind at 1, alloc_cache at 1 in H. simpl in H.
  unfold bind at 1 in H.
  match type of H with context [reassign_references E ?e ?w4] => set (w5 := w4) in H; pose proof (@k_reassign_references K V E _ (fun _ _ b _ => b) (fun _ => false) e w5) as R;
    destruct (reassign_references E e w5) as [a5 w6|? ?|?|?]; try discriminate H end.
  injection H as <- <-.
  edestruct (R (length (w_caches w3))) as (x' & Q' & S'); [unfold w5, slot; simpl; rewrite app_nth2, Nat.sub_diag by auto; reflexivity|reflexivity|].
  exists x'. split; [exact Q'|]. unfold setting in S'. rewrite S'. exact S.
Qed.
Lemma copy_assigned c d w w1 g : exec E (CopyAssign c d) w = Val RUnit w1 -> holds w d g -> holds w1 c g.
Proof.
  intros H (y & Q & S). unfold exec in H. destruct (well_formed w (CopyAssign c d)) eqn:W; [|discriminate H].
  simpl in H. unfold copy_assign, noexcept, bind at 1 in H.
  destruct (Nat.eqb_spec c d) as [->|N]; [injection H as <-; exists y; auto|].
  unfold bind at 1, get_cache at 1 in H. destruct (slot (w_caches w) c) as [x|] eqn:Qc; [|discriminate H].
  unfold bind at 1, get_cache at 1 in H. rewrite Q in H.
  unfold bind at 1, get_store in H. destruct (slot (w_stores w) (c_rid y)) as [s|]; [|discriminate H].
  unfold bind at 1 in H. destruct (fallible E w) as [a1 w2|? ?|?|?] eqn:F1; try discriminate H.
  unfold bind at 1 in H. destruct (fallible E w2) as [a2 w3|? ?|?|?] eqn:F2; try discriminate H.
  unfold bind at 1, drop_store at 1, modify at 1 in H. unfold bind at 1, alloc_store at 1 in H.
  unfold bind at 1, put_cache at 1, modify at 1 in H.
  match type of H with context [reassign_references E c ?w4] => set (w5 := w4) in H; pose proof (@k_reassign_references K V E _ (fun _ _ b _ => b) (fun _ => false) c w5) as R;
    destruct (reassign_references E c w5) as [a5 w6|? ?|?|?]; try discriminate H end.
  injection H as <-.
  edestruct (R c) as (x' & Q' & S'); [unfold w5; simpl; rewrite (fallible_caches F2), (fallible_caches F1); erewrite slot_upd_same by exact Qc; reflexivity|reflexivity|].
  exists x'. split; [exact Q'|]. unfold setting in S'. rewrite S'. exact S.
Qed.

(** Registering and clearing. *)
Lemma set_cbs_holds c f w u w1 x : slot (w_caches w) c = Some x -> @set_cbs K V c f w = Val u w1 ->
  exists x', slot (w_caches w1) c = Some x' /\ c_cbs x' = f (c_cbs x).
Proof.
  intros Q H. unfold set_cbs, bind, get_cache in H. rewrite Q in H. unfold put_cache, modify in H. injection H as _ <-.
  simpl. erewrite slot_upd_same by exact Q. eauto.
Qed.
Lemma set_by o c f w w1 g g' : exec E o w = Val RUnit w1 -> body E o = (@set_cbs K V c f;;; ret RUnit) -> holds w c g ->
  (forall b, (forall q, select q b = g q) -> forall q, select q (f b) = g' q) -> holds w1 c g'.
Proof.
  intros H B (x & Q & S) F. unfold exec in H. destruct (well_formed w o); [|discriminate H]. rewrite B in H.
  unfold bind in H. destruct (@set_cbs K V c f w) as [u w2|? ?|?|?] eqn:Y; try discriminate H. injection H as <-.
  destruct (set_cbs_holds Q Y) as (x' & Q' & S'). exists x'. split; [exact Q'|]. rewrite S'. apply F. exact S.
Qed.
Lemma cleared c w w1 : exec E (ClearCallbacks c) w = Val RUnit w1 -> holds w1 c (fun _ => []).
Proof.
  intros H. assert (Al : alive w c = true) by (unfold exec in H; simpl in H; destruct (alive w c); [reflexivity|discriminate H]).
  unfold alive in Al. destruct (slot (w_caches w) c) as [x|] eqn:Q; [|discriminate Al].
  eapply set_by with (g := fun q => select q (c_cbs x)); [exact H|reflexivity|exists x; auto|]. intros b _ []; reflexivity.
Qed.

Lemma enter_agree c x t w w' : (forall g, x = Some g -> holds w' c g) ->
  (forall e g, e <> c -> holds w e g -> holds w' e g) -> agree w t -> agree w' (enter c x t).
Proof.
  intros A B C e g. unfold enter. destruct (Nat.eqb_spec e c) as [->|N]; intros Q; [apply A; exact Q|].
  apply B; [exact N|]. apply C. exact Q.
Qed.
Lemma change_agree c q f t w w' : (forall g, holds w c g -> holds w' c (fun p => if same_kindb p q then f (g p) else g p)) ->
  (forall e g, e <> c -> holds w e g -> holds w' e g) -> agree w t -> agree w' (change c q f t).
Proof.
  intros A B C. apply enter_agree with (w := w); [|exact B|exact C]. intros g Q. destruct (t c) as [g0|] eqn:T; [|discriminate Q].
  injection Q as <-. apply A. apply C. exact T.
Qed.

Lemma note_agrees o w r w' t : exec E o w = Val r w' -> agree w t -> agree w' (note o r t).
Proof.
  intros X A.
  assert (KEEP : forall e g, may_set_callbacks o e = false -> holds w e g -> holds w' e g) by (intros e g; exact (holds_kept (or_introl X))).
  assert (Same : (forall e, may_set_callbacks o e = false) -> agree w' t) by (intros M e g Q; apply KEEP; auto).
  assert (Other : forall c, (forall e, e <> c -> may_set_callbacks o e = false) -> forall e g, e <> c -> holds w e g -> holds w' e g)
    by (intros c M e g N; apply KEEP; auto).
  assert (NE : forall e c, e <> c -> Nat.eqb e c = false) by (intros; apply Nat.eqb_neq; auto).
  assert (ILL : r = RIll -> agree w' t).
  { intros ->. intros e g Q. unfold exec in X. destruct (well_formed w o) eqn:W; [|injection X as <-; apply A; exact Q].
    destruct (may_set_callbacks o e) eqn:M; [|apply KEEP; auto].
    exfalso. clear -X M. destruct o; try discriminate M; simpl in X; unfold bind in X;
      match type of X with match ?m with _ => _ end = _ => destruct m; discriminate X end. }
  destruct o; simpl note; try (apply Same; intros ?; reflexivity).
  all: try (match type of X with exec E (New _ _) _ = _ => idtac | exec E (NewFrom _ _ _) _ = _ => idtac | exec E (NewIters _ _) _ = _ => idtac
    | exec E (NewMove _ _ _) _ = _ => idtac | exec E (NewRvalue _ _) _ = _ => idtac | exec E (NewList _ _) _ = _ => idtac end;
    destruct r; try (apply Same; intros ?; reflexivity);
    (apply enter_agree with (w := w); [|apply Other; intros; reflexivity|exact A]);
    intros g0 Q0; unfold nothing in Q0; injection Q0 as <-; (eapply made_none; [|exact X]); do 3 eexists; constructor).
  { (* copy *) destruct r; try (apply Same; intros ?; reflexivity).
    apply enter_agree with (w := w); [intros g0 Q0; eapply copied; [exact X|apply A; exact Q0]|apply Other; intros; reflexivity|exact A]. }
  { destruct r; try (apply Same; intros ?; reflexivity).
    apply enter_agree with (w := w); [intros g0 Q0; unfold nothing in Q0; injection Q0 as <-; eapply moved_none; exact X|apply Other; intros; reflexivity|exact A]. }
  { (* destruction *) destruct r; try (exfalso; clear -X; unfold exec in X; simpl in X; destruct (alive w c); simpl in X; [unfold bind in X; destruct (destroy c w); discriminate X|discriminate X]).
    - apply ILL. reflexivity.
    - apply enter_agree with (w := w); [discriminate|apply Other; simpl; auto|exact A]. }
  { destruct r; try (exfalso; clear -X; unfold exec in X; destruct (well_formed w (CopyAssign c d)); simpl in X; [unfold bind in X; destruct (copy_assign E c d w); discriminate X|discriminate X]).
    - apply ILL. reflexivity.
    - apply enter_agree with (w := w); [intros g0 Q0; eapply copy_assigned; [exact X|apply A; exact Q0]|apply Other; simpl; intros e N; rewrite (NE _ _ N); reflexivity|exact A]. }
  all: destruct r; try (exfalso; clear -X; unfold exec in X; simpl in X; destruct (alive w c); simpl in X; [|discriminate X];
    unfold add_hit_callback, add_miss_callback, add_access_callback, clear_hit_callbacks, clear_miss_callbacks, clear_access_callbacks, clear_all_callbacks, bind in X;
    match type of X with match ?m with _ => _ end = _ => destruct m; discriminate X end).
  all: try (apply ILL; reflexivity).
  7: apply enter_agree with (w := w); [intros g0 Q0; unfold nothing in Q0; injection Q0 as <-; exact (cleared X)|apply Other; simpl; auto|exact A].
  all: apply change_agree with (w := w); [|apply Other; simpl; auto|exact A];
    intros g0 Hg; eapply set_by; [exact X|reflexivity|exact Hg|]; intros b Sb q; destruct q; simpl; try rewrite <- Sb; reflexivity.
Qed.

(** ** Programs *)
Definition tracked (st : kstate K V) (t : notes) : Prop :=
  agree (k_world st) (regs t) /\ forall r, k_refs st r = refs t r.
Lemma k_in_val {A} (m : M world A) st a st' : k_in m st = Val a st' -> exists w, m (k_world st) = Val a w /\ st' = MkK w (k_refs st).
Proof. unfold k_in. destruct (m (k_world st)); intros H; try discriminate H. injection H as <- <-. eauto. Qed.
Lemma container_at q c w g : holds w c g -> container q c w = Val (g q) w.
Proof. intros (x & Q & S). unfold container, bind, get_cache. rewrite Q. unfold ret. rewrite S. reflexivity. Qed.
Lemma container_same q c w l w' : @container K V q c w = Val l w' -> w' = w.
Proof. unfold container, bind, get_cache. destruct (slot (w_caches w) c); intros H; [|discriminate H]. injection H as _ <-. reflexivity. Qed.

(** Calling each function in a container. *)
Lemma natlist_eqb_refl l : natlist_eqb l l = true.
Proof. induction l; simpl; auto. rewrite Nat.eqb_refl. auto. Qed.
Lemma with_log_log f g (w : world) : with_log f (with_log g w) = with_log (fun l => f (g l)) w.
Proof. destruct w. reflexivity. Qed.
Lemma each_called sel all c mk ids : forall w x, slot (w_caches w) c = Some x -> sel (c_cbs x) = all ->
  call_each_from E sel all c (fun id => ret (mk id)) ids w = Val tt (with_log (fun l => l ++ map mk ids) w).
Proof.
  induction ids as [|i t IH]; intros w x Q S; simpl.
  - unfold ret. f_equal. destruct w. unfold with_log. simpl. rewrite app_nil_r. reflexivity.
  - unfold bind at 1, ret at 1. unfold bind at 1. rewrite Cb. unfold bind at 1, get_cache.
    assert (Q1 : slot (w_caches (with_log (fun l => l ++ [mk i]) w)) c = Some x) by (destruct w; exact Q).
    rewrite Q1, S, natlist_eqb_refl. rewrite (IH _ x Q1 S). rewrite with_log_log. f_equal. destruct w. unfold with_log. simpl.
    rewrite <- app_assoc. reflexivity.
Qed.
Lemma call_each_at q c k v b w g : holds w c g ->
  call_each E (select q) c (fun id => ret (event_of q k v b id)) w = Val tt (with_log (fun l => l ++ calls_of q k v b (g q)) w).
Proof.
  intros (x & Q & S). unfold call_each, bind at 1, get_cache. rewrite Q.
  rewrite (each_called (sel := select q) (event_of q k v b) (select q (c_cbs x)) Q eq_refl), S. unfold calls_of. destruct q; reflexivity.
Qed.
Lemma holds_log f w c g : holds w c g <-> holds (with_log f w) c g.
Proof. destruct w. reflexivity. Qed.
Lemma call_each_from_log sel all c mk ids : forall w u w', call_each_from E sel all c (fun id => ret (mk id)) ids w = Val u w' ->
  w_caches w' = w_caches w.
Proof.
  induction ids as [|i t IH]; intros w u w'; simpl; [intros H; injection H as _ <-; reflexivity|].
  unfold bind at 1, ret at 1. unfold bind at 1. rewrite Cb. unfold bind at 1, get_cache.
  destruct (slot (w_caches (with_log (fun l => l ++ [mk i]) w)) c) as [x|]; [|discriminate].
  destruct (natlist_eqb (sel (c_cbs x)) all); [|discriminate]. intros H. rewrite (IH _ _ _ H). destruct w; reflexivity.
Qed.
Lemma call_each_from_exc sel all c mk ids : forall w e w', call_each_from E sel all c (fun id => ret (mk id)) ids w <> Exc e w'.
Proof.
  induction ids as [|i t IH]; intros w e w'; simpl; [discriminate|].
  unfold bind at 1, ret at 1. unfold bind at 1. rewrite Cb. unfold bind at 1, get_cache.
  destruct (slot (w_caches (with_log (fun l => l ++ [mk i]) w)) c) as [x|]; [|discriminate].
  destruct (natlist_eqb (sel (c_cbs x)) all); [apply IH|discriminate].
Qed.

Lemma tracks st t : k_after E st t -> tracked st t.
Proof.
  induction 1 as [|st t p r st' _ (A & R) X|st t p e st' _ (A & R) X].
  - split; [intros c g Q; discriminate Q|reflexivity].
  - destruct p as [o|q c|i q c|i|i k v b]; simpl in X.
    + unfold bind in X. destruct (k_in (exec E o) st) as [a s1|? ?|?|?] eqn:Y; try discriminate X. injection X as <- <-.
      destruct (k_in_val Y) as (w & Yw & ->). simpl. split; [exact (note_agrees Yw A)|exact R].
    + destruct (alive (k_world st) c); [|injection X as <- <-; split; auto].
      unfold bind in X. destruct (k_in (container q c) st) as [a s1|? ?|?|?] eqn:Y; try discriminate X. injection X as <- <-.
      destruct (k_in_val Y) as (w & Yw & ->). rewrite (container_same Yw). split; auto.
    + destruct (alive (k_world st) c); injection X as <- <-; split; auto. simpl. intros x. destruct (Nat.eqb x i); auto.
    + destruct (k_refs st i) as [(q, c)|]; [|injection X as <- <-; split; auto].
      unfold bind in X. destruct (k_in (container q c) st) as [a s1|? ?|?|?] eqn:Y; try discriminate X. injection X as <- <-.
      destruct (k_in_val Y) as (w & Yw & ->). rewrite (container_same Yw). split; auto.
    + destruct (k_refs st i) as [(q, c)|]; [|injection X as <- <-; split; auto].
      unfold bind in X. match type of X with match ?m with _ => _ end = _ => destruct m as [a s1|? ?|?|?] eqn:Y; try discriminate X end. injection X as <- <-.
      destruct (k_in_val Y) as (w & Yw & ->). split; [|exact R]. simpl.
      assert (C : w_caches w = w_caches (k_world st)).
      { unfold call_each, bind at 1, get_cache in Yw. destruct (slot (w_caches (k_world st)) c); [|discriminate Yw]. exact (call_each_from_log Yw). }
      intros e g Q. destruct (A e g Q) as (x & Qx & S). exists x. rewrite C. auto.
  - destruct p as [o|q c|i q c|i|i k v b]; simpl in X.
    + unfold bind, k_in in X. destruct (exec E o (k_world st)) as [a w|e' w|?|?] eqn:Y; try discriminate X. injection X as <- <-.
      split; [|exact R]. simpl. intros c g Q. 
      destruct (may_set_callbacks o c) eqn:M; [|refine (@holds_kept o (k_world st) RUnit w c g (or_intror (ex_intro _ _ Y)) M (A _ _ Q))].
      exfalso. clear -Y M Cb. unfold exec in Y. destruct (well_formed (k_world st) o); [|discriminate Y].
      destruct o; try discriminate M; simpl in Y.
      * unfold destroy, bind, get_cache in Y. destruct (slot (w_caches (k_world st)) c0); discriminate Y.
      * unfold copy_assign, noexcept, bind at 1 in Y.
        match type of Y with match match ?m with _ => _ end with _ => _ end = _ => destruct m; discriminate Y end.
      * unfold add_hit_callback, set_cbs, bind, get_cache in Y. destruct (slot (w_caches (k_world st)) c0); discriminate Y.
      * unfold add_miss_callback, set_cbs, bind, get_cache in Y. destruct (slot (w_caches (k_world st)) c0); discriminate Y.
      * unfold add_access_callback, set_cbs, bind, get_cache in Y. destruct (slot (w_caches (k_world st)) c0); discriminate Y.
      * unfold clear_hit_callbacks, set_cbs, bind, get_cache in Y. destruct (slot (w_caches (k_world st)) c0); discriminate Y.
      * unfold clear_miss_callbacks, set_cbs, bind, get_cache in Y. destruct (slot (w_caches (k_world st)) c0); discriminate Y.
      * unfold clear_access_callbacks, set_cbs, bind, get_cache in Y. destruct (slot (w_caches (k_world st)) c0); discriminate Y.
      * unfold clear_all_callbacks, set_cbs, bind, get_cache in Y. destruct (slot (w_caches (k_world st)) c0); discriminate Y.
    + exfalso. destruct (alive (k_world st) c); [|discriminate X]. unfold bind, k_in, container, bind, get_cache in X.
      destruct (slot (w_caches (k_world st)) c); discriminate X.
    + destruct (alive (k_world st) c); discriminate X.
    + exfalso. destruct (k_refs st i) as [(q, c)|]; [|discriminate X]. unfold bind, k_in, container, bind, get_cache in X.
      destruct (slot (w_caches (k_world st)) c); discriminate X.
    + exfalso. destruct (k_refs st i) as [(q, c)|]; [|discriminate X]. unfold bind at 1, k_in in X.
      unfold call_each, bind at 1, get_cache in X. destruct (slot (w_caches (k_world st)) c) as [x|]; [|discriminate X].
      match type of X with match match ?m with _ => _ end with _ => _ end = _ => destruct m as [a w|e' w|?|?] eqn:Y; try discriminate X end.
      exact (call_each_from_exc Y).
Qed.

Lemma listed st t c g q : k_after E st t -> regs t c = Some g -> kexec E (KList q c) st = Val (KIds (g q)) st.
Proof.
  intros A Q. destruct (tracks A) as (B & R). pose proof (B c g Q) as H. simpl.
  assert (Al : alive (k_world st) c = true) by (unfold alive; destruct H as (x & -> & _); reflexivity). rewrite Al.
  unfold bind, k_in. rewrite (container_at q H). destruct st. reflexivity.
Qed.
Lemma read_listed st t r c g q : k_after E st t -> refs t r = Some (q, c) -> regs t c = Some g ->
  kexec E (KRead r) st = Val (KIds (g q)) st.
Proof.
  intros A F Q. destruct (tracks A) as (B & R). pose proof (B c g Q) as H. simpl. rewrite R, F.
  unfold bind, k_in. rewrite (container_at q H). destruct st. reflexivity.
Qed.
Lemma each_listed st t r c g q k v b : k_after E st t -> refs t r = Some (q, c) -> regs t c = Some g ->
  exists st', kexec E (KEach r k v b) st = Val (KO RUnit) st' /\ only_called (calls_of q k v b (g q)) (k_world st) (k_world st').
Proof.
  intros A F Q. destruct (tracks A) as (B & R). pose proof (B c g Q) as H. simpl. rewrite R, F.
  unfold bind, k_in. rewrite (call_each_at q k v b H). eexists. split; reflexivity.
Qed.
Lemma dead_reference st t r c q : k_after E st t -> refs t r = Some (q, c) -> alive (k_world st) c = false ->
  kexec E (KRead r) st = Undef DeadObject.
Proof.
  intros A F D. destruct (tracks A) as (_ & R). simpl. rewrite R, F. unfold bind, k_in, container, bind, get_cache.
  unfold alive in D. destruct (slot (w_caches (k_world st)) c); [discriminate D|reflexivity].
Qed.
End CbRefProofs.

(** The containers hold the callbacks that the record of C32 says are called. *)
Section Called.
Context {K V : Type}.
Variable E : env K V.
Hypothesis G : good E.
Lemma called_listed ops outs w c q l : forallb copy_free ops = true -> run E ops init_world = Finished outs w -> alive w c = true ->
  kexec E (KList q c) (MkK w l) = Val (KIds (those q (subs (ledger_of ops outs) c))) (MkK w l).
Proof.
  intros CF RN A. destruct (ledger_holds G CF RN) as (aw & R & I & _).
  destruct (alive_inv R A) as (a & Ha). destruct (proj1 I _ _ Ha) as (_ & Bs).
  simpl. rewrite A. unfold bind, k_in, container, bind, get_cache. simpl.
  pose proof (rel_slot R c) as S. rewrite Ha in S. destruct (slot (w_caches w) c) as [x|]; [|destruct S].
  destruct S as (s & l' & _ & P). rewrite Bs, <- (rp_cbs P). destruct q; reflexivity.
Qed.
End Called.
