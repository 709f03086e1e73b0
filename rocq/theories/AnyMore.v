(** Clearing, copying, destroying and swapping, in any world a program can
    reach. *)
From Coq Require Import List Arith ZArith Bool Permutation Lia.
Import ListNotations.
From Verif Require Import Monad Types Model Api Spec Ref Lists SimBase SimRel SimIter SimRun SimOps Effects SpecCopy CopyBlind CopyEval AnyWorld AnyKeep AnyInsert AnyRun AnyCopy AnyAll AnySee SpecAny AnyView AnyPut.
Set Implicit Arguments.
Unset Strict Implicit.
Local Open Scope cpp_scope.

Section More.
Context {K V : Type}.
Variable E : env K V.
Hypothesis G : good E.

Notation world := (world K V).
Notation store := (store K V).
Notation W := (W E).
Notation ws := (ws E).
Implicit Types (w z : world) (s : store).

Lemma coherent_alive w c l n : coherent E c w l n -> exists x, slot (w_caches w) c = Some x.
Proof.
  intros Co. pose proof (co_ordered Co) as Q. unfold exec in Q. simpl in Q. unfold alive in Q.
  destruct (slot (w_caches w) c) as [y|]; eauto. discriminate Q.
Qed.
Lemma cells_of w c l n : attained E w -> coherent E c w l n ->
  exists x s ls cs, W w /\ at_ w c x s /\ ws (c_rid x) s ls /\ Forall2 (holds s) ls cs /\ length ls <= c_cap x /\ l = shown cs /\ n = c_cap x.
Proof.
  intros Hw Co. destruct (seen_cells G Hw (co_ordered Co)) as (x & s & ls & cs & HW & A & Hl & H & L & Sh).
  exists x, s, ls, cs. pose proof (co_capacity (view G A Hl H L)) as Q1. rewrite (co_capacity Co) in Q1. injection Q1 as ->. auto 10.
Qed.
(** A cache whose record and store are where they were shows what it showed. *)
Lemma same_seen_at w w' d e x x' l n : attained E w -> coherent E d w l n -> slot (w_caches w) d = Some x ->
  slot (w_caches w') e = Some x' -> c_rid x' = c_rid x -> c_cap x' = c_cap x ->
  slot (w_stores w') (c_rid x) = slot (w_stores w) (c_rid x) -> coherent E e w' l n.
Proof.
  intros Hw Co Hx Hx' R C S. destruct (cells_of Hw Co) as (y & s & ls & cs & HW & A & Hl & H & L & -> & ->).
  assert (y = x) as -> by (destruct A; congruence). rewrite <- C in *. apply view with (s := s) (l := ls); auto.
  - split; auto. rewrite R, S. apply A.
  - rewrite R. auto.
Qed.

Theorem any_clear w c l n : attained E w -> coherent E c w l n ->
  exists w', exec E (Clear c) w = Val RUnit w' /\ coherent E c w' [] n /\
    forall d ld nd, d <> c -> coherent E d w ld nd -> coherent E d w' ld nd.
Proof.
  intros Hw Co. destruct (cells_of Hw Co) as (x & s & ls & cs & HW & A & Hl & H & L & -> & ->). pose proof A as (Hx & Hs).
  eexists. split.
  - unfold exec. simpl. unfold alive. rewrite Hx. erewrite bind_val; [reflexivity|]. unfold clear.
    erewrite bind_val; [|apply (own_ev A)]. cbv iota beta.
    erewrite bind_val; [|apply put_store_ev]. erewrite bind_val; [|apply own_ev, (at_setS _ A)]. cbv iota beta.
    erewrite bind_val; [|apply put_store_ev]. rewrite setS_setS. cbn [s_map].
    unfold invalidate_last, set_last. erewrite bind_val; [|apply get_cache_ev; exact Hx]. reflexivity.
  - split.
    + change (c_cap x) with (c_cap (MkCache (c_rid x) None (c_cap x) (c_stats x) (c_cbs x) (c_ttl x))).
      change (@nil (K * V)) with (shown (@nil (@cell K V))).
      apply view with (s := MkStore [] [] (s_next s) (s_epoch s)) (l := []); [exact G| |apply ws_nil|constructor|simpl; lia].
      split; simpl; erewrite slot_upd_same; eauto.
    + intros d ld nd N Cd. destruct (coherent_alive Cd) as (y & Hy).
      apply (same_seen_at (d := d) (e := d) (x := y) (x' := y) Hw Cd); auto; simpl.
      * rewrite slot_upd_other; auto.
      * rewrite slot_upd_other; auto. intros R. apply N. symmetry. apply (W_inj HW Hx Hy R).
Qed.

Lemma dup_holds r s l cs : Forall2 (holds s) l cs -> Forall2 (holds (dup E r s l)) l cs.
Proof.
  generalize l at 2. intros l0. induction 1 as [|c cl l1 l2 H1 H2]; constructor; auto. destruct H1 as (B1 & B2 & B3 & n & I & B). repeat split; auto. exists n. split; auto.
  simpl. eapply Permutation_in; [apply Permutation_sym, (copy_map_perm G)|exact I].
Qed.
Theorem any_copy w c l n : attained E w -> coherent E c w l n ->
  exists d w', exec E (Copy c) w = Val (RNat d) w' /\ alive w d = false /\ coherent E d w' l n /\
    forall e le ne, coherent E e w le ne -> coherent E e w' le ne.
Proof.
  intros Hw Co. destruct (cells_of Hw Co) as (x & s & ls & cs & HW & A & Hl & H & L & -> & ->). pose proof A as (Hx & Hs).
  pose proof (slot_lt _ _ Hs) as Lt. exists (length (w_caches w)). eexists. split; [|split; [|split]].
  - unfold exec. simpl. unfold alive. rewrite Hx. erewrite bind_val; [|apply (copy_any G A Hl)]. reflexivity.
  - unfold alive. rewrite slot_overflow; auto.
  - change (c_cap x) with (c_cap (copy_cache (length (w_stores w)) x)).
    eapply view with (s := dup E (length (w_stores w)) s ls) (l := ls); auto.
    + split; simpl; apply slot_app_new.
    + simpl. eapply dup_ws; eauto.
    + apply dup_holds; auto.
  - intros e le ne Ce. destruct (coherent_alive Ce) as (y & Hy). destruct (W_c HW Hy) as (sy & Hsy & _).
    apply (same_seen_at (d := e) (e := e) (x := y) (x' := y) Hw Ce); auto; simpl.
    + rewrite slot_app_lt; auto. eapply slot_lt; eauto.
    + rewrite slot_app_lt; auto. eapply slot_lt; eauto.
Qed.
Theorem any_copy_assign w c d l n : attained E w -> c <> d -> same_kind w c d = true -> coherent E d w l n ->
  exists w', exec E (CopyAssign c d) w = Val RUnit w' /\ coherent E c w' l n /\
    forall e le ne, e <> c -> coherent E e w le ne -> coherent E e w' le ne.
Proof.
  intros Hw N Sk Co. destruct (cells_of Hw Co) as (x & s & ls & cs & HW & A & Hl & H & L & -> & ->). pose proof A as (Hx & Hs).
  assert (Hy : exists y, slot (w_caches w) c = Some y).
  { unfold same_kind, alive in Sk. destruct (slot (w_caches w) c); eauto. discriminate. }
  destruct Hy as (y & Hy). destruct (W_at HW Hy) as (t & m & B & Hm & L'). pose proof B as (_ & Ht).
  assert (NR : c_rid x <> c_rid y) by (intros Q; apply N; symmetry; eapply (W_inj HW); eauto).
  pose proof (slot_lt _ _ Hs) as Lt. eexists. split; [|split].
  - unfold exec. cbn [well_formed]. rewrite Sk. cbn [body]. erewrite bind_val; [|apply (copy_assign_any G N A B Hl NR)]. reflexivity.
  - change (c_cap x) with (c_cap (copy_cache (length (w_stores w)) x)).
    eapply view with (s := dup E (length (w_stores w)) s ls) (l := ls); auto.
    + split; simpl; [rewrite (slot_upd_same _ _ _ Hy); auto|].
      rewrite <- (upd_length (w_stores w) (c_rid y) None). apply slot_app_new.
    + simpl. eapply dup_ws; eauto.
    + apply dup_holds; auto.
  - intros e le ne Ne Ce. destruct (coherent_alive Ce) as (v & Hv). destruct (W_c HW Hv) as (sy & Hsy & _).
    apply (same_seen_at (d := e) (e := e) (x := v) (x' := v) Hw Ce); auto; simpl.
    + rewrite slot_upd_other; auto.
    + rewrite slot_app_lt by (rewrite upd_length; eapply slot_lt; eauto). rewrite slot_upd_other; auto.
      intros R. apply Ne. symmetry. apply (W_inj HW Hy Hv R).
Qed.
Theorem any_destroy w c : attained E w -> alive w c = true ->
  exists w', exec E (Destroy c) w = Val RUnit w' /\ alive w' c = false /\
    forall e le ne, e <> c -> coherent E e w le ne -> coherent E e w' le ne.
Proof.
  intros Hw Al. pose proof (attained_W G Hw) as HW. unfold alive in Al. destruct (slot (w_caches w) c) as [x|] eqn:Hx; [|discriminate].
  destruct (W_c HW Hx) as (s & Hs & _).
  eexists. split; [|split].
  - unfold exec. simpl. unfold alive. rewrite Hx. erewrite bind_val; [reflexivity|].
    unfold destroy. erewrite bind_val; [|apply get_cache_ev; exact Hx]. reflexivity.
  - unfold alive. simpl. rewrite (slot_upd_same _ _ _ Hx). auto.
  - intros e le ne Ne Ce. destruct (coherent_alive Ce) as (v & Hv).
    apply (same_seen_at (d := e) (e := e) (x := v) (x' := v) Hw Ce); auto; simpl.
    + rewrite slot_upd_other; auto.
    + rewrite slot_upd_other; auto. intros R. apply Ne. symmetry. apply (W_inj HW Hx Hv R).
Qed.
Theorem any_swap w c d l n m k : attained E w -> c <> d -> same_kind w c d = true -> coherent E c w l n -> coherent E d w m k ->
  exists w', exec E (Swap c d) w = Val RUnit w' /\ coherent E c w' m k /\ coherent E d w' l n /\
    forall e le ne, e <> c -> e <> d -> coherent E e w le ne -> coherent E e w' le ne.
Proof.
  intros Hw N Sk Cc Cd. destruct (coherent_alive Cc) as (x & Hx). destruct (coherent_alive Cd) as (y & Hy).
  eexists. split; [|split; [|split]].
  - unfold exec. cbn [well_formed]. rewrite Sk. cbn [body]. erewrite bind_val; [reflexivity|].
    unfold swap. erewrite bind_val; [|apply get_cache_ev; exact Hx]. erewrite bind_val; [|apply get_cache_ev; exact Hy].
    erewrite bind_val.
    2: { unfold base_swap. erewrite bind_val; [|apply get_cache_ev; exact Hx]. erewrite bind_val; [|apply get_cache_ev; exact Hy].
         rewrite (proj2 (Nat.eqb_neq c d) N). erewrite bind_val; [|apply put_cache_ev]. apply put_cache_ev. }
    erewrite bind_val; [|apply get_cache_ev; simpl; rewrite slot_upd_other by auto; rewrite (slot_upd_same _ _ _ Hx); reflexivity].
    erewrite bind_val; [|apply put_cache_ev].
    erewrite bind_val; [|apply get_cache_ev; simpl; rewrite slot_upd_other by auto; erewrite slot_upd_same; [reflexivity|rewrite slot_upd_other by auto; exact Hy]].
    apply put_cache_ev.
  - eapply (same_seen_at (d := d) (e := c) (x := y) Hw Cd); simpl.
    + exact Hy.
    + rewrite slot_upd_other by auto. erewrite slot_upd_same; [reflexivity|]. rewrite slot_upd_other by auto. erewrite slot_upd_same; eauto.
    + reflexivity.
    + reflexivity.
    + reflexivity.
  - eapply (same_seen_at (d := c) (e := d) (x := x) Hw Cc); simpl.
    + exact Hx.
    + erewrite slot_upd_same; [reflexivity|]. rewrite slot_upd_other by auto. erewrite slot_upd_same; [reflexivity|]. rewrite slot_upd_other by auto. eauto.
    + reflexivity.
    + reflexivity.
    + reflexivity.
  - intros e le ne N1 N2 Ce. destruct (coherent_alive Ce) as (v & Hv).
    apply (same_seen_at (d := e) (e := e) (x := v) (x' := v) Hw Ce); auto; simpl.
    rewrite !slot_upd_other; auto.
Qed.

(** The same, for what the client has read. *)
Lemma coherent_of w c l n : attained E w -> contents E c w l -> capacity_is E c w n -> coherent E c w l n.
Proof.
  intros Hw C Cn. destruct (seen_cells G Hw C) as (x & s & ls & cs & HW & A & Hl & H & L & <-). pose proof (view G A Hl H L) as Q.
  pose proof (co_capacity Q) as Q1. unfold capacity_is in Cn. rewrite Q1 in Cn. injection Cn as <-. auto.
Qed.
Theorem any_history ops outs w c : run E ops init_world = Finished outs w -> alive w c = true -> exists l n, coherent E c w l n.
Proof. intros R. apply (any_coherent G). exact (attained_run (att_init E) R). Qed.
Theorem any_put_read w c k v o l n : attained E w -> puts c k v o -> contents E c w l -> capacity_is E c w n -> 0 < n -> has E k l = false ->
  exists w', exec E o w = Val (RIns true (Some (k, v))) w' /\ coherent E c w' (newest n (l ++ [(k, v)])) n /\
    forall d ld nd, d <> c -> coherent E d w ld nd -> coherent E d w' ld nd.
Proof. intros Hw P C Cn. apply any_put; auto. apply coherent_of; auto. Qed.
End More.
