(** A weaker invariant than the one of SimRel.v, which allocation failures and
    callbacks that use the caches do not break: last accessed may be any element,
    not only the most recent one.  A Hoare-style proof over Model.v. *)
From Coq Require Import List Arith ZArith Bool Permutation Lia.
Import ListNotations.
From Verif Require Import Monad Types Model Api Spec SpecFault Ref Lists SimBase SimRel SimOps SimIns SimErase SimIter SimNew SimObs.
Set Implicit Arguments.
Unset Strict Implicit.
Local Open Scope cpp_scope.

Definition quiet {K V} (ev : cbevent K V) : M (world K V) unit := fun w => Val tt (with_log (fun l => l ++ [ev]) w).
Definition calm {K V} (E : env K V) : env K V := with_fails (fun _ => false) (with_cb quiet E).
Lemma calm_good {K V} (E : env K V) : fair E -> good (calm E).
Proof. intros []. constructor; auto. Qed.

Lemma nodup_inj {A B} (f : A -> B) l a b : NoDup (map f l) -> In a l -> In b l -> f a = f b -> a = b.
Proof.
  induction l as [|x l IH]; simpl; [tauto|]. intros N [->|I] [->|J] Q; auto; inversion N as [|? ? M N']; subst; auto.
  - exfalso. apply M. rewrite Q. apply in_map; auto.
  - exfalso. apply M. rewrite <- Q. apply in_map; auto.
Qed.

Section Sturdy.
Context {K V : Type}.
Variable E : env K V.
Hypothesis Fr : fair E.

Notation entry := (entry K V).
Notation world := (world K V).
Notation store := (store K V).
Notation mnode := (mnode K V).
Notation cell := (@cell K V).
Notation rep_store := (rep_store (calm E)).
Notation find_cell := (find_cell (calm E)).
Implicit Types (w : world) (s : store).

Let G : good (calm E) := calm_good Fr.

(* ---------------------------------------------------------------- *)
(** ** The invariant *)

Record sound (x : cache) s (l : list cell) : Prop := {
  so_rep : rep_store (c_rid x) s l;
  so_len : length l <= c_cap x;
  so_last : forall p, c_last x = Some p -> exists cl, In cl l /\ p = (c_rid x, cl_m cl)
}.

(** Everything is in order, except perhaps cache [b]. *)
Record inv_but (b : option nat) w : Prop := {
  inv_at : forall c x, slot (w_caches w) c = Some x -> exists s, slot (w_stores w) (c_rid x) = Some s /\
             (b <> Some c -> exists l, sound x s l);
  inv_inj : forall c d x y, slot (w_caches w) c = Some x -> slot (w_caches w) d = Some y ->
             c_rid x = c_rid y -> c = d;
  inv_st : forall c x i, slot (w_caches w) c = Some x -> c_stats x = Some i -> slot (w_stats w) i <> None
}.
Definition inv w : Prop := inv_but None w.

Lemma inv_get b w c x : inv_but b w -> slot (w_caches w) c = Some x -> b <> Some c ->
  exists s l, at_ w c x s /\ sound x s l.
Proof.
  intros I H N. destruct (inv_at I H) as (s & Hs & S). destruct (S N) as (l & Hl). exists s, l. split; auto. split; auto.
Qed.
Lemma inv_here w c : inv w -> alive w c = true -> exists x s l, at_ w c x s /\ sound x s l.
Proof.
  intros I A. unfold alive in A. destruct (slot (w_caches w) c) as [x|] eqn:H; [|discriminate].
  destruct (inv_get I H) as (s & l & R); [discriminate|]. eauto.
Qed.
Lemma inv_init : inv init_world.
Proof.
  constructor; simpl; intros c; intros; unfold slot in *; simpl in *; destruct c; discriminate.
Qed.
Lemma inv_weaken b w : inv w -> inv_but b w.
Proof.
  intros [A B C]. constructor; auto. intros c x H. destruct (A c x H) as (s & Hs & S). exists s. split; auto.
  intros _. apply S. discriminate.
Qed.

(** Only cache [c] is changed (and the log and the counters of readings and
    steps). *)
Definition shift (c : nat) (x' : cache) (s' : store) w w' : Prop :=
  w_caches w' = upd (w_caches w) c (Some x') /\
  w_stores w' = upd (w_stores w) (c_rid x') (Some s') /\ w_stats w' = w_stats w.
Lemma chg_shift c x s w w' : chg c x s w w' -> shift c x s w w'.
Proof. intros (A & B & C & _). repeat split; auto. Qed.
Lemma shift_refl w c x s : at_ w c x s -> shift c x s w w.
Proof. intros A. apply chg_shift, chg_refl; auto. Qed.
Lemma shift_trans c x1 s1 x2 s2 w w1 w2 :
  shift c x1 s1 w w1 -> shift c x2 s2 w1 w2 -> c_rid x2 = c_rid x1 -> shift c x2 s2 w w2.
Proof.
  intros (A1 & A2 & A3) (B1 & B2 & B3) Hr. unfold shift.
  rewrite B1, B2, B3, A1, A2, A3, Hr, !upd_upd. auto.
Qed.
Lemma shift_at w w' c x s x' s' : at_ w c x s -> shift c x' s' w w' -> c_rid x' = c_rid x -> at_ w' c x' s'.
Proof.
  intros (A & B) (C1 & C2 & _) Hr. split.
  - rewrite C1. erewrite slot_upd_same; eauto.
  - rewrite C2, Hr. erewrite slot_upd_same; eauto.
Qed.

Lemma inv_shift b w w' c x s x' s' : inv w -> at_ w c x s -> shift c x' s' w w' -> c_rid x' = c_rid x ->
  (forall i, c_stats x' = Some i -> slot (w_stats w) i <> None) ->
  (b <> Some c -> exists l', sound x' s' l') -> inv_but b w'.
Proof.
  intros I (Hx & Hs) (C1 & C2 & C3) Hr St So. constructor.
  - intros d y. rewrite C1, C2. destruct (Nat.eq_dec c d) as [<-|N].
    + erewrite slot_upd_same by eauto. intros H; inversion H; subst. exists s'. split; [|eauto].
      rewrite Hr; erewrite slot_upd_same; eauto.
    + rewrite slot_upd_other by auto. intros H. destruct (inv_at I H) as (t & T1 & T2).
      exists t. split; [|intros _; apply T2; discriminate]. rewrite slot_upd_other; auto. rewrite Hr. intro Q.
      apply N. eapply (inv_inj I); eauto.
  - intros d e y z. rewrite C1. intros D1 D2 Q.
    destruct (Nat.eq_dec c d) as [<-|N], (Nat.eq_dec c e) as [<-|N']; auto.
    + erewrite slot_upd_same in D1 by eauto. inversion D1; subst.
      rewrite slot_upd_other in D2 by auto. eapply (inv_inj I); eauto. congruence.
    + erewrite slot_upd_same in D2 by eauto. inversion D2; subst.
      rewrite slot_upd_other in D1 by auto. symmetry. eapply (inv_inj I); eauto. congruence.
    + rewrite slot_upd_other in D1, D2 by auto. eapply (inv_inj I); eauto.
  - intros d y i. rewrite C1, C3. destruct (Nat.eq_dec c d) as [<-|N].
    + erewrite slot_upd_same by eauto. intros H; inversion H; subst; auto.
    + rewrite slot_upd_other by auto. apply (inv_st I).
Qed.

(** Changes of the log and the counters of readings and steps. *)
Definition same_heap w w' : Prop :=
  w_caches w' = w_caches w /\ w_stores w' = w_stores w /\ w_stats w' = w_stats w.
Lemma inv_same b w w' : same_heap w w' -> inv_but b w -> inv_but b w'.
Proof. intros (A & B & C) [D H I]. constructor; rewrite ?A, ?B, ?C; auto. Qed.

(* ---------------------------------------------------------------- *)
(** ** What callbacks must leave alone *)

Definition stab (b : option nat) w w' : Prop :=
  forall c x, b <> Some c -> slot (w_caches w) c = Some x -> exists x', slot (w_caches w') c = Some x' /\
    c_rid x' = c_rid x /\ c_cbs x' = c_cbs x /\ c_ttl x' = c_ttl x /\
    forall s, slot (w_stores w) (c_rid x) = Some s -> exists s', slot (w_stores w') (c_rid x) = Some s' /\
      s_epoch s' = s_epoch s /\ forall i, assoc i (s_map s) <> None -> assoc i (s_map s') <> None.
Definition stable w w' : Prop := stab None w w'.

Lemma stab_refl b w : stab b w w.
Proof. intros c x _ H. exists x. repeat split; auto. intros s Hs. exists s. auto. Qed.
Lemma stab_trans b w1 w2 w3 : stab b w1 w2 -> stab b w2 w3 -> stab b w1 w3.
Proof.
  intros H1 H2 d x N Hd. destruct (H1 d x N Hd) as (y & Y1 & Y2 & Y3 & Y4 & Y5).
  destruct (H2 d y N Y1) as (z & Z1 & Z2 & Z3 & Z4 & Z5). exists z. repeat split; try congruence.
  intros s Hs. destruct (Y5 s Hs) as (t & T1 & T2 & T3). rewrite <- Y2 in T1.
  destruct (Z5 t T1) as (u & U1 & U2 & U3). exists u. rewrite <- Y2. repeat split; auto; congruence.
Qed.
Lemma stab_heap b w w' : w_caches w' = w_caches w -> w_stores w' = w_stores w -> stab b w w'.
Proof. intros A B c x _ H. exists x. rewrite A, B. repeat split; auto. intros s Hs. exists s. auto. Qed.
Lemma stable_heap w w' : same_heap w w' -> stable w w'.
Proof. intros (A & B & _). apply stab_heap; auto. Qed.
Lemma stable_stab b w w' : stable w w' -> stab b w w'.
Proof. intros H c x _. apply H. discriminate. Qed.

Lemma shift_stab w w' c x s x' s' : inv w -> at_ w c x s -> shift c x' s' w w' -> c_rid x' = c_rid x ->
  stab (Some c) w w'.
Proof.
  intros I (Hx & Hs) (C1 & C2 & C3) Hr d y N Hd. exists y. rewrite C1, slot_upd_other by congruence.
  repeat split; auto. intros t Ht. exists t. rewrite C2, slot_upd_other; auto. rewrite Hr. intro Q.
  apply N. f_equal. eapply (inv_inj I); eauto.
Qed.
Lemma shift_stable w w' c x s x' s' : inv w -> at_ w c x s -> shift c x' s' w w' -> c_rid x' = c_rid x ->
  c_cbs x' = c_cbs x -> c_ttl x' = c_ttl x -> s_epoch s' = s_epoch s ->
  (forall i, assoc i (s_map s) <> None -> assoc i (s_map s') <> None) -> stable w w'.
Proof.
  intros I A C Hr H1 H2 H3 H4 d y N Hd. destruct (Nat.eq_dec c d) as [<-|Nd].
  - destruct A as (Hx & Hs), C as (C1 & C2 & C3). assert (y = x) by congruence. subst y.
    exists x'. split; [rewrite C1; erewrite slot_upd_same; eauto|]. repeat split; auto.
    intros t Ht. exists s'. assert (t = s) by congruence. subst t.
    split; [rewrite C2, Hr; erewrite slot_upd_same; eauto|]. auto.
  - eapply (shift_stab I A C Hr); auto. congruence.
Qed.

(** Iterator [i] of cache [c] denotes an element. *)
Definition valid_it (c : nat) (i : miter) w : Prop :=
  exists x s l cl, at_ w c x s /\ sound x s l /\ In cl l /\ i = ((c_rid x, cl_m cl), s_epoch s).

Lemma rep_in_assoc r s l i : rep_store r s l -> (assoc i (s_map s) <> None <-> exists cl, In cl l /\ cl_m cl = i).
Proof.
  intros R. split.
  - intros H. destruct (assoc i (s_map s)) as [n|] eqn:A; [|congruence]. apply assoc_in in A.
    apply (Permutation_in _ (rs_map R)) in A. apply in_map_iff in A as (cl & Q & I). inversion Q; subst. eauto.
  - intros (cl & I & <-). erewrite rep_assoc_m; eauto. discriminate.
Qed.

Lemma valid_stable c i w w' : inv w' -> valid_it c i w -> stable w w' -> valid_it c i w'.
Proof.
  intros I (x & s & l & cl & (Hx & Hs) & So & In1 & ->) St.
  destruct (St _ _ ltac:(discriminate) Hx) as (x' & X1 & X2 & X3 & X4 & X5). destruct (X5 _ Hs) as (s' & S1 & S2 & S3).
  destruct (inv_get I X1) as (s2 & l' & (A1 & A2) & So'); [discriminate|].
  rewrite X2 in A2. assert (s2 = s') by congruence. subst s2.
  destruct (proj1 (rep_in_assoc (cl_m cl) (so_rep So')) (S3 _ (proj2 (rep_in_assoc _ (so_rep So)) (ex_intro _ cl (conj In1 eq_refl)))))
    as (cl' & In2 & Q).
  exists x', s', l', cl'. split; [split; [auto|rewrite X2; auto]|]. split; auto. split; auto.
  rewrite X2, Q, S2. auto.
Qed.

Lemma valid_deref c i w : valid_it c i w -> exists n, deref_it i w = Val n w /\ deref (fst i) w = Val n w /\ 
  exists x s l1 cl l2, at_ w c x s /\ sound x s (l1 ++ cl :: l2) /\ i = ((c_rid x, cl_m cl), s_epoch s) /\ n = node_of (c_rid x) cl.
Proof.
  intros (x & s & l & cl & A & So & In1 & ->). exists (node_of (c_rid x) cl).
  pose proof (so_rep So) as R. destruct (in_split _ _ In1) as (l1 & l2 & ->).
  split; [eapply deref_it_ev; eauto; apply A|]. split; [eapply deref_ev; eauto; apply A|].
  exists x, s, l1, cl, l2. auto.
Qed.

(* ---------------------------------------------------------------- *)
(** ** Results *)

Definition wp {A} (P : A -> world -> Prop) (X : exn -> world -> Prop) (r : res world A) : Prop :=
  match r with Val a w => P a w | Exc e w => X e w | _ => False end.

Lemma wp_bind A B (m : M world A) (k : A -> M world B) P P' X w :
  wp P X (m w) -> (forall a w', P a w' -> wp P' X (k a w')) -> wp P' X (bind m k w).
Proof. intros H C. unfold bind. destruct (m w); simpl in *; auto; contradiction. Qed.
Lemma wp_val A B (m : M world A) (k : A -> M world B) P X w a w' :
  m w = Val a w' -> wp P X (k a w') -> wp P X (bind m k w).
Proof. intros H C. rewrite (bind_val _ _ _ H). auto. Qed.
Lemma wp_conseq A (P P' : A -> world -> Prop) (X X' : exn -> world -> Prop) r :
  wp P X r -> (forall a w, P a w -> P' a w) -> (forall e w, X e w -> X' e w) -> wp P' X' r.
Proof. destruct r; simpl; auto. Qed.

(* ---------------------------------------------------------------- *)
(** ** Erasure *)

Lemma last_is_ev2 w c x s l k : at_ w c x s -> sound x s l ->
  exists b, last_is E c k w = Val b w /\
    (b = true -> exists cl, In cl l /\ c_last x = Some (c_rid x, cl_m cl) /\ key_equal E k (e_key (cl_e cl)) = true) /\
    (b = false -> forall cl, In cl l -> c_last x = Some (c_rid x, cl_m cl) -> key_equal E k (e_key (cl_e cl)) = false).
Proof.
  intros (Hx & Hs) So. unfold last_is, bind. erewrite get_cache_ev by eauto.
  destruct (c_last x) as [p|] eqn:L.
  - destruct (so_last So L) as (cl & I & ->). erewrite deref_ev; [|exact Hs|exact (so_rep So)|exact I].
    eexists. split; [reflexivity|]. simpl. split; [eauto|]. intros Q cl' I' H.
    inversion H. assert (cl' = cl).
    { pose proof (rs_nm (so_rep So)) as N. eapply nodup_inj; eauto. }
    subst; auto.
  - exists false. split; auto. split; intros; discriminate.
Qed.

Definition same_but_last (x x' : cache) : Prop :=
  c_rid x' = c_rid x /\ c_cap x' = c_cap x /\ c_stats x' = c_stats x /\ c_cbs x' = c_cbs x /\ c_ttl x' = c_ttl x.
Lemma sbl_last p x : same_but_last x (with_last p x). Proof. repeat split. Qed.
Lemma sbl_refl x : same_but_last x x. Proof. repeat split. Qed.
Lemma sbl_trans a b c : same_but_last a b -> same_but_last b c -> same_but_last a c.
Proof. unfold same_but_last. intuition congruence. Qed.

(** bc:1425-1427 *)
Lemma forget_ev2 w c x s l1 cl l2 : at_ w c x s -> sound x s (l1 ++ cl :: l2) ->
  exists x1 w1, (same <- last_is E c (e_key (cl_e cl));; (if same then invalidate_last c else ret tt)) w = Val tt w1 /\
    chg c x1 s w w1 /\ at_ w1 c x1 s /\ same_but_last x x1 /\
    (forall p, c_last x1 = Some p -> exists cl', In cl' (l1 ++ l2) /\ p = (c_rid x, cl_m cl')).
Proof.
  intros A So. destruct (last_is_ev2 (e_key (cl_e cl)) A So) as (b & L & T & F).
  destruct b.
  - exists (with_last None x), (setC c (with_last None x) w).
    split; [rewrite (bind_val _ _ _ L); unfold invalidate_last; erewrite set_last_ev by eauto; auto|].
    split; [eapply chg_setC; eauto|]. split; [eapply at_setC; eauto|]. split; [apply sbl_last|]. simpl. discriminate.
  - exists x, w. split; [rewrite (bind_val _ _ _ L); auto|]. split; [eapply chg_refl; eauto|]. split; auto.
    split; [apply sbl_refl|]. intros p Hp. destruct (so_last So Hp) as (cl' & I & ->).
    exists cl'. split; auto. apply in_app_or in I as [I|[<-|I]]; try (apply in_or_app; auto; fail).
    exfalso. specialize (F eq_refl cl (in_mid _ _ _) Hp). rewrite (fair_refl Fr) in F. discriminate.
Qed.

Lemma f_map_find w c x s l k : at_ w c x s -> rep_store (c_rid x) s l ->
  map_find E c k w = Val (option_map (fun cl => ((c_rid x, cl_m cl), s_epoch s)) (find_cell k l)) w.
Proof. exact (@map_find_ev _ _ (calm E) G w c x s l k). Qed.

Lemma f_mid k l1 cl l2 : dkeys (calm E) (ents (l1 ++ cl :: l2)) -> key_equal E k (e_key (cl_e cl)) = true ->
  find_cell k (l1 ++ cl :: l2) = Some cl.
Proof. exact (@find_cell_mid _ _ (calm E) G k l1 cl l2). Qed.

Lemma erase_it_w w c x s l1 cl l2 : at_ w c x s -> sound x s (l1 ++ cl :: l2) ->
  exists x' s' w', erase_it E c ((c_rid x, cl_m cl), s_epoch s) w = Val tt w' /\ chg c x' s' w w' /\
    same_but_last x x' /\ sound x' s' (l1 ++ l2).
Proof.
  intros A So. destruct (forget_ev2 A So) as (x1 & w1 & E1 & C1 & A1 & SB & L1).
  pose proof (so_rep So) as RS. pose proof (so_len So) as Le. destruct SB as (Hr & SB).
  assert (RS1 : rep_store (c_rid x1) s (l1 ++ cl :: l2)) by (rewrite Hr; auto).
  eexists x1, _, _. split; [|split; [|split]].
  - unfold erase_it. ev deref_it_ev. rewrite <- bind_assoc. ev E1. rewrite <- Hr.
    ev deref_it_ev. cbn [n_ord node_of]. ev list_erase_ev.
    unfold map_erase_it. ev own_ev. cbn [fst snd]. rewrite Nat.eqb_refl.
    erewrite bind_val with (s' := setS _ _ _); [rewrite put_store_ev, setS_setS; reflexivity|].
    unfold deref_it. cbn [fst snd]. erewrite bind_val by (apply get_store_ev; eapply at_store, at_setS; exact A1).
    cbn [s_epoch]. rewrite Nat.eqb_refl. unfold deref. cbn [fst snd].
    erewrite bind_val by (apply get_store_ev; eapply at_store, at_setS; exact A1). cbn [s_map].
    erewrite rep_assoc_m by eauto with sim. reflexivity.
  - eapply chg_trans; [exact C1|eapply chg_setS; exact A1|auto].
  - split; auto.
  - constructor; [rewrite Hr; apply (rep_erase G) in RS; exact RS| |rewrite Hr; exact L1].
    destruct SB as (-> & _). rewrite app_length in *. simpl in *. lia.
Qed.

Lemma erase_key_info_w w c x s l1 cl l2 : at_ w c x s -> sound x s (l1 ++ cl :: l2) ->
  exists x' s' w', erase_key_info E c (c_rid x, cl_m cl) w = Val tt w' /\ chg c x' s' w w' /\
    same_but_last x x' /\ sound x' s' (l1 ++ l2).
Proof.
  intros A So. destruct (forget_ev2 A So) as (x1 & w1 & E1 & C1 & A1 & SB & L1).
  pose proof (so_rep So) as RS. pose proof (so_len So) as Le. destruct SB as (Hr & SB).
  assert (RS1 : rep_store (c_rid x1) s (l1 ++ cl :: l2)) by (rewrite Hr; auto).
  eexists x1, _, _. split; [|split; [|split]].
  - unfold erase_key_info. ev deref_ev. rewrite <- bind_assoc. ev E1. rewrite <- Hr.
    ev deref_ev. cbn [n_ord node_of]. ev list_erase_ev.
    unfold map_erase_key. ev own_ev. cbn [s_map n_key node_of].
    pose proof (rep_node_with G (e_key (cl_e cl)) RS1) as NW. 
    change (node_with (calm E)) with (node_with E) in NW. rewrite NW.
    rewrite (f_mid (rs_keys RS1) (fair_refl Fr _)). cbn.
    rewrite put_store_ev, setS_setS. reflexivity.
  - eapply chg_trans; [exact C1|eapply chg_setS; exact A1|auto].
  - split; auto.
  - constructor; [rewrite Hr; apply (rep_erase G) in RS; exact RS| |rewrite Hr; exact L1].
    destruct SB as (-> & _). rewrite app_length in *. simpl in *. lia.
Qed.
End Sturdy.
