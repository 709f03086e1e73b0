(** The functions of the model and the invariant of Sturdy.v: insertion, which may
    run out of memory, and construction, destruction, assignment and swap. *)
From Coq Require Import List Arith ZArith Bool Permutation Lia.
Import ListNotations.
From Verif Require Import Monad Types Model Api Spec SpecFault Ref Lists SimBase SimRel SimOps SimIns SimErase SimIter SimNew SimObs Sturdy SturdyOps SturdyAcc.
Set Implicit Arguments.
Unset Strict Implicit.
Local Open Scope cpp_scope.

Section Ins.
Context {K V : Type}.
Variable E : env K V.
Hypothesis Fr : fair E.

Notation entry := (entry K V).
Notation world := (world K V).
Notation store := (store K V).
Notation mnode := (mnode K V).
Notation cell := (@cell K V).
Notation rep_store := (rep_store (calm E)).
Notation find_cell := (find_cell (calm E)).
Notation sound := (sound E).
Notation inv := (inv E).
Notation inv_but := (inv_but E).
Notation valid_it := (valid_it E).
Notation valid_u := (valid_u E).
Notation ok := (ok E).
Implicit Types (w : world) (s : store).

Let G : good (calm E) := calm_good Fr.

(** What a successful insertion leaves. *)
Definition inserted c (x : cache) w (r : bool * uiter) w' : Prop :=
  exists x' s' l', shift c x' s' w w' /\ same_but_last x x' /\ sound x' s' l' /\
    (r = (false, unordered_end c) \/
     exists b cl, In cl l' /\ r = (b, uiter_of c (Some ((c_rid x', cl_m cl), s_epoch s')))).

(** What a failed one leaves: nothing has changed, or the element has moved to
    the front, or there is a map node that no list node belongs to. *)
Definition failed c (x : cache) s l k v w (e : exn) w' : Prop :=
  e = BadAlloc /\ exists s', shift c x s' w w' /\
    (sound x s' l \/
     (exists l1 cl l2, l = l1 ++ cl :: l2 /\ key_equal E k (e_key (cl_e cl)) = true /\ sound x s' (l1 ++ l2 ++ [cl])) \/
     (find_cell k l = None /\ length l < c_cap x /\ exists t ep, s' = placed (calm E) s k v t ep)).

Lemma fallible_w w : fallible E w = if fails E (w_steps w) then Exc BadAlloc (tick w) else Val tt (tick w).
Proof. auto. Qed.

Lemma sound_moved x s s' l1 cl l2 : sound x s (l1 ++ cl :: l2) -> rep_store (c_rid x) s' (l1 ++ l2 ++ [cl]) ->
  sound x s' (l1 ++ l2 ++ [cl]).
Proof.
  intros So R'. constructor; auto.
  - pose proof (so_len So) as L. rewrite !app_length in *. simpl in *. lia.
  - intros p Hp. destruct (so_last So Hp) as (cl' & I' & ->). exists cl'. split; auto.
    rewrite !in_app_iff in *. simpl in *. tauto.
Qed.

Lemma shift_heap c x s w w1 w' : same_heap w w1 -> shift c x s w1 w' -> shift c x s w w'.
Proof. intros (A & B & C) (D & H & I). unfold shift. rewrite D, H, I, A, B, C. auto. Qed.

Lemma shift_same c x s w w' : at_ w c x s -> same_heap w w' -> shift c x s w w'.
Proof. intros A (B & C & D). destruct (shift_refl A) as (X & Y & _). unfold shift. rewrite B, C, D. auto. Qed.
Lemma same_trans w1 w2 w3 : same_heap w1 w2 -> same_heap w2 w3 -> same_heap w1 w3.
Proof. unfold same_heap. intuition congruence. Qed.

Lemma done_w w w3 c x s s' l' cl b : at_ w c x s -> shift c x s' w w3 ->
  rep_store (c_rid x) s' (l' ++ [cl]) -> length (l' ++ [cl]) <= c_cap x ->
  exists w', (deref_it ((c_rid x, cl_m cl), s_epoch s');;;
      set_last c (Some (fst ((c_rid x, cl_m cl), s_epoch s')));;;
      ret (b, uiter_of c (Some ((c_rid x, cl_m cl), s_epoch s')))) w3
    = Val (b, uiter_of c (Some ((c_rid x, cl_m cl), s_epoch s'))) w' /\
    inserted c x w (b, uiter_of c (Some ((c_rid x, cl_m cl), s_epoch s'))) w'.
Proof.
  intros A C R L. assert (A3 : at_ w3 c x s') by (eapply shift_at; eauto).
  eexists. split.
  - ev deref_it_ev. ev set_last_ev. reflexivity.
  - exists (with_last (Some (c_rid x, cl_m cl)) x), s', (l' ++ [cl]). split.
    + eapply shift_trans; [exact C|apply chg_shift; eapply chg_setC; eauto|auto].
    + split; [apply sbl_last|]. split.
      * constructor; simpl; auto. intros p Hp. inversion Hp; subst. exists cl. split; auto using in_last.
      * right. exists b, cl. split; auto using in_last.
Qed.

Lemma timestamp_w w c x s : at_ w c x s -> exists t w1, timestamp E c w = Val t w1 /\ same_heap w w1 /\ at_ w1 c x s.
Proof.
  intros A. unfold timestamp. destruct (c_ttl x) eqn:T.
  - eexists _, (tock w). split; [ev get_cache_ev; rewrite T; reflexivity|]. split; [apply same_tock|exact A].
  - eexists _, w. split; [ev get_cache_ev; rewrite T; reflexivity|]. split; [apply same_refl|exact A].
Qed.

Lemma too_full_ev w c x s : at_ w c x s -> is_too_full c w = Val (Nat.ltb (c_cap x) (length (s_map s))) w.
Proof. intros A. unfold is_too_full. ev size_ev. ev capacity_ev. auto. Qed.

(** The new key: everything up to the assignment of last accessed. *)
Lemma new_w w c x s l k v t : at_ w c x s -> sound x s l -> find_cell k l = None -> c_cap x <> 0 ->
  (exists i w1 q w2 w3 s' l' cl, map_emplace E c (MkNode k v None t) w = Val (i, true) w1 /\
     insert_new_key E c (fst i) w1 = Val q w2 /\ set_node_order (fst i) q w2 = Val tt w3 /\ shift c x s' w w3 /\
     rep_store (c_rid x) s' (l' ++ [cl]) /\ i = ((c_rid x, cl_m cl), s_epoch s') /\ length (l' ++ [cl]) <= c_cap x) \/
  (exists w1, map_emplace E c (MkNode k v None t) w = Exc BadAlloc w1 /\ same_heap w w1) \/
  (exists i w1 w2 ep, map_emplace E c (MkNode k v None t) w = Val (i, true) w1 /\
     insert_new_key E c (fst i) w1 = Exc BadAlloc w2 /\ shift c x (placed (calm E) s k v t ep) w w2 /\ length l < c_cap x).
Proof.
  intros A So N Z. pose proof (so_rep So) as R.
  destruct (ins_new_store G v t A R (so_len So) N Z) as (i & w1 & q & w2 & w3 & s' & l' & cl & H1 & H2 & H3 & C & R' & Hi & _ & _ & L & D).
  pose proof (map_emplace_ev G v t A R N) as M1. cbv zeta in M1.
  assert (Me : map_emplace E c (MkNode k v None t) w =
    if fails E (w_steps w) then Exc BadAlloc (tick w) else map_emplace (calm E) c (MkNode k v None t) w).
  { rewrite M1. unfold map_emplace. ev own_ev. cbn [n_key].
    pose proof (rep_node_with G k R) as NW. change (node_with (calm E)) with (node_with E) in NW. rewrite NW, N.
    cbn [option_map]. unfold bind at 1. rewrite fallible_w. destruct (fails E (w_steps w)); auto. }
  destruct (fails E (w_steps w)) eqn:F.
  - right. left. exists (tick w). auto using same_tick.
  - rewrite H1 in Me, M1. inversion M1 as [[Hi' Hw1]]. clear M1.
    assert (A1 : at_ w1 c x (placed (calm E) s k v t (if rehash E s then S (s_epoch s) else s_epoch s))).
    { rewrite Hw1. eapply at_setS. exact A. }
    pose proof (too_full_ev A1) as TF. cbn [placed s_map] in TF.
    pose proof (placed_length G k v t R) as PL. rewrite PL in TF.
    assert (S1 : shift c x (placed (calm E) s k v t (if rehash E s then S (s_epoch s) else s_epoch s)) w w1).
    { rewrite Hw1. apply chg_shift, chg_tick. eapply chg_setS. exact A. }
    assert (Ik : insert_new_key E c (fst i) w1 = Val q w2 \/
       (length l < c_cap x /\ insert_new_key E c (fst i) w1 = Exc BadAlloc (tick w1))).
    { rewrite <- H2. destruct (Nat.ltb_spec (c_cap x) (S (length l))) as [Q|Q].
      - left. unfold insert_new_key. rewrite !(bind_val _ _ _ TF). reflexivity.
      - destruct (fails E (w_steps w1)) eqn:F1.
        + right. split; [lia|]. unfold insert_new_key. rewrite !(bind_val _ _ _ TF). unfold list_emplace_back.
          unfold bind. rewrite fallible_w, F1. auto.
        + left. unfold insert_new_key. rewrite !(bind_val _ _ _ TF). unfold list_emplace_back, bind.
          rewrite fallible_w, F1. reflexivity. }
    destruct Ik as [Ik|(Lt & Ik)].
    + left. exists i, w1, q, w2, w3, s', l', cl. split; auto. split; auto. split; auto. split; [apply chg_shift; auto|auto].
    + right. right. eexists i, w1, (tick w1), _. split; auto. split; auto. split; [exact S1|auto].
Qed.

(** The value of a present element. *)
Lemma present_w w c x s l1 cl l2 k v : at_ w c x s -> sound x s (l1 ++ cl :: l2) ->
  key_equal E k (e_key (cl_e cl)) = true ->
  wp (inserted c x w) (failed c x s (l1 ++ cl :: l2) k v w)
     ((move_to_front_value E c ((c_rid x, cl_m cl), s_epoch s) v;;;
       deref_it ((c_rid x, cl_m cl), s_epoch s);;;
       set_last c (Some (fst ((c_rid x, cl_m cl), s_epoch s)));;;
       ret (false, uiter_of c (Some ((c_rid x, cl_m cl), s_epoch s)))) w).
Proof.
  intros A So Hk. pose proof (so_rep So) as R.
  destruct (move_to_front_ev G _ _ _ A R) as (s1 & w1 & H1 & C1 & R1 & Ep & _).
  assert (A1 : at_ w1 c x s1) by (eapply chg_at; eauto).
  unfold move_to_front_value. rewrite bind_assoc. wv deref_it_ev. cbn [n_ord node_of]. rewrite bind_assoc. wv H1.
  rewrite bind_assoc. unfold bind at 1. rewrite fallible_w. destruct (fails E (w_steps w1)).
  - split; auto. exists s1. split; [apply (chg_shift C1)|]. right. left. exists l1, cl, l2.
    split; auto. split; auto. eapply sound_moved; eauto.
  - assert (R1' : rep_store (c_rid x) s1 ((l1 ++ l2) ++ cl :: [])) by (rewrite <- app_assoc; auto).
    cbn [fst]. unfold bind at 1. erewrite update_node_ev; [|exact (proj2 A1)|exact R1'].
    pose proof (rep_setval _ _ _ v R1') as R2.
    match goal with |- wp _ _ (_ (setS _ ?s' _)) => set (s2 := s') in * end.
    assert (S2 : shift c x s2 w (setS (c_rid x) s2 (tick w1))).
    { eapply shift_trans; [apply (chg_shift C1)| |auto]. apply chg_shift, chg_tick. eapply chg_setS. exact A1. }
    assert (E2 : s_epoch s2 = s_epoch s) by exact Ep.
    change (cl_m cl) with (cl_m (cell_val v cl)). rewrite <- E2.
    destruct (@done_w w (setS (c_rid x) s2 (tick w1)) c x s s2 (l1 ++ l2) (cell_val v cl) false A S2 R2) as (w' & H' & I').
    { pose proof (so_len So) as L. rewrite !app_length in *. simpl in *. lia. }
    cbn [fst] in H'. rewrite H'. exact I'.
Qed.

Lemma insert_w w c x s l k v : at_ w c x s -> sound x s l ->
  wp (inserted c x w) (failed c x s l k v w) (insert E c k v w).
Proof.
  intros A So. pose proof (so_rep So) as R. unfold insert. wv capacity_ev.
  destruct (Nat.eqb_spec (c_cap x) 0) as [Z|Z].
  - exists x, s, l. split; [apply (shift_refl A)|]. split; [apply sbl_refl|]. auto.
  - wv (f_map_find Fr). destruct (find_cell k l) as [cl|] eqn:Q; cbn [option_map]; cbv iota.
    + destruct (find_cell_split _ _ _ Q) as (l1 & l2 & -> & Hk). apply present_w; auto.
    + destruct (timestamp_w A) as (t & w1 & H1 & Sm & A1). wv H1.
      destruct (new_w v t A1 So Q Z) as
        [(i & w2 & q & w3 & w4 & s' & l' & cl & M1 & M2 & M3 & S & R' & -> & L)|[(w2 & M1 & Sm2)|(i & w2 & w3 & ep & M1 & M2 & S & L)]].
      * wv M1. rewrite bind_ret. wv M2. wv M3.
        destruct (@done_w w w4 c x s s' l' cl true A (shift_heap Sm S) R' L) as (w' & H' & I').
        match goal with |- wp _ _ ?r => replace r with (Val (true, uiter_of c (Some ((c_rid x, cl_m cl), s_epoch s'))) w' : res world (bool * uiter))
          by (symmetry; exact H') end. exact I'.
      * rewrite (bind_exc _ _ _ M1). split; auto. exists s. split; [|auto].
        apply (shift_same A (same_trans Sm Sm2)).
      * wv M1. rewrite bind_ret. rewrite (bind_exc _ _ _ M2). split; auto. eexists. split; [exact (shift_heap Sm S)|].
        right. right. eauto.
Qed.

Lemma emplace_w w c x s l k v : at_ w c x s -> sound x s l ->
  wp (inserted c x w) (failed c x s l k v w) (emplace E c k v w).
Proof.
  intros A0 So. pose proof (so_rep So) as R. unfold emplace. wv capacity_ev.
  destruct (Nat.eqb_spec (c_cap x) 0) as [Z|Z].
  - exists x, s, l. split; [apply (shift_refl A0)|]. split; [apply sbl_refl|]. auto.
  - assert (Tr : forall w', same_heap w w' -> forall e w2, failed c x s l k v w' e w2 -> failed c x s l k v w e w2).
    { intros w' Sm e w2 (-> & s' & S & D). split; auto. exists s'. split; auto. eapply shift_heap; eauto. }
    assert (Tr' : forall w', same_heap w w' -> forall r w2, inserted c x w' r w2 -> inserted c x w r w2).
    { intros w' Sm r w2 (x' & s' & l' & S & D). exists x', s', l'. split; auto. eapply shift_heap; eauto. }
    assert (Fl : forall w', same_heap w w' -> failed c x s l k v w BadAlloc w').
    { intros w' Sm. split; auto. exists s. split; [apply shift_same; auto|auto]. }
    unfold bind at 1. rewrite fallible_w. destruct (fails E (w_steps w)); [apply Fl, same_tick|].
    assert (A : at_ (tick w) c x s) by exact A0.
    wv (f_map_find Fr). destruct (find_cell k l) as [cl|] eqn:Q; cbn [option_map]; cbv iota.
    + destruct (find_cell_split _ _ _ Q) as (l1 & l2 & -> & Hk).
      unfold bind at 1. rewrite fallible_w. destruct (fails E (w_steps (tick w))).
      * apply Fl. eapply same_trans; apply same_tick.
      * assert (A2 : at_ (tick (tick w)) c x s) by exact A0.
        pose proof (present_w (k := k) v A2 So Hk) as P. eapply wp_conseq; [exact P|apply Tr'|apply Tr];
          (eapply same_trans; apply same_tick).
    + destruct (timestamp_w A) as (t & w1 & H1 & Sm & A1). wv H1.
      pose proof (same_trans (same_tick w) Sm) as Sm'.
      destruct (new_w v t A1 So Q Z) as
        [(i & w2 & q & w3 & w4 & s' & l' & cl & M1 & M2 & M3 & S & R' & -> & L)|[(w2 & M1 & Sm2)|(i & w2 & w3 & ep & M1 & M2 & S & L)]].
      * wv M1. wv M2. wv M3. rewrite bind_ret.
        destruct (@done_w w w4 c x s s' l' cl true A0 (shift_heap Sm' S) R' L) as (w' & H' & I').
        match goal with |- wp _ _ ?r => replace r with (Val (true, uiter_of c (Some ((c_rid x, cl_m cl), s_epoch s'))) w' : res world (bool * uiter))
          by (symmetry; exact H') end. exact I'.
      * rewrite (bind_exc _ _ _ M1). apply Fl. eapply same_trans; eauto.
      * wv M1. rewrite (bind_exc _ _ _ M2). split; auto. eexists. split; [exact (shift_heap Sm' S)|].
        right. right. eauto.
Qed.

(* ---------------------------------------------------------------- *)
(** ** As seen from outside *)

(** Cache [c] has a map node without list node, or the like. *)
Definition lopsided (c : nat) w : Prop :=
  inv_but (Some c) w /\ exists x s, at_ w c x s /\ NoDup (map fst (s_ord s)) /\ length (s_ord s) <> length (s_map s).

Definition tamed {A} (c : nat) w (P : A -> world -> Prop) (r : res world A) : Prop :=
  wp (fun a w' => inv w' /\ stab (Some c) w w' /\ alive w' c = true /\ P a w')
     (fun e w' => (inv w' \/ (e = BadAlloc /\ lopsided c w')) /\ stab (Some c) w w' /\ alive w' c = true) r.

Lemma shift_alive c x s w w' : shift c x s w w' -> alive w c = true -> alive w' c = true.
Proof.
  intros (C & _). unfold alive. rewrite C. destruct (slot (w_caches w) c) eqn:Q; [|discriminate].
  erewrite slot_upd_same; eauto.
Qed.

Lemma put_tamed w c k v r : inv w -> alive w c = true ->
  (forall x s l, at_ w c x s -> sound x s l -> wp (inserted c x w) (failed c x s l k v w) r) ->
  tamed c w (fun p w' => valid_u c (snd p) w') r.
Proof.
  intros I Al H. destruct (inv_here I Al) as (x & s & l & A & So). specialize (H _ _ _ A So).
  eapply wp_conseq; [exact H| |].
  - intros p w' (x' & s' & l' & S & SB & So' & D).
    assert (A' : at_ w' c x' s') by (eapply shift_at; eauto; apply SB).
    split; [eapply inv_kept; eauto|]. split; [eapply shift_stab; eauto; apply SB|].
    split; [eapply shift_alive; eauto|].
    destruct D as [->|(b & cl & Hin & ->)]; [left; auto|]. right. eexists. split; [reflexivity|].
    exists x', s', l', cl. auto.
  - intros e w' (-> & s' & S & D).
    assert (A' : at_ w' c x s') by (eapply shift_at; eauto).
    split; [|split; [eapply shift_stab; eauto|eapply shift_alive; eauto]].
    destruct D as [So'|[(l1 & cl & l2 & -> & Hk & So')|(N & Lt & t & ep & ->)]].
    + left. eapply inv_kept; eauto using sbl_refl.
    + left. eapply inv_kept; eauto using sbl_refl.
    + right. split; auto. split.
      * eapply inv_shift; eauto. { eapply inv_stats; eauto. } intros X; exfalso; apply X; auto.
      * exists x, (placed (calm E) s k v t ep). split; auto. pose proof (so_rep So) as R. split.
        -- cbn [placed s_ord]. rewrite (rs_ord R), qrow_fst. apply (rs_nq R).
        -- cbn [placed s_ord s_map]. rewrite (placed_length G k v t R), (rs_ord R), map_length. lia.
Qed.

Lemma insert_tamed w c k v : inv w -> alive w c = true ->
  tamed c w (fun p w' => valid_u c (snd p) w') (insert E c k v w).
Proof. intros I Al. eapply put_tamed; eauto. intros. apply insert_w; auto. Qed.
Lemma emplace_tamed w c k v : inv w -> alive w c = true ->
  tamed c w (fun p w' => valid_u c (snd p) w') (emplace E c k v w).
Proof. intros I Al. eapply put_tamed; eauto. intros. apply emplace_w; auto. Qed.

Lemma tamed_more A c w w1 (P : A -> world -> Prop) r : stab (Some c) w w1 -> tamed c w1 P r -> tamed c w P r.
Proof.
  intros S H. eapply wp_conseq; [exact H| |]; simpl; intros; intuition; eapply stab_trans; eauto.
Qed.
Lemma tamed_bind A B c w (m : M world A) (f : A -> M world B) P Q :
  tamed c w P (m w) -> (forall a w', inv w' -> alive w' c = true -> P a w' -> tamed c w' Q (f a w')) ->
  tamed c w Q (bind m f w).
Proof.
  intros H F. eapply wp_bind; [exact H|]. intros a w' (I & S & Al & Pa). eapply tamed_more; eauto.
Qed.
Lemma tamed_ret A c w (P : A -> world -> Prop) a : inv w -> alive w c = true -> P a w -> tamed c w P (ret a w).
Proof. intros I Al H. split; auto. split; [apply stab_refl|auto]. Qed.
Lemma tamed_weaken A c w (P Q : A -> world -> Prop) r : (forall a w', P a w' -> Q a w') -> tamed c w P r -> tamed c w Q r.
Proof. intros F H. eapply wp_conseq; [exact H| |]; simpl; intros; intuition. Qed.

Lemma fold_tamed (f : nat -> K * V -> M world nat) c l :
  (forall n p w, inv w -> alive w c = true -> tamed c w (fun _ _ => True) (f n p w)) ->
  forall n w, inv w -> alive w c = true -> tamed c w (fun _ _ => True) (foldM f l n w).
Proof.
  intros F. induction l as [|p l IH]; intros n w I Al.
  - apply (@tamed_ret nat c w (fun _ _ => True) n); auto.
  - cbn [foldM]. eapply tamed_bind; [apply F; auto|]. intros; apply IH; auto.
Qed.

Lemma insert_range_tamed w c l : inv w -> alive w c = true -> tamed c w (fun _ _ => True) (insert_range E c l w).
Proof.
  intros I Al. apply fold_tamed; auto. intros n p v Iv Av. eapply tamed_bind; [apply insert_tamed; auto|].
  intros r w' I' A' _. apply (@tamed_ret nat c w' (fun _ _ => True)); auto.
Qed.
Lemma insert_move_tamed w c l : inv w -> alive w c = true -> tamed c w (fun _ _ => True) (insert_move E c l w).
Proof.
  intros I Al. apply fold_tamed; auto. intros n p v Iv Av. eapply tamed_bind; [apply emplace_tamed; auto|].
  intros r w' I' A' _. apply (@tamed_ret nat c w' (fun _ _ => True)); auto.
Qed.

Lemma clear_more_tamed w c n : inv w -> alive w c = true ->
  tamed c w (fun _ _ => True) (clear_and_increase_capacity c n w).
Proof.
  intros I Al. destruct (inv_here I Al) as (x & s & l & A & So).
  destruct (clear_w A So) as (x1 & s1 & w1 & H1 & C1 & SB1 & So1).
  assert (A1 : at_ w1 c x1 s1) by (eapply chg_at; eauto; apply SB1).
  assert (S1 : shift c x1 s1 w w1) by (apply chg_shift; auto).
  assert (I1 : inv w1) by (eapply inv_kept; eauto).
  unfold clear_and_increase_capacity. unfold tamed. wv H1. wv get_cache_ev. destruct (Nat.ltb (c_cap x1) n).
  - rewrite put_cache_ev. set (x2 := MkCache _ _ _ _ _ _).
    assert (S2 : shift c x2 s1 w1 (setC c x2 w1)) by (apply chg_shift; eapply chg_setC; eauto).
    assert (So2 : sound x2 s1 []).
    { constructor; simpl; [apply (so_rep So1)|lia|apply (so_last So1)]. }
    split; [|split; [|split; auto]].
    + eapply inv_shift; [exact I1|exact A1|exact S2|auto|intros i Q; exact (inv_st I1 (proj1 A1) Q)|eauto].
    + eapply stab_trans; [eapply (shift_stab I A S1); apply SB1|eapply (shift_stab I1 A1 S2); auto].
    + eapply shift_alive; [exact S2|]. eapply shift_alive; eauto.
  - split; auto. split; [eapply (shift_stab I A S1); apply SB1|]. split; auto. eapply shift_alive; eauto.
Qed.

Lemma assign_range_tamed w c l : inv w -> alive w c = true -> tamed c w (fun _ _ => True) (assign_range E c l w).
Proof.
  intros I Al. unfold assign_range. eapply tamed_bind; [apply clear_more_tamed; auto|]. intros _ w1 I1 A1 _.
  eapply tamed_bind; [apply insert_range_tamed; auto|]. intros _ w2 I2 A2 _. apply tamed_ret; auto.
Qed.
Lemma assign_move_tamed w c l : inv w -> alive w c = true -> tamed c w (fun _ _ => True) (assign_move E c l w).
Proof.
  intros I Al. unfold assign_move. eapply tamed_bind; [apply clear_more_tamed; auto|]. intros _ w1 I1 A1 _.
  eapply tamed_bind; [apply insert_move_tamed; auto|]. intros _ w2 I2 A2 _. apply tamed_ret; auto.
Qed.

(* ---------------------------------------------------------------- *)
(** ** Construction and destruction *)

Lemma destroy_w w c : inv_but (Some c) w -> alive w c = true ->
  exists w', destroy c w = Val tt w' /\ inv w' /\ stab (Some c) w w'.
Proof.
  intros I Al. unfold alive in Al. destruct (slot (w_caches w) c) as [x|] eqn:Hx; [|discriminate].
  eexists. split; [unfold destroy; ev get_cache_ev; reflexivity|].
  unfold drop_cache, drop_store, modify; simpl. split.
  - constructor; simpl.
    + intros d y. destruct (Nat.eq_dec c d) as [<-|N]; [erewrite slot_upd_same by eauto; discriminate|].
      rewrite slot_upd_other by auto. intros Hy. destruct (inv_at I Hy) as (s & Hs & So). exists s. split.
      * rewrite slot_upd_other; auto. intro Q. apply N. eapply (inv_inj I); eauto.
      * intros _. apply So. congruence.
    + intros d e y z D1 D2 Q.
      destruct (Nat.eq_dec c d) as [<-|N]; [erewrite slot_upd_same in D1 by eauto; discriminate|].
      destruct (Nat.eq_dec c e) as [<-|N']; [erewrite slot_upd_same in D2 by eauto; discriminate|].
      rewrite slot_upd_other in D1, D2 by auto. eapply (inv_inj I); eauto.
    + intros d y i. destruct (Nat.eq_dec c d) as [<-|N]; [erewrite slot_upd_same by eauto; discriminate|].
      rewrite slot_upd_other by auto. apply (inv_st I).
  - intros d y N Hy. simpl. exists y. rewrite slot_upd_other by congruence. repeat split; auto.
    intros s Hs. exists s. rewrite slot_upd_other; auto. intro Q. apply N. f_equal. eapply (inv_inj I); eauto.
Qed.

Lemma new_cache_w w cap ttl : inv w -> exists w', new_cache cap ttl w = Val (length (w_caches w)) w' /\
  inv w' /\ stable w w' /\ alive w' (length (w_caches w)) = true /\
  slot (w_caches w') (length (w_caches w)) = Some (MkCache (length (w_stores w)) None cap None no_callbacks ttl) /\
  w_stats w' = w_stats w.
Proof.
  intros I. eexists. split; [unfold new_cache, bind, alloc_store, alloc_cache; simpl; reflexivity|].
  unfold with_caches, with_stores; simpl. split; [|split; [|split; [|split]]].
  - constructor; simpl.
    + intros c x H. apply slot_app_some in H as [(L & H)|(-> & ->)].
      * destruct (inv_at I H) as (s & Hs & So). exists s. split; auto. rewrite slot_app_lt; auto. eapply slot_lt; eauto.
      * simpl. rewrite slot_app_new. exists empty_store. split; auto. intros _. exists [].
        constructor; simpl; [|lia|discriminate]. constructor; simpl; auto using NoDup_nil.
    + intros c d x y H1 H2 Q.
      apply slot_app_some in H1 as [(L1 & H1)|(-> & ->)]; apply slot_app_some in H2 as [(L2 & H2)|(-> & ->)]; auto.
      * eapply (inv_inj I); eauto.
      * destruct (inv_at I H1) as (s & Hs & _). apply slot_lt in Hs. simpl in Q. lia.
      * destruct (inv_at I H2) as (s & Hs & _). apply slot_lt in Hs. simpl in Q. lia.
    + intros c x i H Q. apply slot_app_some in H as [(L & H)|(-> & ->)]; [eapply (inv_st I); eauto|discriminate].
  - intros c x _ H. exists x. simpl. rewrite slot_app_lt by (eapply slot_lt; eauto). repeat split; auto.
    intros s Hs. exists s. rewrite slot_app_lt by (eapply slot_lt; eauto). auto.
  - unfold alive; simpl. rewrite slot_app_new. auto.
  - apply slot_app_new.
  - auto.
Qed.

Lemma stab_fresh c w w' : stab (Some c) w w' -> slot (w_caches w) c = None -> stable w w'.
Proof. intros S N d x _ H. apply S; auto. intro Q. inversion Q; subst. congruence. Qed.

Lemma slot_len {A} (l : list (option A)) : slot l (length l) = None.
Proof. unfold slot. apply nth_overflow. auto. Qed.

Lemma with_new_ok w cap ttl body : inv w ->
  (forall c w, inv w -> alive w c = true -> tamed c w (fun _ _ => True) (body c w)) ->
  ok w (with_new cap ttl body w).
Proof.
  intros I B. destruct (new_cache_w cap ttl I) as (w1 & H1 & I1 & S1 & Al & _).
  unfold with_new. wv H1. specialize (B _ _ I1 Al).
  set (c := length (w_caches w)) in *.
  assert (N : slot (w_caches w) c = None) by apply slot_len.
  destruct (body c w1) as [n w2|e w2|u|e]; simpl in *; auto.
  - destruct B as (I2 & S2 & _). split; auto. eapply stab_fresh; [|exact N]. eapply stab_trans; [apply stable_stab|]; eauto.
  - destruct B as (D & S2 & A2).
    assert (IB : inv_but (Some c) w2) by (destruct D as [D|(_ & D & _)]; [apply inv_weaken; auto|auto]).
    destruct (destroy_w IB A2) as (w3 & H3 & I3 & S3). rewrite (bind_val _ _ _ H3). simpl. split; auto.
    eapply stab_fresh; [|exact N]. eapply stab_trans; [apply stable_stab; eauto|]. eapply stab_trans; eauto.
Qed.

Lemma new_from_ok w cap ttl l : inv w -> ok w (new_from E cap ttl l w).
Proof. intros I. apply with_new_ok; auto. intros. apply insert_range_tamed; auto. Qed.
Lemma new_from_move_ok w cap ttl l : inv w -> ok w (new_from_move E cap ttl l w).
Proof. intros I. apply with_new_ok; auto. intros. apply insert_move_tamed; auto. Qed.

(* ---------------------------------------------------------------- *)
(** ** Swap and moves *)

Lemma inv_setC w c x s l x' : inv w -> at_ w c x s -> sound x' s l -> c_rid x' = c_rid x ->
  (forall i, c_stats x' = Some i -> slot (w_stats w) i <> None) -> inv (setC c x' w).
Proof.
  intros I A So Hr St. eapply inv_shift; [exact I|exact A|apply chg_shift; eapply chg_setC; eauto|auto|auto|eauto].
Qed.

Lemma sound_graft x s l st cb ttl : sound x s l -> sound (MkCache (c_rid x) (c_last x) (c_cap x) st cb ttl) s l.
Proof. intros [A B C]. constructor; auto. Qed.

Lemma base_swap_w w c d : inv w -> alive w c = true -> alive w d = true ->
  exists w', base_swap c d w = Val tt w' /\ inv w' /\ alive w' c = true /\ alive w' d = true.
Proof.
  intros I Ac Ad. destruct (inv_here I Ac) as (x & sx & lx & (Hx & Sx) & Px).
  destruct (inv_here I Ad) as (y & sy & ly & (Hy & Sy) & Py).
  unfold base_swap. destruct (Nat.eqb_spec c d) as [<-|N].
  - exists w. split; [ev get_cache_ev; ev get_cache_ev; auto|auto].
  - eexists. split; [ev get_cache_ev; ev get_cache_ev; ev put_cache_ev; rewrite put_cache_ev; reflexivity|].
    set (x' := MkCache _ _ _ (c_stats x) _ _). set (y' := MkCache _ _ _ (c_stats y) _ _).
    assert (Hy' : forall v, slot (upd (w_caches w) c v) d = Some y) by (intros; rewrite slot_upd_other; auto).
    assert (L : forall e z, slot (upd (upd (w_caches w) c (Some x')) d (Some y')) e = Some z ->
       exists e0 z0, slot (w_caches w) e0 = Some z0 /\ c_rid z0 = c_rid z /\
         ((e = c /\ e0 = d /\ z = x') \/ (e = d /\ e0 = c /\ z = y') \/ (e <> c /\ e <> d /\ e0 = e /\ z0 = z))).
    { intros e z H. destruct (Nat.eq_dec d e) as [<-|Nd].
      - erewrite slot_upd_same in H by eauto. inversion H; subst. exists c, x. intuition.
      - rewrite slot_upd_other in H by auto. destruct (Nat.eq_dec c e) as [<-|Nc].
        + erewrite slot_upd_same in H by eauto. inversion H; subst. exists d, y. intuition.
        + rewrite slot_upd_other in H by auto. exists e, z. intuition. }
    split; [|split].
    + constructor; simpl.
      * intros e z H. destruct (L e z H) as (e0 & z0 & Z1 & Z2 & [(-> & -> & ->)|[(-> & -> & ->)|(N1 & N2 & -> & ->)]]).
        -- exists sy. split; auto. intros _. exists ly. destruct Py as [P1 P2 P3]. constructor; auto.
        -- exists sx. split; auto. intros _. exists lx. destruct Px as [P1 P2 P3]. constructor; auto.
        -- destruct (inv_at I Z1) as (s & Hs & So). exists s. split; auto.
      * intros e f z z' H1 H2 Q. apply L in H1 as (e0 & z0 & H1 & Q1 & D1).
        apply L in H2 as (f0 & z0' & H2 & Q2 & D2).
        assert (e0 = f0) by (eapply (inv_inj I); eauto; congruence). subst f0. intuition congruence.
      * intros e z i H Q. destruct (L e z H) as (e0 & z0 & Z1 & Z2 & [(-> & -> & ->)|[(-> & -> & ->)|(N1 & N2 & -> & ->)]]).
        -- eapply (inv_st I Hx); eauto.
        -- eapply (inv_st I Hy); eauto.
        -- eapply (inv_st I Z1); eauto.
    + unfold alive; simpl. rewrite slot_upd_other by auto. erewrite slot_upd_same by eauto. auto.
    + unfold alive; simpl. erewrite slot_upd_same by eauto. auto.
Qed.

Lemma graft_w w c f : inv w -> alive w c = true ->
  (forall x, exists st cb ttl, f x = MkCache (c_rid x) (c_last x) (c_cap x) st cb ttl /\
     (st = c_stats x \/ (forall i, st = Some i -> slot (w_stats w) i <> None))) ->
  exists w', (x <- get_cache c;; put_cache c (f x)) w = Val tt w' /\ inv w' /\
    (forall d, alive w' d = alive w d).
Proof.
  intros I Al F. destruct (inv_here I Al) as (x & s & l & A & So). eexists.
  split; [ev get_cache_ev; apply put_cache_ev|]. destruct (F x) as (st & cb & ttl & -> & D). split.
  - eapply inv_setC; [exact I|exact A|apply sound_graft; exact So|auto|].
    simpl. destruct D as [->|D]; [intros i Q; exact (inv_st I (proj1 A) Q)|exact D].
  - intros d. unfold alive; simpl. destruct (Nat.eq_dec c d) as [<-|N].
    + erewrite slot_upd_same by (apply A). rewrite (proj1 A). auto.
    + rewrite slot_upd_other; auto.
Qed.

Lemma swap_w w c d : inv w -> alive w c = true -> alive w d = true ->
  exists w', swap c d w = Val tt w' /\ inv w'.
Proof.
  intros I Ac Ad. destruct (inv_here I Ac) as (x & sx & lx & (Hx & Sx) & Px).
  destruct (inv_here I Ad) as (y & sy & ly & (Hy & Sy) & Py).
  destruct (base_swap_w I Ac Ad) as (w1 & H1 & I1 & A1 & B1).
  destruct (@graft_w w1 c (fun x' => MkCache (c_rid x') (c_last x') (c_cap x') (c_stats x') (c_cbs x') (c_ttl y)) I1 A1) as (w2 & H2 & I2 & A2).
  { intros z. exists (c_stats z), (c_cbs z), (c_ttl y). auto. }
  destruct (@graft_w w2 d (fun x' => MkCache (c_rid x') (c_last x') (c_cap x') (c_stats x') (c_cbs x') (c_ttl x)) I2) as (w3 & H3 & I3 & A3).
  { rewrite A2; auto. }
  { intros z. exists (c_stats z), (c_cbs z), (c_ttl x). auto. }
  exists w3. split; auto. unfold swap. ev get_cache_ev. ev get_cache_ev. ev H1.
  rewrite <- bind_assoc. ev H2. exact H3.
Qed.

Lemma move_assign_w w c d : inv w -> alive w c = true -> alive w d = true ->
  exists w', move_assign c d w = Val tt w' /\ inv w'.
Proof.
  intros I Ac Ad. destruct (base_swap_w I Ac Ad) as (w1 & H1 & I1 & A1 & B1).
  destruct (inv_here I1 B1) as (y & sy & ly & (Hy & Sy) & Py).
  destruct (@graft_w w1 c (fun x' => MkCache (c_rid x') (c_last x') (c_cap x') (c_stats x') (c_cbs x') (c_ttl y)) I1 A1) as (w2 & H2 & I2 & A2).
  { intros z. exists (c_stats z), (c_cbs z), (c_ttl y). auto. }
  exists w2. split; auto. unfold move_assign. ev H1. destruct (inv_here I1 A1) as (x & sx & lx & (Hx & Sx) & Px).
  ev get_cache_ev. ev get_cache_ev. rewrite <- H2. unfold bind. erewrite get_cache_ev by exact Hx. auto.
Qed.

Lemma move_new_w w c : inv w -> alive w c = true ->
  match junk E with
  | None => move_new E c w = Undef Indeterminate
  | Some _ => exists d w', move_new E c w = Val d w' /\ inv w'
  end.
Proof.
  intros I Ac. destruct (inv_here I Ac) as (x & sx & lx & (Hx & Sx) & Px). unfold move_new.
  destruct (junk E) as [n|]; [|ev get_cache_ev; auto].
  destruct (new_cache_w n (c_ttl x) I) as (w1 & H1 & I1 & S1 & A1 & _).
  destruct (S1 c x ltac:(discriminate) Hx) as (x1 & X1 & _).
  destruct (@base_swap_w w1 (length (w_caches w)) c I1 A1) as (w2 & H2 & I2 & _).
  { unfold alive. rewrite X1. auto. }
  exists (length (w_caches w)), w2. split; auto. ev get_cache_ev. ev H1. ev H2. auto.
Qed.
End Ins.
