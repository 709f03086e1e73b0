(** The functions of the model keep the invariant of Sturdy.v: erasure, access. *)
From Coq Require Import List Arith ZArith Bool Permutation Lia.
Import ListNotations.
From Verif Require Import Monad Types Model Api Spec SpecFault Ref Lists SimBase SimRel SimOps SimIns SimErase SimIter SimNew SimObs Sturdy.
Set Implicit Arguments.
Unset Strict Implicit.
Local Open Scope cpp_scope.

(** Run one bind whose first part is known to return. *)
Tactic Notation "wv" uconstr(L) :=
  match goal with
  | |- wp _ _ (bind ?m ?k ?w) => with_bind m k w ltac:(eapply L; first [solve [eauto with sim] | simpl; eauto with sim])
  end.

Section Ops.
Context {K V : Type}.
Variable E : env K V.
Hypothesis Fr : fair E.

Notation entry := (entry K V).
Notation world := (world K V).
Notation store := (store K V).
Notation mnode := (mnode K V).
Notation cell := (@cell K V).
Notation rep_store := (rep_store (calm E)).
Notation find_cell := (find_cell (calm E)).
Notation sound := (sound E).
Notation inv := (inv E).
Notation valid_it := (valid_it E).
Implicit Types (w : world) (s : store).

Let G : good (calm E) := calm_good Fr.

Definition ok {A} w (r : res world A) : Prop :=
  wp (fun _ w' => inv w' /\ stable w w') (fun _ w' => inv w' /\ stable w w') r.
Definition safe {A} (r : res world A) : Prop := wp (fun _ w' => inv w') (fun _ w' => inv w') r.

Lemma ok_safe A w (r : res world A) : ok w r -> safe r.
Proof. intros H. eapply wp_conseq; [exact H| |]; simpl; tauto. Qed.

Lemma inv_stats w c x s : inv w -> at_ w c x s -> forall i, c_stats x = Some i -> slot (w_stats w) i <> None.
Proof. intros I (A & _) i H. eapply (inv_st I); eauto. Qed.

Lemma inv_kept w w' c x s x' s' l' : inv w -> at_ w c x s -> shift c x' s' w w' -> same_but_last x x' ->
  sound x' s' l' -> inv w'.
Proof.
  intros I A C (Hr & Hc & Hs & _) So. eapply inv_shift; eauto. rewrite Hs. eapply inv_stats; eauto.
Qed.

(* ---------------------------------------------------------------- *)
(** ** Erasure *)

Lemma erase_lru_w w c x s cl l : at_ w c x s -> sound x s (cl :: l) ->
  exists x' s' w', erase_lru E c w = Val tt w' /\ chg c x' s' w w' /\ same_but_last x x' /\ sound x' s' l.
Proof.
  intros A So. pose proof (so_rep So) as R.
  destruct (erase_it_w Fr (l1 := []) A So) as (x' & s' & w' & H & C & SB & So').
  exists x', s', w'. split; [|auto]. unfold erase_lru, list_front. rewrite bind_assoc. ev own_ev.
  rewrite (rs_ord R). cbn [map qrow]. rewrite bind_ret.
  assert (I : In cl (cl :: l)) by (left; auto).
  ev deref_ev. ev (f_map_find Fr). pose proof (f_mid Fr (l1 := []) (rs_keys R) (fair_refl Fr _)) as F. simpl app in F.
  cbn [n_key node_of]. rewrite F. cbn [option_map]. cbv beta iota. auto.
Qed.

Lemma erase_lru_while_w c n fuel : forall w x s l, at_ w c x s -> sound x s l -> length l <= n + fuel ->
  exists x' s' l' w', erase_lru_while E fuel c n w = Val tt w' /\ chg c x' s' w w' /\ same_but_last x x' /\
    sound x' s' l' /\ length l' <= n.
Proof.
  induction fuel as [|fuel IH]; intros w x s l A So L.
  - exists x, s, l, w. unfold erase_lru_while. split; [|auto using chg_refl, sbl_refl].
    + ev size_ev. rewrite (rep_size (so_rep So)). destruct (Nat.ltb_spec n (length l)); [lia|auto].
    + split; [eapply chg_refl; eauto|]. split; [apply sbl_refl|]. split; auto. lia.
  - cbn [erase_lru_while]. destruct (Nat.ltb_spec n (length l)) as [Q|Q].
    + destruct l as [|cl l]; [simpl in Q; lia|].
      destruct (erase_lru_w A So) as (x1 & s1 & w1 & H1 & C1 & SB1 & So1).
      destruct (IH w1 x1 s1 l) as (x2 & s2 & l2 & w2 & H2 & C2 & SB2 & So2 & L2);
        [eapply chg_at; eauto; apply SB1|auto|simpl in L; lia|].
      exists x2, s2, l2, w2. split; [|split; [eapply chg_trans; eauto; apply SB2|split; [eapply sbl_trans; eauto|auto]]].
      ev size_ev. rewrite (rep_size (so_rep So)). destruct (Nat.ltb_spec n (length (cl :: l))); [|simpl in *; lia].
      ev H1. auto.
    + exists x, s, l, w. split; [|split; [eapply chg_refl; eauto|split; [apply sbl_refl|auto]]].
      ev size_ev. rewrite (rep_size (so_rep So)). destruct (Nat.ltb_spec n (length l)); [lia|auto].
Qed.

Lemma clear_w w c x s l : at_ w c x s -> sound x s l ->
  exists x' s' w', clear c w = Val tt w' /\ chg c x' s' w w' /\ same_but_last x x' /\ sound x' s' [].
Proof.
  intros A So. eexists (with_last None x), _, _. split; [|split; [|split; [apply sbl_last|]]].
  - unfold clear. ev own_ev. ev put_store_ev. ev own_ev. ev put_store_ev. rewrite setS_setS.
    unfold invalidate_last. erewrite set_last_ev by (eapply at_setS; exact A). reflexivity.
  - eapply chg_trans; [eapply chg_setS; exact A|eapply chg_setC; [eapply at_setS; exact A|auto]|auto].
  - constructor; simpl; [|lia|discriminate]. apply rep_store_nil.
Qed.

Lemma shrink_w w c x s l n : at_ w c x s -> sound x s l ->
  exists x' s' l' w', shrink E c n w = Val tt w' /\ chg c x' s' w w' /\ same_but_last x x' /\ sound x' s' l'.
Proof.
  intros A So. unfold shrink. destruct (Nat.leb_spec (length (s_map s)) n) as [Q|Q].
  - exists x, s, l, w. split; [|split; [eapply chg_refl; eauto|split; [apply sbl_refl|auto]]].
    ev size_ev. destruct (Nat.leb_spec (length (s_map s)) n); [auto|lia].
  - destruct (Nat.eqb_spec n 0) as [->|N].
    + destruct (clear_w A So) as (x' & s' & w' & H & R). exists x', s', [], w'. split; [|auto].
      ev size_ev. destruct (Nat.leb_spec (length (s_map s)) 0); [lia|auto].
    + destruct (erase_lru_while_w (n := n) (fuel := length (s_map s)) A So) as (x' & s' & l' & w' & H & R1 & R2 & R3 & R4).
      { rewrite (rep_size (so_rep So)). lia. }
      exists x', s', l', w'. split; [|auto]. ev size_ev.
      destruct (Nat.leb_spec (length (s_map s)) n); [lia|auto].
Qed.

Lemma set_capacity_w w c x s l n : at_ w c x s -> sound x s l ->
  exists x' s' l' w', set_capacity E c n w = Val tt w' /\ chg c x' s' w w' /\
    c_rid x' = c_rid x /\ c_stats x' = c_stats x /\ sound x' s' l'.
Proof.
  intros A So. unfold set_capacity.
  destruct (erase_lru_while_w (n := n) (fuel := length (s_map s)) A So) as (x' & s' & l' & w' & H & R1 & R2 & R3 & R4).
  { rewrite (rep_size (so_rep So)). lia. }
  assert (A' : at_ w' c x' s') by (eapply chg_at; eauto; apply R2).
  eexists _, s', l', _. split; [ev size_ev; ev H; ev get_cache_ev; apply put_cache_ev|].
  split; [eapply chg_trans; [exact R1|eapply chg_setC; [exact A'|reflexivity]|reflexivity]|].
  simpl. split; [apply R2|]. split; [apply R2|].
  constructor; simpl; [apply (so_rep R3)|auto|apply (so_last R3)].
Qed.

Lemma erase_key_w w c x s l k : at_ w c x s -> sound x s l ->
  exists b x' s' l' w', erase_key E c k w = Val b w' /\ chg c x' s' w w' /\ same_but_last x x' /\ sound x' s' l'.
Proof.
  intros A So. pose proof (so_rep So) as R. destruct (last_is_ev2 k A So) as (b & Hb & T & F).
  unfold erase_key. destruct b.
  - destruct (T eq_refl) as (cl & I & L & Hk). apply in_split in I as (l1 & l2 & ->).
    destruct (erase_key_info_w Fr A So) as (x' & s' & w' & H & C & SB & So').
    exists true, x', s', (l1 ++ l2), w'. split; [|auto]. ev Hb.
    unfold last_ptr. rewrite bind_assoc. ev get_cache_ev. rewrite L, bind_ret. ev H. auto.
  - destruct (find_cell k l) as [cl|] eqn:Q.
    + destruct (find_cell_split _ _ _ Q) as (l1 & l2 & -> & Hk).
      destruct (erase_it_w Fr A So) as (x' & s' & w' & H & C & SB & So').
      exists true, x', s', (l1 ++ l2), w'. split; [|auto]. ev Hb. ev (f_map_find Fr). rewrite Q. simpl. ev H. auto.
    + exists false, x, s, l, w. split; [|split; [eapply chg_refl; eauto|split; [apply sbl_refl|auto]]].
      ev Hb. ev (f_map_find Fr). rewrite Q. auto.
Qed.

Lemma shift_tock c x s w w' : shift c x s (tock w) w' -> shift c x s w w'.
Proof. auto. Qed.

Lemma clear_expired_loop_w c d fuel : forall n w x s l, at_ w c x s -> sound x s l -> length l <= fuel ->
  exists m x' s' l' w', clear_expired_loop E fuel c d n w = Val m w' /\ shift c x' s' w w' /\
    same_but_last x x' /\ sound x' s' l'.
Proof.
  induction fuel as [|fuel IH]; intros n w x s l A So L.
  - destruct l; [|simpl in L; lia]. exists n, x, s, [], w.
    split; [|split; [eapply shift_refl; eauto|split; [apply sbl_refl|auto]]].
    unfold clear_expired_loop. ev own_ev. rewrite (rs_ord (so_rep So)). auto.
  - pose proof (so_rep So) as R. destruct l as [|cl l].
    + exists n, x, s, [], w. split; [|split; [eapply shift_refl; eauto|split; [apply sbl_refl|auto]]].
      cbn [clear_expired_loop]. ev own_ev. rewrite (rs_ord R). auto.
    + assert (I : In cl (cl :: l)) by (left; auto).
      pose proof (f_mid Fr (l1 := []) (rs_keys R) (fair_refl Fr _)) as F. simpl app in F.
      destruct (Z.ltb d (dcast E (clock E (w_reads w) - n_time (node_of (c_rid x) cl)))) eqn:X.
      * assert (A1 : at_ (tock w) c x s) by exact A.
        destruct (erase_it_w Fr (l1 := []) A1 So) as (x1 & s1 & w1 & H1 & C1 & SB1 & So1).
        destruct (IH (S n) w1 x1 s1 l) as (m & x2 & s2 & l2 & w2 & H2 & C2 & SB2 & So2);
          [eapply chg_at; [exact A1|eauto|apply SB1]|auto|simpl in L; lia|].
        exists m, x2, s2, l2, w2. split; [|split; [eapply shift_trans; [apply (chg_shift C1)|exact C2|apply SB2]|]].
        -- cbn [clear_expired_loop]. ev own_ev. rewrite (rs_ord R). cbn [map qrow]. ev deref_ev. ev (f_map_find Fr).
           cbn [n_key node_of]. rewrite F. cbn [option_map]. cbv beta iota. ev deref_it_ev. ev has_expired_ev.
           rewrite X. ev H1. auto.
        -- split; [eapply sbl_trans; eauto|auto].
      * exists n, x, s, (cl :: l), (tock w). split; [|split; [apply (shift_refl A)|split; [apply sbl_refl|auto]]].
        cbn [clear_expired_loop]. ev own_ev. rewrite (rs_ord R). cbn [map qrow]. ev deref_ev. ev (f_map_find Fr).
        cbn [n_key node_of]. rewrite F. cbn [option_map]. cbv beta iota. ev deref_it_ev. ev has_expired_ev.
        rewrite X. auto.
Qed.

Lemma clear_expired_w w c x s l d : at_ w c x s -> sound x s l ->
  exists m x' s' l' w', clear_expired E c d w = Val m w' /\ shift c x' s' w w' /\
    same_but_last x x' /\ sound x' s' l'.
Proof.
  intros A So. unfold clear_expired, is_empty. destruct (Nat.eqb (length (s_map s)) 0) eqn:Q.
  - exists 0, x, s, l, w. split; [|split; [eapply shift_refl; eauto|split; [apply sbl_refl|auto]]].
    rewrite bind_assoc. ev size_ev. rewrite bind_ret, Q. auto.
  - destruct (clear_expired_loop_w d (fuel := length (s_map s)) 0 A So) as (m & x' & s' & l' & w' & H & R).
    { rewrite (rep_size (so_rep So)). auto. }
    exists m, x', s', l', w'. split; [|auto]. rewrite bind_assoc. ev size_ev. rewrite bind_ret, Q. ev size_ev. auto.
Qed.
End Ops.
