(** Programs with iterator variables: every allowed step keeps its promise. *)
From Coq Require Import List Arith ZArith Bool Permutation Lia.
Import ListNotations.
From Verif Require Import Monad Types Model Api IterObj Spec SpecTimed Ref Lists SimBase SimRel SimOps SimIns SimErase SimIter SimNew SimObs SimExec RefEval SimRun LruProofs CallProofs LruMore Flat Global Safe Frame SpecStats StatProofs TimedTrack NodeTrack SpecIter IterProofs SpecCursor CursorProofs.
Set Implicit Arguments.
Unset Strict Implicit.
Local Open Scope cpp_scope.

Section Run.
Context {K V : Type}.
Variable E : env K V.
Hypothesis G : good E.
Notation world := (world K V).
Notation aworld := (aworld K V).
Notation cell := (@cell K V).
Notation cursor := (@cursor K).
Notation istate := (istate K V).
Notation stands := (stands E).
Notation pairs l := (map pair_of (ents l)).
Implicit Types (w : world) (aw : aworld) (cl : cell) (cu : cursor) (cs : list cursor) (st : istate).

Lemma map_inj_on {A B} (f : A -> B) (l : list A) a b : NoDup (map f l) -> In a l -> In b l -> f a = f b -> a = b.
Proof.
  induction l as [|x l IH]; simpl; intros N I J H; [easy|]. inversion N; subst.
  destruct I as [->|I], J as [->|J]; auto.
  - exfalso. apply H2. rewrite H. apply in_map; auto.
  - exfalso. apply H2. rewrite <- H. apply in_map; auto.
Qed.

Lemma key_expired_ev c w x s (l : list cell) d k : at_ w c x s -> rep_store E (c_rid x) s l ->
  has_expired_key E c d k w = match find_cell E k l with
    | Some cl => Val (Z.ltb d (dcast E (clock E (w_reads w) - e_time (cl_e cl)))) (tock w)
    | None => Val false w
    end.
Proof.
  intros At R. unfold has_expired_key, bind. rewrite (map_find_ev G k At R).
  destruct (find_cell E k l) as [cl|] eqn:F; [|reflexivity]. simpl.
  unfold find_cell in F. apply find_some in F. destruct F as (I & _).
  rewrite (deref_it_ev _ _ (proj2 At) R I). reflexivity.
Qed.
Lemma find_val k v (l1 l2 : list cell) cl :
  option_map (fun c : cell => e_time (cl_e c)) (find_cell E k (l1 ++ cell_val v cl :: l2)) =
  option_map (fun c : cell => e_time (cl_e c)) (find_cell E k (l1 ++ cl :: l2)).
Proof.
  unfold find_cell. induction l1 as [|c l1 IH]; simpl.
  - destruct (key_equal E k (e_key (cl_e cl))); reflexivity.
  - destruct (key_equal E k (e_key (cl_e c))); auto.
Qed.

(** ** Writing through an iterator *)
Notation setv v := (fun n => MkNode (n_key n) v (n_ord n) (n_time n)).

Lemma write_ok k c w r s cl v aw : rel E w aw -> lives E k c w r s cl ->
  exists w' aw', update_node (r, cl_m cl) (setv v) w = Val tt w' /\ rel E w' aw' /\
    overwritten E c k v w w' /\ forall x cu, stands w x cu -> stands w' x cu.
Proof.
  intros R L. destruct (lives_cells G R L) as (x & a & l1 & l2 & At & <- & Ha & Rp & Q & CT & D).
  pose proof (rp_store Rp) as RS. pose proof (proj2 At) as Hs.
  rewrite (update_node_ev (setv v) Hs RS).
  set (s' := MkStore (alter (cl_m cl) (setv v) (s_map s)) (s_ord s) (s_next s) (s_epoch s)).
  assert (RS' : rep_store E (c_rid x) s' (l1 ++ cell_val v cl :: l2)) by (eapply rep_setval; eauto).
  pose proof (rep_write Rp RS') as Rp'.
  set (a' := set_ents (ents l1 ++ set_val v (cl_e cl) :: ents l2) (a_hot a) a) in *.
  set (w' := setS (c_rid x) s' w).
  assert (R' : rel E w' (awith c a' aw)).
  { eapply (rel_put R At Ha); [eapply chg_setS; eauto|exact Rp'|auto|auto]. }
  assert (At' : at_ w' c x s').
  { split; simpl; [apply At|]. eapply slot_upd_same; eauto. }
  exists w', (awith c a' aw). split; [reflexivity|]. split; [exact R'|]. split.
  - constructor; auto.
    + intros ord d l S. destruct (Nat.eqb_spec d c) as [->|N].
      * destruct ord; simpl in S |- *.
        -- assert (l = pairs (l1 ++ cl :: l2)) by (unfold contents in *; congruence). subst l.
           rewrite pairs_mid, rewrites_mid by auto.
           pose proof (contents_of G R' (c := c) (a := a')) as C'. simpl in C'.
           rewrite map_app in C'. apply C'. eapply slot_upd_same; eauto.
        -- rewrite (hash_order_at At RS S).
           pose proof (hash_order_is At' Rp') as HO. simpl in HO.
           replace (rewrites E k v (map (@npair K V) (s_map s)))
             with (map (@npair K V) (alter (cl_m cl) (setv v) (s_map s))); auto.
           unfold rewrites, alter. rewrite !map_map. apply map_ext_in. intros (i, n) I.
           simpl. apply (Permutation_in _ (rs_map RS)) in I. apply in_map_iff in I.
           destruct I as (cl' & Q' & I'). inversion Q'; subst i n. simpl.
           destruct (Nat.eqb_spec (cl_m cl) (cl_m cl')) as [M|M].
           ++ assert (cl' = cl) by (eapply (map_inj_on (rs_nm RS)); eauto using in_mid). subst cl'.
              rewrite Q. reflexivity.
           ++ destruct (key_equal E k (e_key (cl_e cl'))) eqn:X; [|reflexivity].
              exfalso. apply M. f_equal. eapply (dkeys_unique G); [exact (rs_keys RS)| | |exact Q|exact X]; auto using in_mid.
      * destruct ord; simpl in S |- *.
        -- destruct (contents_inv G R S) as (b & Hb & ->). apply (contents_of G R'). simpl.
           rewrite slot_upd_other; auto.
        -- assert (A : exists y, slot (w_caches w) d = Some y).
           { unfold hash_order, exec, well_formed, alive in S. destruct (slot (w_caches w) d); [eauto|discriminate]. }
           destruct A as (y & Hy). destruct (rel_get' _ R Hy) as (b & s2 & l' & Hb & At2 & Rp2).
           rewrite (hash_order_at At2 (rp_store Rp2) S). eapply hash_order_is; [|exact Rp2].
           split; auto. simpl. rewrite slot_upd_other; [apply At2|].
           intros Z. apply N. eapply (rel_inj R); [exact Hy|exact (proj1 At)|auto].
    + intros d j r w1 H. unfold exec in H |- *. simpl in H |- *. unfold timed in *. simpl.
      destruct (slot (w_caches w) d) as [y|] eqn:Y; [|inversion H; subst; eauto].
      destruct (c_ttl y) as [t|] eqn:T; [|inversion H; subst; eauto].
      unfold with_ttl, bind, get_cache in *. simpl. rewrite Y in *. rewrite T in *.
      destruct (Nat.eq_dec d c) as [->|N].
      * assert (y = x) by (destruct At; congruence). subst y.
        rewrite (key_expired_ev t j At RS) in H. rewrite (key_expired_ev t j At' RS').
        assert (FV := find_val j v l1 l2 cl).
        destruct (find_cell E j (l1 ++ cell_val v cl :: l2)) as [c1|];
          destruct (find_cell E j (l1 ++ cl :: l2)) as [c2|]; simpl in FV;
          try discriminate FV; inversion H; subst; [injection FV as FV; rewrite FV|]; eauto.
      * destruct (rel_get' _ R Y) as (b & s2 & l' & Hb & At2 & Rp2).
        rewrite (key_expired_ev t j At2 (rp_store Rp2)) in H.
        assert (At3 : at_ w' d y s2).
        { split; [exact Y|]. simpl. rewrite slot_upd_other; [apply At2|].
          intros Z. apply N. eapply (rel_inj R); [exact Y|exact (proj1 At)|auto]. }
        rewrite (key_expired_ev t j At3 (rp_store Rp2)).
        destruct (find_cell E j l'); inversion H; subst; eauto.
    + intros d n. unfold capacity_is, exec. simpl. unfold alive. simpl.
      destruct (slot (w_caches w) d) as [y|] eqn:Y; [|discriminate].
      unfold bind, capacity, bind, get_cache. simpl. rewrite Y. simpl. intros H. inversion H. reflexivity.
  - assert (KL : forall k2 d r s2 cl2, lives E k2 d w r s2 cl2 -> exists s2' cl2',
        lives E k2 d w' r s2' cl2' /\ cl_m cl2' = cl_m cl2 /\ cl_q cl2' = cl_q cl2 /\ s_epoch s2' = s_epoch s2).
    { intros k2 d r s2 cl2 (y & l' & Hy & <- & Hs2 & Rp2 & I2 & Q2). destruct (Nat.eq_dec d c) as [->|N].
      - assert (y = x) by (destruct At; congruence). subst y.
        assert (s2 = s) by congruence. subst s2.
        assert (I3 : In cl2 (l1 ++ cl :: l2)) by (eapply rep_cells; [exact Rp2|exact RS|auto]).
        exists s'. apply in_app_or in I3. destruct I3 as [I3|[<-|I3]].
        + exists cl2. split; [|auto]. exists x, (l1 ++ cell_val v cl :: l2). split; [apply At'|]. split; auto. split; [apply At'|].
          split; auto. split; auto. apply in_or_app; auto.
        + exists (cell_val v cl). split; [|auto]. exists x, (l1 ++ cell_val v cl :: l2). split; [apply At'|]. split; auto. split; [apply At'|].
          split; auto. split; auto using in_mid.
        + exists cl2. split; [|auto]. exists x, (l1 ++ cell_val v cl :: l2). split; [apply At'|]. split; auto. split; [apply At'|].
          split; auto. split; auto. apply in_or_app; simpl; auto.
      - exists s2, cl2. split; [|auto]. exists y, l'. split; [exact Hy|]. split; auto. split.
        { simpl. rewrite slot_upd_other; [exact Hs2|].
          intros Z. apply N. eapply (rel_inj R); [exact Hy|exact (proj1 At)|auto]. }
        auto. }
    intros y cu S. destruct S as [v0 b d H|d H|d H|k2 d r s2 cl2 en L2 H|k2 d r s2 cl2 en L2 H]; try (constructor; auto; fail).
    + destruct (KL _ _ _ _ _ L2) as (s3 & c3 & L3 & M3 & Q3 & E3). rewrite <- Q3. eapply st_at_o; eauto. rewrite M3; auto.
    + destruct (KL _ _ _ _ _ L2) as (s3 & c3 & L3 & M3 & Q3 & E3). rewrite <- M3, <- E3. eapply st_at_u; eauto. rewrite M3; auto.
Qed.

(** ** Comparing and converting *)
Lemma two_cells k1 k2 c w r1 r2 s1 s2 cl1 cl2 : lives E k1 c w r1 s1 cl1 -> lives E k2 c w r2 s2 cl2 ->
  r1 = r2 /\ s1 = s2 /\ (cl_m cl1 =? cl_m cl2) = key_equal E k1 k2 /\ (cl_q cl1 =? cl_q cl2) = key_equal E k1 k2.
Proof.
  intros (x & l & Hx & Rx & Hs & R & I & Q) (x' & l' & Hx' & Rx' & Hs' & R' & I' & Q').
  assert (x' = x) by congruence. subst x' r1 r2.
  assert (s2 = s1) by congruence. subst s2. split; auto. split; auto.
  pose proof (rep_cells R' R I') as J. destruct (key_equal E k1 k2) eqn:KE.
  - assert (cl2 = cl1).
    { eapply (dkeys_unique G) with (k := k1); [exact (rs_keys R)| | | |exact Q]; auto. eapply (good_trans G _ _ _); eauto. }
    subst cl2. rewrite !Nat.eqb_refl; auto.
  - assert (N : cl1 <> cl2).
    { intros <-. rewrite (good_sym G k2) in Q'. rewrite (good_trans G _ _ _ Q Q') in KE. discriminate. }
    split; apply Nat.eqb_neq; intros Z; apply N.
    + exact (map_inj_on (rs_nm R) I J Z).
    + exact (map_inj_on (rs_nq R) I J Z).
Qed.
Lemma lives_convert k c w r s cl d en : lives E k c w r s cl ->
  o_from_u (MkU d (UAt ((r, cl_m cl), s_epoch s)) en) w = Val (MkO d (OAt (r, cl_q cl)) None) w.
Proof. intros (x & l & Hx & Rx & Hs & R & I & Q). exact (o_from_u_ev d en Hs R I). Qed.

Lemma same_ok w v v' cu cv : stands w v cu -> stands w v' cv -> cu_cache cu = cu_cache cv ->
  stays cu -> stays cv -> i_same v v' w = Val (same_mark E (cu_mark cu) (cu_mark cv)) w.
Proof.
  intros S S' C T T'. unfold stays in *.
  destruct S as [v b c H|c H|c H|k c r s cl en L H|k c r s cl en L H]; [now elim T| | | |];
  destruct S' as [v' b' c' H'|c' H'|c' H'|k' c' r' s' cl' en' L' H'|k' c' r' s' cl' en' L' H']; try (now elim T');
  simpl in C; subst c'; simpl; unfold ou_eq, o_eq, u_eq; simpl; rewrite ?Nat.eqb_refl; simpl; auto;
  try (unfold noexcept, bind; rewrite (lives_convert c en' L') || rewrite (lives_convert c en L); reflexivity);
  destruct (two_cells L L') as (<- & <- & M & Q); unfold noexcept, bind; simpl;
  rewrite ?(lives_convert c en' L'), ?(lives_convert c en L); simpl; unfold o_eq, mptr_eqb; simpl;
  rewrite ?Nat.eqb_refl; simpl; rewrite ?M, ?Q; auto.
  all: try (rewrite (Nat.eqb_sym (cl_q cl')), Q); auto.
Qed.
Lemma convert_ok w it cu : stands w (VU it) cu -> stays cu ->
  match cu_mark cu with
  | AtKey k => exists o, o_from_u_move it w = Val o w /\ stands w (VO o) (MkCur true (cu_cache cu) (AtKey k))
  | _ => o_from_u_move it w = Exc InvalidIteratorConversion w
  end.
Proof.
  intros S T. inversion S; subst; simpl; [now elim T| |].
  - unfold o_from_u_move, bind, o_from_u, u_eq. simpl. rewrite Nat.eqb_refl. reflexivity.
  - unfold o_from_u_move, bind. rewrite (lives_convert c en H0). eexists. split; [reflexivity|]. simpl.
    eapply st_at_o; eauto.
Qed.

(** ** The checked accesses *)
Lemma o_entry_ev k c w r s cl x : lives E k c w r s cl -> slot (w_caches w) c = Some x ->
  o_entry E (MkO c (OAt (r, cl_q cl)) None) w =
  if late E x cl w then Exc KeyExpired (wa x w) else Val (r, cl_m cl) (wa x w).
Proof.
  intros L Hx. unfold o_entry, bind. cbn [oi_cache]. rewrite (check_o G L (or_introl eq_refl) Hx). unfold checked.
  destruct (late E x cl w); auto.
  rewrite (deref_o G (lives_same (wa_caches x w) (wa_stores x w) L) (or_introl eq_refl)). reflexivity.
Qed.
Lemma entry_at k c w r s cl x aw : rel E w aw -> lives E k c w r s cl -> slot (w_caches w) c = Some x ->
  exists l, contents E c w l /\ exec E (EntryAt c (position E (AtKey k) l)) w =
    if late E x cl w then Exc KeyExpired (wa x w)
    else Val (ROpt (Some (e_key (cl_e cl), e_val (cl_e cl)))) (wa x w).
Proof.
  intros R L Hx. destruct (position_at G R L) as (l & CT & O). exists l. split; auto.
  unfold exec. simpl well_formed. rewrite (lives_alive L). cbn [body]. unfold bind. rewrite O.
  rewrite (o_entry_ev L Hx). destruct (late E x cl w); auto.
  unfold read_entry, bind. rewrite (lives_deref (lives_same (wa_caches x w) (wa_stores x w) L)). reflexivity.
Qed.
Lemma valid_at k c w r s cl x aw : rel E w aw -> lives E k c w r s cl -> slot (w_caches w) c = Some x ->
  exists l, contents E c w l /\ exec E (ValidAt c (position E (AtKey k) l)) w =
    Val (RBool (negb (late E x cl w))) (wa x w).
Proof.
  intros R L Hx. destruct (position_at G R L) as (l & CT & O). exists l. split; auto.
  unfold exec. simpl well_formed. rewrite (lives_alive L). cbn [body]. unfold bind. rewrite O.
  rewrite (valid_o G L (or_introl eq_refl) Hx). reflexivity.
Qed.
Lemma entry_at_end c w aw : rel E w aw -> alive w c = true ->
  exists l, contents E c w l /\ exec E (EntryAt c (position E (@AtEnd K) l)) w = Exc InvalidIterator w.
Proof.
  intros R A. destruct (position_end G R A) as (l & CT & O). exists l. split; auto.
  unfold exec. simpl well_formed. rewrite A. cbn [body]. unfold bind. rewrite O.
  unfold o_entry, throw_if_invalid_o, bind, get_cache. simpl. unfold alive in A.
  destruct (slot (w_caches w) c); [|discriminate]. unfold o_eq. simpl. rewrite Nat.eqb_refl. reflexivity.
Qed.
Lemma valid_at_end c w aw : rel E w aw -> alive w c = true ->
  exists l, contents E c w l /\ exec E (ValidAt c (position E (@AtEnd K) l)) w = Val (RBool false) w.
Proof.
  intros R A. destruct (position_end G R A) as (l & CT & O). exists l. split; auto.
  unfold exec. simpl well_formed. rewrite A. cbn [body]. unfold bind. rewrite O.
  unfold is_valid_o, bind, get_cache. simpl. unfold alive in A.
  destruct (slot (w_caches w) c); [|discriminate]. unfold o_eq. simpl. rewrite Nat.eqb_refl. reflexivity.
Qed.

(** ** States of a program and the cursors they stand for *)
Definition tracked st cs : Prop :=
  (exists aw, rel E (i_world st) aw) /\ Forall2 (stands (i_world st)) (i_vars st) cs.

Lemma f2_nth {A B} (P : A -> B -> Prop) l m : Forall2 P l m -> forall i b, nth_error m i = Some b ->
  exists a, nth_error l i = Some a /\ P a b.
Proof.
  induction 1 as [|a b l m H F IH]; intros [|i] z; simpl; intros N; try discriminate; eauto.
  inversion N; subst; eauto.
Qed.
Lemma f2_set {A B} (P : A -> B -> Prop) l m a b : Forall2 P l m -> P a b -> forall i,
  Forall2 P (set_nth i a l) (set_nth i b m).
Proof. induction 1; intros; [destruct i; constructor|]. destruct i; simpl; constructor; auto. Qed.
Lemma f2_put {A B} (P : A -> B -> Prop) l m a b : Forall2 P l m -> P a b -> forall i,
  nth_error m i = Some b -> Forall2 P (set_nth i a l) m.
Proof.
  induction 1; intros Q [|i] N; simpl in *; try discriminate.
  - inversion N; subst. constructor; auto.
  - constructor; auto.
Qed.
Lemma f2_new {A B} (P : A -> B -> Prop) l m a b : Forall2 P l m -> P a b -> Forall2 P (l ++ [a]) (m ++ [b]).
Proof. intros. apply Forall2_app; auto. Qed.
Lemma f2_imp {A B} (P Q : A -> B -> Prop) l m : Forall2 P l m -> (forall a b, P a b -> Q a b) -> Forall2 Q l m.
Proof. induction 1; constructor; auto. Qed.
Lemma nth_app {A} (l : list A) a i b : nth_error l i = Some b -> nth_error (l ++ [a]) i = Some b.
Proof. revert i. induction l; intros [|i]; simpl; try discriminate; auto. Qed.
Lemma set_nth_app {A} (l : list A) a i b c : nth_error l i = Some b -> set_nth i c (l ++ [a]) = set_nth i c l ++ [a].
Proof. revert i. induction l as [|x l IH]; intros [|i]; simpl; try discriminate; auto. intros. rewrite IH; auto. Qed.
Lemma f2_call o oc w w1 aw aw1 vs cs : rel E w aw -> rel E w1 aw1 -> copy_free o = true -> call E o w oc w1 ->
  Forall2 (stands w) vs cs -> Forall2 (stands w1) vs (map (after_call E o oc w1) cs).
Proof.
  intros R R1 CF C F. induction F; simpl; constructor; auto. exact (stands_call G R R1 CF C H).
Qed.

(** entry() *)
Lemma entry_ok i vs cs w aw v cu : rel E w aw -> Forall2 (stands w) vs cs -> nth_error cs i = Some cu ->
  stands w v cu -> stays cu -> (cu_ord cu = false -> cu_mark cu = @AtEnd K -> lenient_end E = true) ->
  exists l oc w' aw' vs', contents E (cu_cache cu) w l /\
    call E (EntryAt (cu_cache cu) (position E (cu_mark cu) l)) w oc w' /\ rel E w' aw' /\
    Forall2 (stands w') vs' cs /\
    match oc with
    | Returned (ROpt (Some e)) => exists p n, i_entry E i v (MkI w vs) = Val p (MkI w' vs') /\
        deref p w' = Val n w' /\ e = (n_key n, n_val n)
    | Threw x => i_entry E i v (MkI w vs) = Exc x (MkI w' vs')
    | _ => False
    end.
Proof.
  intros R F N S T LE. destruct S as [v b c H|c H|c H|k c r s cl en L H|k c r s cl en L H]; [now elim T| | | |]; cbn [cu_cache cu_mark cu_ord] in *.
  - simpl. destruct (entry_at_end R H) as (l & CT & X). exists l, (Threw InvalidIterator), w, aw, vs.
    split; [exact CT|]; split; [exact X|]; split; [assumption|]; split; [assumption|]. unfold throw_if_invalid_o, lift, bind, get_cache. unfold alive in H. simpl.
    destruct (slot (w_caches w) c); [|discriminate]. unfold o_eq. simpl. rewrite Nat.eqb_refl. reflexivity.
  - simpl. destruct (entry_at_end R H) as (l & CT & X). exists l, (Threw InvalidIterator), w, aw, vs.
    split; [exact CT|]; split; [exact X|]; split; [assumption|]; split; [assumption|]. unfold lift, u_entry. simpl. rewrite LE by auto.
    unfold throw_if_invalid_u, bind, get_cache. unfold alive in H.
    destruct (slot (w_caches w) c); [|discriminate]. unfold u_eq. simpl. rewrite Nat.eqb_refl. reflexivity.
  - simpl. destruct (lives_cache L) as (x & Hx & _). destruct (entry_at R L Hx) as (l & CT & X).
    destruct (wa_rel x R) as (aw' & R').
    pose proof (f2_imp F (fun a b => stands_same (wa_caches x w) (wa_stores x w))) as F'.
    pose proof (lives_same (wa_caches x w) (wa_stores x w) L) as L'.
    unfold bind, lift. simpl. rewrite (check_o G L H Hx). unfold checked.
    destruct (late E x cl w).
    + exists l, (Threw KeyExpired), (wa x w), aw', vs. split; [exact CT|]; split; [exact X|]; split; [assumption|]; split; [assumption|]. reflexivity.
    + eexists l, (Returned (ROpt (Some (_, _)))), (wa x w), aw', _. split; auto. split; [exact X|]. split; auto.
      simpl. simpl. rewrite (deref_o G L' H). unfold put_var, modify, ret. simpl.
      split; [|eexists _, _; split; [reflexivity|split; [exact (lives_deref L')|reflexivity]]].
      eapply f2_put; eauto. eapply st_at_o; eauto.
  - destruct (lives_cache L) as (x & Hx & _). destruct (entry_at R L Hx) as (l & CT & X).
    destruct (wa_rel x R) as (aw' & R').
    pose proof (lives_same (wa_caches x w) (wa_stores x w) L) as L'.
    assert (Z : i_entry E i (VU (MkU c (UAt (r, cl_m cl, s_epoch s)) en)) =
      ('(p, it') <- lift (u_deref (MkU c (UAt (r, cl_m cl, s_epoch s)) en));; put_var i (VU it');;;
          lift (throw_if_invalid_u E c it');;; ret p)) by (unfold i_entry; simpl; destruct en; auto).
    set (v' := VU (MkU c (UAt (r, cl_m cl, s_epoch s)) (Some (r, cl_m cl)))).
    assert (Z' : i_entry E i (VU (MkU c (UAt (r, cl_m cl, s_epoch s)) en)) (MkI w vs) =
      if late E x cl w then Exc KeyExpired (MkI (wa x w) (set_nth i v' vs))
      else Val (r, cl_m cl) (MkI (wa x w) (set_nth i v' vs))).
    { rewrite Z. unfold bind, lift. cbn [i_world i_vars]. rewrite (deref_u L H). unfold put_var, modify. cbn [i_world i_vars].
      rewrite (check_u _ L Hx). unfold checked. destruct (late E x cl w); reflexivity. }
    rewrite Z'. clear Z Z'.
    assert (F' : Forall2 (stands (wa x w)) (set_nth i v' vs) cs).
    { eapply f2_imp; [|intros a b; apply (stands_same (wa_caches x w) (wa_stores x w))].
      eapply f2_put; eauto. eapply st_at_u; eauto. }
    destruct (late E x cl w).
    + exists l, (Threw KeyExpired), (wa x w), aw', (set_nth i v' vs). split; [exact CT|]; split; [exact X|]; split; [assumption|]; split; [assumption|]. reflexivity.
    + eexists l, (Returned (ROpt (Some (_, _)))), (wa x w), aw', (set_nth i v' vs). split; auto. split; [exact X|]. split; auto.
      split; auto. eexists _, _; split; [reflexivity|split; [exact (lives_deref L')|reflexivity]].
Qed.

(** key() *)
Lemma o_key_ev k c w r s cl (en : option mptr) x : lives E k c w r s cl -> en = None \/ en = Some (r, cl_m cl) ->
  slot (w_caches w) c = Some x ->
  o_key E (MkO c (OAt (r, cl_q cl)) en) w =
  if late E x cl w then Exc KeyExpired (wa x w) else Val (e_key (cl_e cl)) (wa x w).
Proof.
  intros L H Hx. unfold o_key, bind. cbn [oi_cache oi_pos]. rewrite (check_o G L H Hx). unfold checked.
  destruct (late E x cl w); auto. pose proof (lives_same (wa_caches x w) (wa_stores x w) L) as L'.
  rewrite (lives_list L'), (lives_deref L'). reflexivity.
Qed.
Lemma key_ok i vs cs w aw v cu : rel E w aw -> Forall2 (stands w) vs cs -> nth_error cs i = Some cu ->
  stands w v cu -> stays cu -> (cu_ord cu = false -> cu_mark cu = @AtEnd K -> lenient_end E = true) ->
  exists l oc w' aw' vs', contents E (cu_cache cu) w l /\
    call E (EntryAt (cu_cache cu) (position E (cu_mark cu) l)) w oc w' /\ rel E w' aw' /\
    Forall2 (stands w') vs' cs /\
    match oc with
    | Returned (ROpt (Some e)) => i_key E i v (MkI w vs) = Val (fst e) (MkI w' vs')
    | Threw x => i_key E i v (MkI w vs) = Exc x (MkI w' vs')
    | _ => False
    end.
Proof.
  intros R F N S T LE. destruct (ordered_var v) eqn:OV.
  - destruct S as [v b c H|c H|c H|k c r s cl en L H|k c r s cl en L H]; [now elim T| | | |]; try discriminate OV;
      cbn [cu_cache cu_mark cu_ord] in *.
    + destruct (entry_at_end R H) as (l & CT & X). exists l, (Threw InvalidIterator), w, aw, vs.
      split; [exact CT|]; split; [exact X|]; split; [assumption|]; split; [assumption|].
      unfold i_key, o_key, throw_if_invalid_o, lift, bind, get_cache. unfold alive in H. simpl.
      destruct (slot (w_caches w) c); [|discriminate]. unfold o_eq. simpl. rewrite Nat.eqb_refl. reflexivity.
    + destruct (lives_cache L) as (x & Hx & _). destruct (entry_at R L Hx) as (l & CT & X).
      destruct (wa_rel x R) as (aw' & R').
      pose proof (f2_imp F (fun a b => stands_same (wa_caches x w) (wa_stores x w))) as F'.
      assert (Z : i_key E i (VO (MkO c (OAt (r, cl_q cl)) en)) (MkI w vs) =
        if late E x cl w then Exc KeyExpired (MkI (wa x w) vs) else Val (e_key (cl_e cl)) (MkI (wa x w) vs)).
      { unfold i_key, lift. cbn [i_world i_vars]. rewrite (o_key_ev L H Hx). destruct (late E x cl w); auto. }
      rewrite Z. clear Z. destruct (late E x cl w).
      * exists l, (Threw KeyExpired), (wa x w), aw', vs. auto 10.
      * eexists l, (Returned (ROpt (Some (_, _)))), (wa x w), aw', vs. split; [exact CT|]. split; [exact X|]. auto.
  - destruct (entry_ok R F N S T LE) as (l & oc & w' & aw' & vs' & CT & C & R' & F' & M).
    exists l, oc, w', aw', vs'. split; [exact CT|]; split; [exact C|]; split; [assumption|]; split; [assumption|].
    assert (Z : i_key E i v = (p <- i_entry E i v;; n <- lift (deref p);; ret (n_key n))).
    { destruct S; try reflexivity; try discriminate OV. now elim T. }
    rewrite Z. unfold bind. destruct oc as [[]|]; try easy.
    + destruct e as [e|]; [|easy]. destruct M as (p & n & -> & D & ->). unfold lift. simpl. rewrite D. reflexivity.
    + rewrite M. reflexivity.
Qed.

Lemma valid_ok w aw v cu : rel E w aw -> stands w v cu -> stays cu ->
  exists l b w' aw', contents E (cu_cache cu) w l /\
    exec E (ValidAt (cu_cache cu) (position E (cu_mark cu) l)) w = Val (RBool b) w' /\ rel E w' aw' /\
    (forall x cv, stands w x cv -> stands w' x cv) /\ i_valid E (cu_cache cu) v w = Val b w'.
Proof.
  intros R S T. destruct S as [v b c H|c H|c H|k c r s cl en L H|k c r s cl en L H]; [now elim T| | | |];
    cbn [cu_cache cu_mark cu_ord] in *.
  - destruct (valid_at_end R H) as (l & CT & X). exists l, false, w, aw.
    split; [exact CT|]; split; [exact X|]; split; [assumption|]; split; [auto|].
    unfold i_valid, is_valid_o, bind, get_cache. unfold alive in H.
    destruct (slot (w_caches w) c); [|discriminate]. unfold o_eq. simpl. rewrite Nat.eqb_refl. reflexivity.
  - destruct (valid_at_end R H) as (l & CT & X). exists l, false, w, aw.
    split; [exact CT|]; split; [exact X|]; split; [assumption|]; split; [auto|].
    unfold i_valid, is_valid_u, bind, get_cache. unfold alive in H.
    destruct (slot (w_caches w) c); [|discriminate]. unfold u_eq. simpl. rewrite Nat.eqb_refl. reflexivity.
  - destruct (lives_cache L) as (x & Hx & _). destruct (valid_at R L Hx) as (l & CT & X).
    destruct (wa_rel x R) as (aw' & R'). exists l, (negb (late E x cl w)), (wa x w), aw'.
    split; [exact CT|]; split; [exact X|]; split; [assumption|]; split; [intros; eapply stands_same; eauto using wa_caches, wa_stores|].
    exact (valid_o G L H Hx).
  - destruct (lives_cache L) as (x & Hx & _). destruct (valid_at R L Hx) as (l & CT & X).
    destruct (wa_rel x R) as (aw' & R'). exists l, (negb (late E x cl w)), (wa x w), aw'.
    split; [exact CT|]; split; [exact X|]; split; [assumption|]; split; [intros; eapply stands_same; eauto using wa_caches, wa_stores|].
    exact (valid_u _ L Hx).
Qed.

Lemma erase_ok w aw v cu : rel E w aw -> stands w v cu -> stays cu ->
  let c := cu_cache cu in
  exists l, sequence E (cu_ord cu) c w l /\
  let n := position E (cu_mark cu) l in
  let o := if cu_ord cu then EraseOrdered c n else EraseUnordered c n in
  exec E o w = match i_erase E c v w with
    | Val _ w' => Val RUnit w' | Exc e w' => Exc e w' | Undef u => Undef u | Term e => Term e end.
Proof.
  intros R S T. destruct S as [v b c H|c H|c H|k c r s cl en L H|k c r s cl en L H]; [now elim T| | | |];
    cbn [cu_cache cu_mark cu_ord].
  - destruct (position_end G R H) as (l & CT & P). exists l. split; [exact CT|].
    unfold exec, well_formed. rewrite H. cbn [body]. unfold bind. rewrite P. reflexivity.
  - destruct (position_end_u G R H) as (l & CT & P). exists l. split; [exact CT|].
    unfold exec, well_formed. rewrite H. cbn [body]. unfold bind. rewrite P. reflexivity.
  - destruct (position_at G R L) as (l & CT & P). exists l. split; [exact CT|].
    unfold exec, well_formed. rewrite (lives_alive L). cbn [body]. unfold bind at 1. rewrite P.
    destruct (lives_cache L) as (x & Hx & _).
    assert (Q : erase_o E c (MkO c (OAt (r, cl_q cl)) None) w = erase_o E c (MkO c (OAt (r, cl_q cl)) en) w).
    { unfold erase_o, bind. unfold o_eq. cbn [oi_pos]. destruct (opos_eqb _ _); auto. }
    unfold bind. rewrite Q. reflexivity.
  - destruct (position_u G R L) as (l & CT & P). exists l. split; [exact CT|].
    unfold exec, well_formed. rewrite (lives_alive L). cbn [body]. unfold bind. rewrite P. reflexivity.
Qed.

(** ** Iterators returned by the cache *)
Lemma rel_alive w aw c a : rel E w aw -> slot (aw_caches aw) c = Some a -> alive w c = true.
Proof. intros R Ha. destruct (rel_get _ R Ha) as (x & s & l & At & _). exact (at_alive At). Qed.
Lemma uit_stands c it r w aw a : rel E w aw -> slot (aw_caches aw) c = Some a -> uit E c it r w aw ->
  exists e, denotes c it w = Val e w /\ stands w (VU it) (MkCur false c (found e)).
Proof.
  intros R Ha U. destruct r as [e|]; simpl in U.
  - destruct U as (i & -> & B). destruct (back_lives B (good_refl G (e_key e))) as (r & s & cl & -> & L & <-).
    exists (Some (e_key (cl_e cl), e_val (cl_e cl))). split.
    + unfold denotes, bind. simpl. rewrite (deref_u (en := None) L (or_introl eq_refl)).
      unfold read_entry, bind. rewrite (lives_deref L). reflexivity.
    + simpl. eapply st_at_u; eauto.
  - subst it. exists None. split.
    + unfold denotes, u_eq. simpl. rewrite Nat.eqb_refl. reflexivity.
    + apply st_end_u. eapply rel_alive; eauto.
Qed.
Lemma find_ok c k w aw : rel E w aw -> alive w c = true ->
  exists it e w' aw', find E c k w = Val it w' /\ rel E w' aw' /\ exec E (Find c k) w = Val (ROpt e) w' /\
    stands w' (VU it) (MkCur false c (found e)).
Proof.
  intros R A. destruct (alive_inv R A) as (a & Ha). pose proof (find_sim G k R Ha) as S.
  rewrite (a_find_ev _ Ha (rel_sts_of R Ha)) in S.
  destruct (find E c k w) as [it w'|? ?|?|?] eqn:F; simpl in S; try contradiction.
  destruct S as (R' & U & (a' & Ha' & _) & _). destruct (uit_stands R' Ha' U) as (e & D & SD).
  eexists it, e, w', _. split; auto. split; [exact R'|]. split; auto.
  unfold exec, well_formed. rewrite A. cbn [body]. unfold bind. rewrite F, D. reflexivity.
Qed.
Lemma insert_ok c k v w aw : rel E w aw -> alive w c = true ->
  exists b it e w' aw', insert E c k v w = Val (b, it) w' /\ rel E w' aw' /\
    exec E (Insert c k v) w = Val (RIns b e) w' /\ stands w' (VU it) (MkCur false c (found e)).
Proof.
  intros R A. destruct (alive_inv R A) as (a & Ha). pose proof (insert_sim G k v R Ha) as S.
  rewrite (a_insert_ev _ Ha) in S.
  destruct (insert E c k v w) as [(b, it) w'|? ?|?|?] eqn:F; simpl in S; try contradiction.
  destruct S as (R' & _ & U & (a' & Ha')). destruct (uit_stands R' Ha' U) as (e & D & SD).
  eexists b, it, e, w', _. split; auto. split; [exact R'|]. split; auto.
  unfold exec, well_formed. rewrite A. cbn [body]. unfold bind. rewrite F. cbn [fst snd] in *. rewrite D. reflexivity.
Qed.
Lemma emplace_ok c k v w aw : rel E w aw -> alive w c = true ->
  exists b it e w' aw', emplace E c k v w = Val (b, it) w' /\ rel E w' aw' /\
    exec E (Emplace c k v) w = Val (RIns b e) w' /\ stands w' (VU it) (MkCur false c (found e)).
Proof.
  intros R A. destruct (alive_inv R A) as (a & Ha). pose proof (emplace_sim G k v R Ha) as S.
  rewrite (a_insert_ev _ Ha) in S.
  destruct (emplace E c k v w) as [(b, it) w'|? ?|?|?] eqn:F; simpl in S; try contradiction.
  destruct S as (R' & _ & U & (a' & Ha')). destruct (uit_stands R' Ha' U) as (e & D & SD).
  eexists b, it, e, w', _. split; auto. split; [exact R'|]. split; auto.
  unfold exec, well_formed. rewrite A. cbn [body]. unfold bind. rewrite F. cbn [fst snd] in *. rewrite D. reflexivity.
Qed.

(** ** The step *)
Lemma f2_len {A B} (P : A -> B -> Prop) l m : Forall2 P l m -> length l = length m.
Proof. induction 1; simpl; auto. Qed.

Lemma set_nth_id {A} (l : list A) i a : nth_error l i = Some a -> set_nth i a l = l.
Proof. revert i. induction l as [|x l IH]; intros [|i]; simpl; try discriminate; intros H; [congruence|]. rewrite IH; auto. Qed.
Lemma set_nth_other {A} (l : list A) i j a : i <> j -> nth_error (set_nth i a l) j = nth_error l j.
Proof.
  revert i j. induction l as [|x l IH]; intros [|i] [|j] N; simpl; try easy. apply IH. congruence.
Qed.
Lemma stands_alive w v cu : stands w v cu -> stays cu -> alive w (cu_cache cu) = true.
Proof. intros S T. destruct S as [v b c H|c H|c H|k c r s cl en L H|k c r s cl en L H]; [now elim T|auto|auto|exact (lives_alive L)|exact (lives_alive L)]. Qed.
Lemma next_ok w aw v cu k : rel E w aw -> stands w v cu -> cu_mark cu = AtKey k -> exists v' l,
  i_next v w = Val v' w /\ sequence E (cu_ord cu) (cu_cache cu) w l /\ stands w v' (moved cu (next_mark E k l)).
Proof.
  intros R S MK. destruct S as [v b c H|c H|c H|k' c r s cl en L H|k' c r s cl en L H]; simpl in MK; try discriminate MK;
    inversion MK; subst k'.
  - destruct (next_o G en R L) as (it & l & X & CT & S). exists (VO it), l. unfold i_next, bind. rewrite X. auto.
  - destruct (next_u G en R L) as (it & l & X & CT & S). exists (VU it), l. unfold i_next, bind. rewrite X. auto.
Qed.
Lemma prev_ok w aw v cu l : rel E w aw -> stands w v cu -> cu_ord cu = true -> contents E (cu_cache cu) w l ->
  prev_mark E (cu_mark cu) l <> @Stray K -> exists v',
  i_prev v w = Val v' w /\ stands w v' (moved cu (prev_mark E (cu_mark cu) l)).
Proof.
  intros R S O CT P. destruct S as [v b c H|c H|c H|k' c r s cl en L H|k' c r s cl en L H]; simpl in O, CT, P; try discriminate O.
  - now elim P.
  - destruct (prev_end G R CT P) as (it & X & S). exists (VO it). unfold i_prev, bind. rewrite X. auto.
  - destruct (prev_at G en R L CT P) as (it & X & S). exists (VO it). unfold i_prev, bind. rewrite X. auto.
Qed.
Lemma deref_ok i vs w v cu k : stands w v cu -> cu_mark cu = AtKey k -> exists r s cl v', lives E k (cu_cache cu) w r s cl /\
  i_deref E i v (MkI w vs) = Val (r, cl_m cl) (MkI w (set_nth i v' vs)) /\ stands w v' cu.
Proof.
  intros S MK. destruct S as [v b c H|c H|c H|k' c r s cl en L H|k' c r s cl en L H]; simpl in MK; try discriminate MK;
    inversion MK; subst k'; eexists r, s, cl, _; (split; [exact L|]).
  - split; [unfold i_deref, bind, lift; cbn [i_world i_vars]; rewrite (deref_o G L H); reflexivity|].
    eapply st_at_o; eauto.
  - split; [unfold i_deref, bind, lift; cbn [i_world i_vars]; rewrite (deref_u L H); reflexivity|].
    eapply st_at_u; eauto.
Qed.

Lemma step_ok s st cs : tracked st cs -> iallowed E s (i_world st) cs ->
  exists r st' cs', idone E s st r st' /\ ipromise E s (i_world st) cs r (i_world st') cs' /\ tracked st' cs'.
Proof.
  destruct st as [w vs]. intros ((aw & R) & F) AL. cbn [i_world i_vars] in *. pose proof (f2_len F) as LEN.
  destruct s.
  - (* ICall *)
    destruct AL as (CF & oc & w' & C). destruct (call_rel G R CF C) as (aw' & R').
    exists match oc with Returned x => IGives (JCall x) | Threw e => @IThrows K V e end,
      (MkI w' vs), (map (after_call E o oc w') cs). split; [|split; [exists oc; auto|split; [exists aw'; exact R'|exact (f2_call R R' CF C F)]]].
    unfold idone, iexec, bind, lift. simpl. destruct oc; simpl in C; rewrite C; reflexivity.
  - (* IBegin *)
    simpl in AL. destruct (cells_alive G R AL) as (x & s & a & l & At & Ha & Rp & CT). destruct ordered.
    + eexists (IGives (JNew (length cs))), (MkI w (vs ++ [_])), _. split; [|split; [split; [|split; [|eexists; split; [exact CT|]]]; reflexivity|split; [eauto|]]].
      * unfold idone, iexec, with_alive, bind, lift. simpl. rewrite AL. rewrite (ordered_begin_ev At (rp_store Rp)).
        unfold new_var, ret. simpl. rewrite LEN. reflexivity.
      * apply f2_new; auto. exact (stands_opos G (l1 := []) At Rp).
    + eexists (IGives (JNew (length cs))), (MkI w (vs ++ [_])), _. split; [|split; [split; [|split; [|eexists; split; [exact (hash_order_is At Rp)|]]]; reflexivity|split; [eauto|]]].
      * unfold idone, iexec, with_alive, bind, lift. simpl. rewrite AL. rewrite (unordered_begin_ev At).
        unfold new_var, ret. simpl. rewrite LEN. reflexivity.
      * apply f2_new; auto. exact (stands_upos G (m1 := []) At Rp eq_refl).
  - (* IEnd *)
    simpl in AL. eexists (IGives (JNew (length cs))), (MkI w (vs ++ [if ordered then VO (ordered_end c) else VU (unordered_end c)])), _.
    split; [|split; [split; [|split; reflexivity]; reflexivity|split; [eauto|]]].
    + unfold idone. destruct ordered; unfold iexec, with_alive; simpl; rewrite AL; unfold bind, new_var, ret; simpl; rewrite LEN; reflexivity.
    + apply f2_new; auto. destruct ordered; constructor; auto.
  - (* IFind *)
    simpl in AL. destruct (find_ok k R AL) as (it & e & w' & aw' & X & R' & C & S).
    eexists (IGives (JNew (length cs))), (MkI w' (vs ++ [VU it])), _.
    split; [|split; [exists (Returned (ROpt e)); split; [exact C|split; reflexivity]|split; [eauto|]]].
    + unfold idone, iexec, with_alive, bind, lift. simpl. rewrite AL, X. unfold new_var, ret. simpl. rewrite LEN. reflexivity.
    + apply f2_new; auto. eapply (f2_call R R'); auto; exact C.
  - (* IInsert *)
    simpl in AL. destruct (insert_ok k v R AL) as (b & it & e & w' & aw' & X & R' & C & S).
    eexists (IGives (JIns b (length cs))), (MkI w' (vs ++ [VU it])), _.
    split; [|split; [exists (Returned (RIns b e)); split; [exact C|split; reflexivity]|split; [eauto|]]].
    + unfold idone, iexec, with_alive, bind, lift. simpl. rewrite AL, X. unfold new_var, ret. simpl. rewrite LEN. reflexivity.
    + apply f2_new; auto. eapply (f2_call R R'); auto; exact C.
  - (* IEmplace *)
    simpl in AL. destruct (emplace_ok k v R AL) as (b & it & e & w' & aw' & X & R' & C & S).
    eexists (IGives (JIns b (length cs))), (MkI w' (vs ++ [VU it])), _.
    split; [|split; [exists (Returned (RIns b e)); split; [exact C|split; reflexivity]|split; [eauto|]]].
    + unfold idone, iexec, with_alive, bind, lift. simpl. rewrite AL, X. unfold new_var, ret. simpl. rewrite LEN. reflexivity.
    + apply f2_new; auto. eapply (f2_call R R'); auto; exact C.
  - (* INull *)
    eexists (IGives (JNew (length cs))), (MkI w (vs ++ [VNull ordered])), _.
    split; [|split; [split; [|split; reflexivity]; reflexivity|split; [eauto|]]].
    + unfold idone, iexec, bind, new_var, ret. simpl. rewrite LEN. reflexivity.
    + apply f2_new; auto. constructor. auto.
  - (* ICopy *)
    destruct AL as (cu & N & _). destruct (f2_nth F N) as (v & NV & S).
    eexists (IGives (JNew (length cs))), (MkI w (vs ++ [bare v])), _.
    split; [|split; [split; [|split; [|exists cu; split; [exact N|]]]; reflexivity|split; [eauto|]]].
    + unfold idone, iexec, with_var. simpl. rewrite NV. unfold bind, new_var, ret. simpl. rewrite LEN. reflexivity.
    + apply f2_new; auto using stands_bare.
  - (* IMove *)
    destruct AL as (cu & N & _). destruct (f2_nth F N) as (v & NV & S).
    eexists (IGives (JNew (length cs))), (MkI w (set_nth i (bare v) (vs ++ [v]))), _.
    split; [|split; [split; [|split; [|exists cu; split; [exact N|]]]; reflexivity|split; [eauto|]]].
    + unfold idone, iexec, with_var. simpl. rewrite NV. unfold bind, new_var, put_var, modify, ret. simpl. rewrite LEN. reflexivity.
    + eapply f2_put; [apply f2_new; eauto|apply stands_bare; exact S|apply nth_app; auto].
  - (* IConst *)
    destruct AL as (cu & N & _). destruct (f2_nth F N) as (v & NV & S).
    eexists (IGives (JNew (length cs))), (MkI w (vs ++ [bare v])), _.
    split; [|split; [split; [|split; [|exists cu; split; [exact N|]]]; reflexivity|split; [eauto|]]].
    + unfold idone, iexec, with_var. simpl. rewrite NV. unfold bind, new_var, ret. simpl. rewrite LEN. reflexivity.
    + apply f2_new; auto using stands_bare.
  - (* IConstMove *)
    destruct AL as (cu & N & _). destruct (f2_nth F N) as (v & NV & S).
    eexists (IGives (JNew (length cs))), (MkI w (set_nth i (bare v) (vs ++ [v]))), _.
    split; [|split; [split; [|split; [|exists cu; split; [exact N|]]]; reflexivity|split; [eauto|]]].
    + unfold idone, iexec, with_var. simpl. rewrite NV. unfold bind, new_var, put_var, modify, ret. simpl. rewrite LEN. reflexivity.
    + eapply f2_put; [apply f2_new; eauto|apply stands_bare; exact S|apply nth_app; auto].
  - (* IToOrdered *)
    destruct AL as (cu & N & O & T). destruct (f2_nth F N) as (v & NV & S).
    pose proof (stands_kind S) as SK. apply stands_bare in S. rewrite O in SK.
    assert (V0 : exists it, bare v = VU it).
    { destruct v; try discriminate SK; simpl; eauto. inversion S; subst. now elim T. }
    destruct V0 as (it & V0). rewrite V0 in S. pose proof (convert_ok S T) as CO.
    destruct (cu_mark cu) as [k| |] eqn:MK; [|eexists (IThrows _), (MkI w vs), cs|now elim T].
    + destruct CO as (o & CO & SO). eexists (IGives (JNew (length cs))), (MkI w (vs ++ [VO o])), _.
      split; [|split; [split; [reflexivity|exists cu; rewrite MK; split; [exact N|split; reflexivity]]|split; [eauto|apply f2_new; auto]]].
      unfold idone, iexec, with_var. simpl. rewrite NV, V0. unfold bind, lift. simpl. rewrite CO. unfold new_var, ret. simpl. rewrite LEN. reflexivity.
    + split; [|split; [split; [reflexivity|exists cu; rewrite MK; split; [exact N|split; reflexivity]]|split; eauto]].
      unfold idone, iexec, with_var. simpl. rewrite NV, V0. unfold bind, lift. simpl. rewrite CO. reflexivity.
  - (* IToOrderedMove *)
    destruct AL as (cu & N & O & T). destruct (f2_nth F N) as (v & NV & S).
    pose proof (stands_kind S) as SK. rewrite O in SK.
    assert (V0 : exists it, v = VU it).
    { destruct v; try discriminate SK; simpl; eauto. inversion S; subst. now elim T. }
    destruct V0 as (it & ->). pose proof (convert_ok S T) as CO.
    assert (F' : Forall2 (stands w) (set_nth i (bare (VU it)) vs) cs) by (eapply f2_put; eauto using stands_bare).
    destruct (cu_mark cu) as [k| |] eqn:MK; [|eexists (IThrows _), (MkI w (set_nth i (bare (VU it)) vs)), cs|now elim T].
    + destruct CO as (o & CO & SO). eexists (IGives (JNew (length cs))), (MkI w (set_nth i (bare (VU it)) vs ++ [VO o])), _.
      split; [|split; [split; [reflexivity|exists cu; rewrite MK; split; [exact N|split; reflexivity]]|split; [eauto|apply f2_new; auto]]].
      unfold idone, iexec, with_var. simpl. rewrite NV. unfold bind, lift, put_var, modify. simpl. rewrite CO. unfold new_var, ret. simpl.
      pose proof (f2_len F') as LEN'. simpl in LEN'. rewrite LEN'. reflexivity.
    + split; [|split; [split; [reflexivity|exists cu; rewrite MK; split; [exact N|split; reflexivity]]|split; eauto]].
      unfold idone, iexec, with_var. simpl. rewrite NV. unfold bind, lift, put_var, modify. simpl. rewrite CO. reflexivity.
  - (* IAssign *)
    destruct AL as (cu & cv & N & N' & O). destruct (f2_nth F N) as (v & NV & S). destruct (f2_nth F N') as (v' & NV' & S').
    assert (SK : Bool.eqb (ordered_var v) (ordered_var v') = true).
    { rewrite (stands_kind S), (stands_kind S'), O. apply Bool.eqb_reflx. }
    exists (IGives JUnit), (MkI w (if i =? j then vs else set_nth i (bare v') vs)), (set_nth i cv cs).
    split; [|split; [split; [reflexivity|split; [reflexivity|exists cv; auto]]|split; [eauto|]]].
    + unfold idone, iexec, with_var. simpl. rewrite NV, NV', SK. simpl. destruct (i =? j); reflexivity.
    + simpl. destruct (Nat.eqb_spec i j) as [->|NE].
      * rewrite set_nth_id; auto.
      * apply f2_set; auto using stands_bare.
  - (* IAssignMove *)
    destruct AL as (cu & cv & N & N' & O). destruct (f2_nth F N) as (v & NV & S). destruct (f2_nth F N') as (v' & NV' & S').
    assert (SK : Bool.eqb (ordered_var v) (ordered_var v') = true).
    { rewrite (stands_kind S), (stands_kind S'), O. apply Bool.eqb_reflx. }
    exists (IGives JUnit), (MkI w (if i =? j then vs else if ordered_var v' then set_nth j (bare v') (set_nth i v' vs)
      else set_nth i (bare v') vs)), (set_nth i cv cs).
    split; [|split; [split; [reflexivity|split; [reflexivity|exists cv; auto]]|split; [eauto|]]].
    + unfold idone, iexec, with_var. simpl. rewrite NV, NV', SK. simpl. destruct (i =? j), (ordered_var v'); reflexivity.
    + simpl. destruct (Nat.eqb_spec i j) as [->|NE].
      * rewrite set_nth_id; auto.
      * destruct (ordered_var v'); [|apply f2_set; auto using stands_bare].
        eapply f2_put; [apply f2_set; eauto|apply stands_bare; exact S'|]. rewrite set_nth_other; auto.
  - (* ISwap *)
    destruct AL as (cu & cv & N & N' & O). destruct (f2_nth F N) as (v & NV & S). destruct (f2_nth F N') as (v' & NV' & S').
    assert (SK : Bool.eqb (ordered_var v) (ordered_var v') = true).
    { rewrite (stands_kind S), (stands_kind S'), O. apply Bool.eqb_reflx. }
    exists (IGives JUnit), (MkI w (set_nth j v (set_nth i v' vs))), (set_nth j cu (set_nth i cv cs)).
    split; [|split; [split; [reflexivity|split; [reflexivity|exists cu, cv; auto]]|split; [eauto|]]].
    + unfold idone, iexec, with_var. simpl. rewrite NV, NV', SK. reflexivity.
    + simpl. apply f2_set; auto. apply f2_set; auto.
  - (* INext *)
    destruct AL as (cu & N & k & MK). destruct (f2_nth F N) as (v & NV & S).
    destruct (next_ok R S MK) as (v' & l & X & Q & S').
    exists (IGives JUnit), (MkI w (set_nth i v' vs)), (set_nth i (moved cu (next_mark E k l)) cs).
    split; [|split; [split; [reflexivity|split; [reflexivity|exists cu; split; [exact N|exists k, l; auto]]]|split; [eauto|]]].
    + unfold idone, iexec, with_var. simpl. rewrite NV. unfold bind, lift. simpl. rewrite X. reflexivity.
    + simpl. apply f2_set; auto.
  - (* IPrev *)
    destruct AL as (cu & N & O & l & CT & P). destruct (f2_nth F N) as (v & NV & S).
    destruct (prev_ok R S O CT P) as (v' & X & S'). pose proof (stands_kind S) as SK. rewrite O in SK.
    exists (IGives JUnit), (MkI w (set_nth i v' vs)), (set_nth i (moved cu (prev_mark E (cu_mark cu) l)) cs).
    split; [|split; [split; [reflexivity|split; [reflexivity|exists cu; split; [exact N|exists l; auto]]]|split; [eauto|]]].
    + unfold idone, iexec, with_var. simpl. rewrite NV, SK. unfold bind, lift. simpl. rewrite X. reflexivity.
    + simpl. apply f2_set; auto.
  - (* IPostNext *)
    destruct AL as (cu & N & k & MK). destruct (f2_nth F N) as (v & NV & S).
    destruct (next_ok R S MK) as (v' & l & X & Q & S').
    exists (IGives (JNew (length cs))), (MkI w (set_nth i v' vs ++ [bare v])), (set_nth i (moved cu (next_mark E k l)) cs ++ [cu]).
    split; [|split; [split; [reflexivity|split; [reflexivity|exists cu; split; [exact N|exists k, l; auto]]]|split; [eauto|]]].
    + unfold idone, iexec, with_var. simpl. rewrite NV. unfold bind, lift, new_var. simpl. rewrite X. simpl.
      unfold put_var, modify, ret. simpl. rewrite (set_nth_app _ _ NV), LEN. reflexivity.
    + simpl. apply f2_new; [apply f2_set; auto|apply stands_bare; exact S].
  - (* IPostPrev *)
    destruct AL as (cu & N & O & l & CT & P). destruct (f2_nth F N) as (v & NV & S).
    destruct (prev_ok R S O CT P) as (v' & X & S'). pose proof (stands_kind S) as SK. rewrite O in SK.
    exists (IGives (JNew (length cs))), (MkI w (set_nth i v' vs ++ [bare v])),
      (set_nth i (moved cu (prev_mark E (cu_mark cu) l)) cs ++ [cu]).
    split; [|split; [split; [reflexivity|split; [reflexivity|exists cu; split; [exact N|exists l; auto]]]|split; [eauto|]]].
    + unfold idone, iexec, with_var. simpl. rewrite NV, SK. unfold bind, lift, new_var. simpl. rewrite X. simpl.
      unfold put_var, modify, ret. simpl. rewrite (set_nth_app _ _ NV), LEN. reflexivity.
    + simpl. apply f2_new; [apply f2_set; auto|apply stands_bare; exact S].
  - (* IRead *)
    destruct AL as (cu & N & k & MK). destruct (f2_nth F N) as (v & NV & S).
    destruct (deref_ok i vs S MK) as (r & s & cl & v' & L & X & S').
    destruct (lives_cells G R L) as (x & a & l1 & l2 & At & <- & Ha & Rp & Q & CT & D).
    exists (IGives (JEnt (e_key (cl_e cl)) (e_val (cl_e cl)))), (MkI w (set_nth i v' vs)), cs.
    split; [|split; [split; [reflexivity|split; [reflexivity|exists cu; split; [exact N|]]]|split; [eauto|]]].
    + unfold idone, iexec, with_var. simpl. rewrite NV. unfold bind. rewrite X. unfold lift, read_entry, bind. simpl.
      rewrite (lives_deref L). reflexivity.
    + eexists k, _, _, _. split; [exact MK|]. split; [exact CT|]. split; [|reflexivity].
      rewrite pairs_mid. apply look_mid; auto.
    + simpl. eapply f2_put; eauto.
  - (* IWrite *)
    destruct AL as (cu & N & k & MK). destruct (f2_nth F N) as (x & NV & S).
    destruct (deref_ok i vs S MK) as (r & s & cl & v' & L & X & S').
    destruct (write_ok v R L) as (w' & aw' & W & R' & OW & SW).
    exists (IGives JUnit), (MkI w' (set_nth i v' vs)), cs.
    split; [|split; [split; [reflexivity|split; [reflexivity|exists cu; split; [exact N|eauto]]]|split; [eauto|]]].
    + unfold idone, iexec, with_var. simpl. rewrite NV. unfold bind. rewrite X. unfold lift. simpl.
      rewrite W. reflexivity.
    + simpl. eapply f2_put; eauto. eapply f2_imp; eauto.
  - (* IEntry *)
    destruct AL as (cu & N & T & LE). destruct (f2_nth F N) as (v & NV & S).
    destruct (entry_ok R F N S T LE) as (l & oc & w' & aw' & vs' & CT & C & R' & F' & M).
    destruct oc as [[]|x]; try easy.
    + destruct e as [e|]; [|easy]. destruct M as (p & n & M & D & ->).
      exists (IGives (JEnt (n_key n) (n_val n))), (MkI w' vs'), cs.
      split; [|split; [split; [reflexivity|exists cu; split; [exact N|eexists l, (Returned (ROpt (Some _))); split; [exact CT|split; [exact C|reflexivity]]]]|split; [eauto|auto]]].
      unfold idone, iexec, with_var. simpl. rewrite NV. unfold bind at 1. rewrite M. unfold bind. unfold lift, read_entry, bind. simpl. rewrite D. reflexivity.
    + exists (IThrows x), (MkI w' vs'), cs.
      split; [|split; [split; [reflexivity|exists cu; split; [exact N|eexists l, (Threw _); split; [exact CT|split; [exact C|reflexivity]]]]|split; [eauto|auto]]].
      unfold idone, iexec, with_var. simpl. rewrite NV. unfold bind. rewrite M. reflexivity.
  - (* IKey *)
    destruct AL as (cu & N & T & LE). destruct (f2_nth F N) as (v & NV & S).
    destruct (key_ok R F N S T LE) as (l & oc & w' & aw' & vs' & CT & C & R' & F' & M).
    destruct oc as [[]|x]; try easy.
    + destruct e as [e|]; [|easy].
      exists (IGives (JKey (fst e))), (MkI w' vs'), cs.
      split; [|split; [split; [reflexivity|exists cu; split; [exact N|eexists l, (Returned (ROpt (Some _))); split; [exact CT|split; [exact C|reflexivity]]]]|split; [eauto|auto]]].
      unfold idone, iexec, with_var. simpl. rewrite NV. unfold bind. rewrite M. reflexivity.
    + exists (IThrows x), (MkI w' vs'), cs.
      split; [|split; [split; [reflexivity|exists cu; split; [exact N|eexists l, (Threw _); split; [exact CT|split; [exact C|reflexivity]]]]|split; [eauto|auto]]].
      unfold idone, iexec, with_var. simpl. rewrite NV. unfold bind. rewrite M. reflexivity.
  - (* IValue *)
    destruct AL as (cu & N & T & LE). destruct (f2_nth F N) as (v & NV & S).
    destruct (entry_ok R F N S T LE) as (l & oc & w' & aw' & vs' & CT & C & R' & F' & M).
    destruct oc as [[]|x]; try easy.
    + destruct e as [e|]; [|easy]. destruct M as (p & n & M & D & ->).
      exists (IGives (JVal (n_val n))), (MkI w' vs'), cs.
      split; [|split; [split; [reflexivity|exists cu; split; [exact N|eexists l, (Returned (ROpt (Some _))); split; [exact CT|split; [exact C|reflexivity]]]]|split; [eauto|auto]]].
      unfold idone, iexec, with_var. simpl. rewrite NV. unfold bind at 1. rewrite M. unfold bind. unfold lift. simpl. rewrite D. reflexivity.
    + exists (IThrows x), (MkI w' vs'), cs.
      split; [|split; [split; [reflexivity|exists cu; split; [exact N|eexists l, (Threw _); split; [exact CT|split; [exact C|reflexivity]]]]|split; [eauto|auto]]].
      unfold idone, iexec, with_var. simpl. rewrite NV. unfold bind. rewrite M. reflexivity.
  - (* ISame *)
    destruct AL as (cu & cv & N & N' & C & T & T'). destruct (f2_nth F N) as (v & NV & S). destruct (f2_nth F N') as (v' & NV' & S').
    pose proof (same_ok S S' C T T') as X.
    exists (IGives (JBool (same_mark E (cu_mark cu) (cu_mark cv)))), (MkI w vs), cs.
    split; [|split; [split; [reflexivity|split; [reflexivity|exists cu, cv; auto]]|split; [eauto|auto]]].
    unfold idone, iexec, with_var. simpl. rewrite NV, NV'. unfold bind, lift. simpl. rewrite X. reflexivity.
  - (* IErase *)
    destruct AL as (cu & N & <- & T). destruct (f2_nth F N) as (v & NV & S).
    destruct (erase_ok R S T) as (l & Q & X). cbv zeta in X.
    set (o := if cu_ord cu then EraseOrdered (cu_cache cu) (position E (cu_mark cu) l) 
              else EraseUnordered (cu_cache cu) (position E (cu_mark cu) l)) in *.
    assert (CF : copy_free o = true) by (unfold o; destruct (cu_ord cu); reflexivity).
    assert (DF : exists oc w' aw', call E o w oc w' /\ rel E w' aw').
    { apply (defined G R CF). unfold o; destruct (cu_ord cu); exact I. }
    destruct DF as (oc & w' & aw' & C & R').
    exists match oc with Returned _ => IGives JUnit | Threw x => @IThrows K V x end, (MkI w' vs), (map (after_call E o oc w') cs).
    split; [|split; [exists cu; split; [exact N|exists l, oc; auto]|split; [eauto|exact (f2_call R R' CF C F)]]].
    unfold idone, iexec, with_alive, with_var. simpl. rewrite (stands_alive S T), NV. unfold bind, lift. simpl.
    destruct oc; simpl in C; rewrite X in C; destruct (i_erase E (cu_cache cu) v w); inversion C; reflexivity.
  - (* IValid *)
    destruct AL as (cu & N & <- & T). destruct (f2_nth F N) as (v & NV & S).
    destruct (valid_ok R S T) as (l & b & w' & aw' & CT & X & R' & SW & Y).
    exists (IGives (JBool b)), (MkI w' vs), cs.
    split; [|split; [split; [reflexivity|exists cu; split; [exact N|exists l, (Returned (RBool b)); auto]]|split; [eauto|eapply f2_imp; eauto]]].
    unfold idone, iexec, with_alive, with_var. simpl. rewrite (stands_alive S T), NV. unfold bind, lift. simpl. rewrite Y. reflexivity.
Qed.

(** The promise leaves no choice. *)
Lemma sequence_fun ord c w l l' : sequence E ord c w l -> sequence E ord c w l' -> l = l'.
Proof. destruct ord; simpl; unfold contents, hash_order; intros; congruence. Qed.
Lemma call_fun o w oc w' oc' : call E o w oc w' -> call E o w oc' w' -> oc = oc'.
Proof. destruct oc, oc'; simpl; intros; congruence. Qed.
Ltac same_cursor := repeat match goal with
  | H : exists _, _ |- _ => destruct H
  | H : _ /\ _ |- _ => destruct H
  | H : nth_error ?l ?i = Some ?a, H' : nth_error ?l ?i = Some ?b |- _ =>
      assert (b = a) by congruence; subst b; clear H'
  | H : cu_mark ?c = AtKey ?a, H' : cu_mark ?c = AtKey ?b |- _ => assert (b = a) by congruence; subst b; clear H'
  | H : sequence E ?o ?c ?w ?l, H' : sequence E ?o ?c ?w ?m |- _ =>
      pose proof (sequence_fun H H'); subst m; clear H'
  | H : contents E ?c ?w ?l, H' : contents E ?c ?w ?m |- _ =>
      assert (m = l) by (unfold contents in *; congruence); subst m; clear H'
  | H : call E ?o ?w ?a ?w', H' : call E ?o ?w ?b ?w' |- _ =>
      pose proof (call_fun H H'); subst b; clear H'
  end.
Lemma promise_fun s w cs r w' cs1 cs2 : ipromise E s w cs r w' cs1 -> ipromise E s w cs r w' cs2 -> cs1 = cs2.
Proof.
  destruct s; intros A B; cbn [ipromise] in A, B; cbv zeta in A, B; same_cursor; try congruence;
  repeat match goal with
  | H : match ?x with _ => _ end |- _ => destruct x
  end; try contradiction; same_cursor; congruence.
Qed.

Lemma done_fun s st r st1 r' st2 : idone E s st r st1 -> idone E s st r' st2 -> r = r' /\ st1 = st2.
Proof. destruct r, r'; simpl; intros; split; congruence. Qed.

Lemma plays_tracked st cs : iplays E st cs -> tracked st cs.
Proof.
  induction 1 as [|st cs s r st' cs' P IH AL D PR].
  - split; [eexists; apply rel_init|constructor].
  - destruct (step_ok IH AL) as (r1 & st1 & cs1 & D1 & PR1 & T1).
    destruct (done_fun D D1) as (<- & <-). rewrite (promise_fun PR PR1). exact T1.
Qed.
Theorem cursors st cs s : iplays E st cs -> iallowed E s (i_world st) cs ->
  exists r st' cs', idone E s st r st' /\ ipromise E s (i_world st) cs r (i_world st') cs'.
Proof.
  intros P AL. destruct (step_ok (plays_tracked P) AL) as (r & st' & cs' & D & PR & _). eauto 6.
Qed.
End Run.
