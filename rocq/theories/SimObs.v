(** Simulation of the observers, of erasure through iterators and of expiry. *)
From Coq Require Import List Arith ZArith Bool Permutation Lia.
Import ListNotations.
From Verif Require Import Monad Types Model Api Spec Ref Lists SimBase SimRel SimOps SimIns SimErase SimIter SimNew.
Set Implicit Arguments.
Unset Strict Implicit.
Local Open Scope cpp_scope.

Section Obs.
Context {K V : Type}.
Variable E : env K V.
Hypothesis G : good E.

Notation entry := (entry K V).
Notation world := (world K V).
Notation store := (store K V).
Notation mnode := (mnode K V).
Notation acache := (acache K V).
Notation aworld := (aworld K V).
Notation cell := (@cell K V).
Notation rel := (rel E).
Notation rep := (rep E).
Implicit Types (w : world) (s : store) (aw : aworld).

(** ** Erasure through iterators *)

Lemma rep_nth x s a l n : rep x s a l -> nth_error (a_ents a) n = option_map cl_e (nth_error l n).
Proof. intros R. rewrite (rp_ents R). unfold ents. rewrite nth_error_map. auto. Qed.

Lemma split_throw {A} t e (m : M aworld A) aw :
  (ex <- a_expired E t e;; if ex then throw KeyExpired else m) aw
  = ((ex <- a_expired E t e;; if ex then throw KeyExpired else ret false);;; m) aw.
Proof. rewrite bind_assoc. unfold bind. destruct (a_expired E t e aw); auto. destruct a; auto. Qed.

Lemma erase_o_sim w aw c a n : rel w aw -> slot (aw_caches aw) c = Some a ->
  simr E (fun _ _ _ _ => True)
    ((it <- ordered_nth c n;; erase_o E c it) w)
    ((match nth_error (a_ents a) n with
      | None => throw InvalidIterator
      | Some e =>
          ex <- a_expired E (a_ttl a) e;;
          if ex then throw KeyExpired else a_remove E c (e_key e)
      end) aw).
Proof.
  intros R Ha. destruct (rel_get _ R Ha) as (x & s & l & At & Rp).
  pose proof (rp_store Rp) as RS.
  ev ordered_nth_ev. rewrite (rep_nth n Rp).
  pose proof (skipn_split n l) as SP. destruct (nth_error l n) as [cl|].
  - destruct SP as (b & Hsk & Hl). rewrite Hsk. cbn [opos_of option_map].
    rewrite Hl in RS, Rp. unfold erase_o. unfold o_eq at 1. cbn [oi_pos ordered_end opos_eqb].
    unfold o_key. rewrite bind_assoc. cbn [oi_pos oi_cache].
    rewrite split_throw. eapply sim_bind; [apply (throw_if_invalid_o_sim G R At Ha Rp)|].
    cbv beta. intros _ b' w1 aw1 R1 (_ & A1 & Ha1).
    rewrite bind_assoc. ev list_deref_ev. rewrite bind_assoc. ev deref_ev. rewrite bind_ret.
    cbn [n_key node_of]. ev map_find_ev.
    rewrite (find_cell_mid G _ _ _ _ (rs_keys RS) (good_refl G _)). cbn [option_map].
    eapply sim_weaken; [eapply erase_it_sim; eauto; apply (good_refl G)|auto].
  - destruct SP as (-> & _). cbn [opos_of option_map]. unfold erase_o, o_eq. simpl.
    rewrite Nat.eqb_refl. simpl. auto.
Qed.

Lemma entry_at_sim w aw c a n : rel w aw -> slot (aw_caches aw) c = Some a ->
  simr E (fun r r' _ _ => r = pair_of r')
    ((it <- ordered_nth c n;; p <- o_entry E it;; read_entry p) w)
    ((match nth_error (a_ents a) n with
      | None => throw InvalidIterator
      | Some e =>
          ex <- a_expired E (a_ttl a) e;; if ex then throw KeyExpired else ret e
      end) aw).
Proof.
  intros R Ha. destruct (rel_get _ R Ha) as (x & s & l & At & Rp).
  pose proof (rp_store Rp) as RS.
  ev ordered_nth_ev. rewrite (rep_nth n Rp).
  pose proof (skipn_split n l) as SP. destruct (nth_error l n) as [cl|].
  - destruct SP as (b & Hsk & Hl). rewrite Hsk. cbn [opos_of option_map].
    rewrite Hl in RS, Rp. unfold o_entry. rewrite bind_assoc. cbn [oi_cache].
    rewrite split_throw. eapply sim_bind; [apply (throw_if_invalid_o_sim G R At Ha Rp)|].
    cbv beta. intros _ b' w1 aw1 R1 (_ & A1 & Ha1).
    rewrite bind_assoc. ev o_deref_ev. rewrite bind_ret.
    erewrite read_entry_ev by eauto with sim. simpl. auto.
  - destruct SP as (-> & _). cbn [opos_of option_map].
    unfold o_entry. rewrite bind_assoc. rewrite (bind_exc _ _ _ (throw_end E (proj1 At))). simpl. auto.
Qed.

Lemma valid_at_sim w aw c a n : rel w aw -> slot (aw_caches aw) c = Some a ->
  simr E (fun r r' _ _ => r = r')
    ((it <- ordered_nth c n;; is_valid_o E c it) w)
    ((match nth_error (a_ents a) n with
      | None => ret false
      | Some e => ex <- a_expired E (a_ttl a) e;; ret (negb ex)
      end) aw).
Proof.
  intros R Ha. destruct (rel_get _ R Ha) as (x & s & l & At & Rp).
  pose proof (rp_store Rp) as RS.
  ev ordered_nth_ev. rewrite (rep_nth n Rp). unfold is_valid_o.
  pose proof (skipn_split n l) as SP. destruct (nth_error l n) as [cl|].
  - destruct SP as (b & Hsk & Hl). rewrite Hsk. cbn [opos_of option_map].
    rewrite Hl in RS, Rp. ev get_cache_ev. unfold o_eq at 1. cbn [oi_pos ordered_end opos_eqb].
    rewrite (rp_ttl Rp). destruct (a_ttl a) as [d|].
    + ev has_expired_o_ev. aev a_expired_some. rewrite (rel_reads R). simpl. auto using rel_tock.
    + aev a_expired_none. simpl. auto.
  - destruct SP as (-> & _). cbn [opos_of option_map]. ev get_cache_ev. unfold o_eq; simpl.
    rewrite Nat.eqb_refl. simpl. auto.
Qed.

(** The element an unordered position denotes has some place in the order. *)
Lemma unordered_place x s a l n i nd : rep x s a l -> nth_error (s_map s) n = Some (i, nd) ->
  exists ch l1 cl l2, nth_error l ch = Some cl /\ l = l1 ++ cl :: l2 /\ i = cl_m cl.
Proof.
  intros R H. apply nth_error_In in H.
  apply (Permutation_in _ (rs_map (rp_store R))), in_map_iff in H as (cl & Hc & I).
  inversion Hc; subst. apply In_nth_error in I as (ch & I).
  destruct (nth_error_split _ _ I) as (l1 & l2 & -> & _).
  exists ch, l1, cl, l2. auto.
Qed.

Lemma erase_unordered_sim w aw c a n : rel w aw -> slot (aw_caches aw) c = Some a ->
  exists ch, simr E (fun _ _ _ _ => True)
    ((it <- unordered_nth c n;; erase_u E c it) w)
    ((if Nat.leb (length (a_ents a)) n then throw InvalidIterator
      else match nth_error (a_ents a) ch with
           | None => throw InvalidIterator
           | Some e => a_remove E c (e_key e)
           end) aw).
Proof.
  intros R Ha. destruct (rel_get _ R Ha) as (x & s & l & At & Rp).
  pose proof (rp_store Rp) as RS.
  assert (L : length (a_ents a) = length (s_map s)).
  { rewrite (rp_ents Rp), (rep_size RS). unfold ents. apply map_length. }
  pose proof (skipn_split n (s_map s)) as SP.
  destruct (nth_error (s_map s) n) as [[i nd]|] eqn:NE.
  - destruct (unordered_place Rp NE) as (ch & l1 & cl & l2 & H1 & -> & ->).
    exists ch. ev unordered_nth_ev. destruct SP as (b & -> & _).
    unfold erase_u, u_eq. cbn [upos_of ui_pos unordered_end upos_eqb].
    assert (n < length (s_map s)) by (apply nth_error_Some; congruence).
    destruct (Nat.leb_spec (length (a_ents a)) n); [lia|].
    rewrite (rep_nth ch Rp), H1. cbn [option_map].
    eapply sim_weaken; [eapply erase_it_sim; eauto; apply (good_refl G)|auto].
  - exists 0. ev unordered_nth_ev. destruct SP as (-> & L').
    unfold erase_u, u_eq. cbn [upos_of ui_pos unordered_end upos_eqb]. rewrite Nat.eqb_refl.
    destruct (Nat.leb_spec (length (a_ents a)) n); [|lia]. simpl. auto.
Qed.

Lemma erase_found_sim w aw c k a : rel w aw -> slot (aw_caches aw) c = Some a ->
  simr E (fun _ _ _ _ => True)
    ((it <- find E c k;; erase_u E c it) w)
    ((r <- a_find E c k;;
      match r with None => throw InvalidIterator | Some e => a_remove E c (e_key e) end) aw).
Proof.
  intros R Ha. eapply sim_bind; [eapply find_sim; eauto|].
  intros it r w1 aw1 R1 (U & _ & _). destruct r as [e|].
  - destruct U as (i & -> & B). destruct B as (x & s & a' & l & cl & At & Ha' & Rp & <- & ->).
    unfold erase_u, u_eq. cbn [uiter_of ui_pos unordered_end upos_eqb].
    eapply sim_weaken; [eapply erase_it_sim; eauto; apply (good_refl G)|auto].
  - rewrite U. unfold erase_u, u_eq. cbn [ui_pos unordered_end upos_eqb]. rewrite Nat.eqb_refl.
    simpl; auto.
Qed.

(** ** Expiry *)

Lemma has_expired_key_sim w aw c k a d : rel w aw -> slot (aw_caches aw) c = Some a ->
  a_ttl a = Some d ->
  simr E (fun b b' _ _ => b = b') (has_expired_key E c d k w)
    ((match lookup_ent E k (a_ents a) with
      | None => ret false
      | Some e => a_expired E (a_ttl a) e
      end) aw).
Proof.
  intros R Ha T. destruct (rel_get _ R Ha) as (x & s & l & At & Rp).
  pose proof (rp_store Rp) as RS. unfold has_expired_key. ev map_find_ev.
  rewrite (rp_ents Rp), find_cell_ents.
  destruct (find_cell E k l) as [cl|] eqn:F; cbn [option_map].
  - apply find_cell_split in F as (l1 & l2 & -> & Hk). ev deref_it_ev.
    rewrite has_expired_ev, T, a_expired_some. cbn [n_time node_of]. rewrite (rel_reads R).
    simpl. auto using rel_tock.
  - simpl. auto.
Qed.

Lemma all_expired_sim w aw c a d : rel w aw -> slot (aw_caches aw) c = Some a ->
  a_ttl a = Some d ->
  simr E (fun b b' _ _ => b = b') (all_expired E c d w)
    ((match last_ent (a_ents a) with
      | None => ret true
      | Some e => a_expired E (a_ttl a) e
      end) aw).
Proof.
  intros R Ha T. destruct (rel_get _ R Ha) as (x & s & l & At & Rp).
  pose proof (rp_store Rp) as RS. unfold all_expired, is_empty. rewrite bind_assoc. ev size_ev.
  rewrite bind_ret, (rep_size RS). rewrite (rp_ents Rp), last_ent_ents.
  destruct l as [|cl l _] using rev_ind.
  - simpl. auto.
  - rewrite app_length; simpl length. rewrite Nat.add_1_r. cbn [Nat.eqb].
    rewrite last_cell_app. cbn [option_map].
    unfold list_back. rewrite bind_assoc. ev own_ev. rewrite (rs_ord RS), map_app, rev_app_distr.
    cbn [map rev app qrow]. rewrite bind_ret. ev deref_ev. ev map_find_ev. cbn [n_key node_of].
    rewrite (find_cell_mid G _ _ _ _ (rs_keys RS) (good_refl G _)). cbn [option_map].
    ev deref_it_ev.
    rewrite has_expired_ev, T, a_expired_some. cbn [n_time node_of]. rewrite (rel_reads R).
    simpl. auto using rel_tock.
Qed.

Lemma clear_expired_loop_sim d fuel : forall n w aw c a, rel w aw -> slot (aw_caches aw) c = Some a ->
  a_ttl a = Some d ->
  simr E (fun b b' _ _ => b = b') (clear_expired_loop E fuel c d n w) (a_clear_expired E fuel c n aw).
Proof.
  induction fuel as [|fuel IH]; intros n w aw c a R Ha T;
  destruct (rel_get _ R Ha) as (x & s & l & At & Rp);
  pose proof (rp_store Rp) as RS; cbn [clear_expired_loop a_clear_expired]; ev own_ev; aev a_get_ev;
  rewrite (rs_ord RS), (rp_ents Rp); destruct l as [|cl l]; cbn [map ents qrow]; try (simpl; auto; fail).
  - match goal with |- simr _ _ (bind ?m ?k ?w) _ => with_bind m k w ltac:(eapply deref_ev; eauto with sim; left; auto) end.
    ev map_find_ev. cbn [n_key node_of].
    pose proof (find_cell_mid G _ [] _ _ (rs_keys RS) (good_refl G _)) as F. cbn [app] in F.
    rewrite F. cbn [option_map].
    match goal with |- simr _ _ (bind ?m ?k ?w) _ => with_bind m k w ltac:(eapply deref_it_ev; eauto with sim; left; auto) end.
    rewrite T. ev has_expired_ev. aev a_expired_some. cbn [n_time node_of]. rewrite (rel_reads R).
    destruct (Z.ltb _ _); simpl; auto using rel_tock.
  - match goal with |- simr _ _ (bind ?m ?k ?w) _ => with_bind m k w ltac:(eapply deref_ev; eauto with sim; left; auto) end.
    ev map_find_ev. cbn [n_key node_of].
    pose proof (find_cell_mid G _ [] _ _ (rs_keys RS) (good_refl G _)) as F. cbn [app] in F.
    rewrite F. cbn [option_map].
    match goal with |- simr _ _ (bind ?m ?k ?w) _ => with_bind m k w ltac:(eapply deref_it_ev; eauto with sim; left; auto) end.
    rewrite T. ev has_expired_ev. aev a_expired_some. cbn [n_time node_of]. rewrite (rel_reads R).
    destruct (Z.ltb _ _).
    + assert (At' : at_ (tock w) c x s) by exact At.
      assert (Ha' : slot (aw_caches (atock aw)) c = Some a) by exact Ha.
      edestruct (erase_it_ev G (l1 := []) At' Rp) as (s' & w' & E1 & C & R' & _).
      ev E1. aev a_remove_ev. eapply IH.
      * rewrite (rp_ents Rp). change (cl :: l) with ([] ++ cl :: l) in RS |- *.
        rewrite (remove_cell G RS (good_refl G _)).
        eapply (rel_put (rel_tock R) At' Ha'); [exact C|exact R'|apply erased_rid|auto].
      * simpl. erewrite slot_upd_same; eauto.
      * auto.
    + simpl; auto using rel_tock.
Qed.

Lemma clear_expired_sim w aw c a d : rel w aw -> slot (aw_caches aw) c = Some a ->
  a_ttl a = Some d ->
  simr E (fun b b' _ _ => b = b') (clear_expired E c d w)
     (a_clear_expired E (length (a_ents a)) c 0 aw).
Proof.
  intros R Ha T. destruct (rel_get _ R Ha) as (x & s & l & At & Rp).
  pose proof (rp_store Rp) as RS. unfold clear_expired, is_empty. rewrite bind_assoc. ev size_ev.
  rewrite bind_ret, (rep_size RS).
  assert (L : length (a_ents a) = length l) by (rewrite (rp_ents Rp); unfold ents; apply map_length).
  destruct (Nat.eqb_spec (length l) 0) as [Z|Z].
  - destruct l; [|discriminate]. rewrite L. cbn [length a_clear_expired]. aev a_get_ev. rewrite (rp_ents Rp). simpl. auto.
  - ev size_ev. rewrite (rep_size RS), L. eapply clear_expired_loop_sim; eauto.
Qed.

(** ** Comparison *)

Lemma order_eq_ev l : forall m w r r' s s' lr mr, 
  slot (w_stores w) r = Some s -> rep_store E r s lr -> incl l lr ->
  slot (w_stores w) r' = Some s' -> rep_store E r' s' mr -> incl m mr ->
  order_eq E (map (qrow r) l) (map (qrow r') m) w =
  Val (Nat.eqb (length l) (length m) &&
       forallb (fun p => key_eqop E (e_key (fst p)) (e_key (snd p))) (combine (ents l) (ents m))) w.
Proof.
  induction l as [|a l IH]; intros [|b m] w r r' s s' lr mr H1 R1 I1 H2 R2 I2; simpl; auto.
  assert (Ia : In a lr) by (apply I1; left; auto).
  assert (Ib : In b mr) by (apply I2; left; auto).
  ev deref_ev. ev deref_ev. cbn [n_key node_of].
  destruct (key_eqop E (e_key (cl_e a)) (e_key (cl_e b))).
  - erewrite IH; eauto.
    + intros y Hy. apply I1; right; auto.
    + intros y Hy. apply I2; right; auto.
  - rewrite andb_false_r. auto.
Qed.

Lemma forallb_perm {A} (f : A -> bool) l l' : Permutation l l' -> forallb f l = forallb f l'.
Proof.
  induction 1; simpl; auto; [congruence| |congruence].
  rewrite !andb_assoc, (andb_comm (f x)); auto.
Qed.

Lemma forallb_map {A B} (g : A -> B) (f : B -> bool) l : forallb f (map g l) = forallb (fun a => f (g a)) l.
Proof. induction l; simpl; congruence. Qed.

Lemma forallb_ext {A} (f g : A -> bool) l : (forall x, f x = g x) -> forallb f l = forallb g l.
Proof. intros H. induction l; simpl; congruence. Qed.

Lemma map_eq_ents t r r' s s' l m : rep_store E r s l -> rep_store E r' s' m ->
  map_eq E t (s_map s) (s_map s') =
  (Nat.eqb (length (ents l)) (length (ents m)) &&
   forallb (fun e => match lookup_ent E (e_key e) (ents m) with
                     | None => false
                     | Some e' => ent_eq E t e e'
                     end) (ents l)).
Proof.
  intros R R'. unfold map_eq. rewrite (rep_size R), (rep_size R').
  unfold ents at 1 2. rewrite !map_length. f_equal.
  rewrite (forallb_perm _ (rs_map R)). unfold ents at 2. rewrite !forallb_map.
  apply forallb_ext. intros c. cbn [mrow snd n_key node_of].
  rewrite (rep_node_with G _ R'), find_cell_ents.
  destruct (find_cell E (e_key (cl_e c)) m); simpl; auto.
  unfold ent_eq, info_eq; simpl. rewrite andb_assoc. auto.
Qed.

Lemma equals_sim w aw c d a b : rel w aw -> slot (aw_caches aw) c = Some a ->
  slot (aw_caches aw) d = Some b ->
  simr E (fun b b' _ _ => b = b') (equals E c d w) (a_equal E c d aw).
Proof.
  intros R Ha Hb. destruct (rel_get _ R Ha) as (x & sx & lx & Ax & Px).
  destruct (rel_get _ R Hb) as (y & sy & ly & Ay & Py).
  unfold a_equal. aev a_get_ev. aev a_get_ev.
  assert (EV : equals E c d w = Val (Nat.eqb c d ||
       (Nat.eqb (length (a_ents a)) (length (a_ents b))
        && forallb (fun e => match lookup_ent E (e_key e) (a_ents b) with
                             | None => false
                             | Some e' => ent_eq E (match a_ttl a with None => false | _ => true end) e e'
                             end) (a_ents a)
        && forallb (fun p => key_eqop E (e_key (fst p)) (e_key (snd p)))
                   (combine (a_ents a) (a_ents b)))) w).
  { unfold equals, noexcept.
    match goal with |- match ?m w with _ => _ end = Val ?r _ => assert (Q : m w = Val r w) end.
    { ev own_ev. ev own_ev. ev get_cache_ev. destruct (Nat.eqb c d); auto. cbn [orb].
      rewrite (map_eq_ents _ (rp_store Px) (rp_store Py)), (rp_ttl Px).
      rewrite (rp_ents Px), (rp_ents Py).
      destruct (Nat.eqb_spec (length (ents lx)) (length (ents ly))) as [L|L]; simpl; auto.
      match goal with |- (if ?b then _ else _) _ = Val (?b && _) _ => destruct b end; simpl; auto.
      rewrite (rs_ord (rp_store Px)), (rs_ord (rp_store Py)).
      erewrite order_eq_ev;
        [|apply Ax|apply (rp_store Px)|apply incl_refl|apply Ay|apply (rp_store Py)|apply incl_refl].
      unfold ents in L. rewrite !map_length in L. rewrite L, Nat.eqb_refl. auto. }
    rewrite Q. auto. }
  rewrite EV. simpl. auto.
Qed.

(** ** front and back *)

Lemma front_sim w aw c a : rel w aw -> slot (aw_caches aw) c = Some a ->
  simr E (fun b b' _ _ => b = b') (front c w)
    (noexcept (match last_ent (a_ents a) with None => throw EmptyCache | Some e => ret (e_key e) end) aw).
Proof.
  intros R Ha. destruct (rel_get _ R Ha) as (x & s & l & At & Rp).
  pose proof (rp_store Rp) as RS. rewrite (rp_ents Rp), last_ent_ents.
  unfold front.
  assert (EV : (e <- is_empty c;; (if e then throw EmptyCache else p <- list_back c;; n <- deref p;; ret (n_key n))) w
     = match last_cell l with None => Exc EmptyCache w | Some cl => Val (e_key (cl_e cl)) w end).
  { unfold is_empty. rewrite bind_assoc. ev size_ev. rewrite bind_ret, (rep_size RS).
    destruct l as [|cl l _] using rev_ind; auto.
    rewrite app_length; simpl length. rewrite Nat.add_1_r. cbn [Nat.eqb]. rewrite last_cell_app.
    unfold list_back. rewrite bind_assoc. ev own_ev. rewrite (rs_ord RS), map_app, rev_app_distr.
    cbn [map rev app qrow]. rewrite bind_ret. ev deref_ev. auto. }
  unfold noexcept. rewrite EV. destruct (last_cell l); simpl; auto.
Qed.

Lemma back_sim w aw c a : rel w aw -> slot (aw_caches aw) c = Some a ->
  simr E (fun b b' _ _ => b = b') (back c w)
    (noexcept (match a_ents a with [] => throw EmptyCache | e :: _ => ret (e_key e) end) aw).
Proof.
  intros R Ha. destruct (rel_get _ R Ha) as (x & s & l & At & Rp).
  pose proof (rp_store Rp) as RS. rewrite (rp_ents Rp).
  unfold back.
  assert (EV : (e <- is_empty c;; (if e then throw EmptyCache else p <- list_front c;; n <- deref p;; ret (n_key n))) w
     = match l with [] => Exc EmptyCache w | cl :: _ => Val (e_key (cl_e cl)) w end).
  { unfold is_empty. rewrite bind_assoc. ev size_ev. rewrite bind_ret, (rep_size RS).
    destruct l as [|cl l]; auto. cbn [length Nat.eqb].
    unfold list_front. rewrite bind_assoc. ev own_ev. rewrite (rs_ord RS).
    cbn [map qrow]. rewrite bind_ret.
    match goal with |- bind ?m ?k ?w = _ => with_bind m k w ltac:(eapply deref_ev; eauto with sim; left; auto) end.
    auto. }
  unfold noexcept. rewrite EV. destruct l; simpl; auto.
Qed.

(** ** Statistics and callbacks *)

Lemma setstats_sim w aw c a st : rel w aw -> slot (aw_caches aw) c = Some a ->
  (forall i, st = Some i -> slot (aw_stats aw) i <> None) ->
  simr E (fun _ _ _ _ => True) (set_stats c st w) (a_setstats c st aw).
Proof.
  intros R Ha St. destruct (rel_get _ R Ha) as (x & s & l & At & Rp).
  unfold set_stats, a_setstats. ev get_cache_ev. aev a_get_ev.
  rewrite put_cache_ev, a_put_ev. split; auto.
  rewrite (rp_cap Rp), (rp_cbs Rp), (rp_ttl Rp). eapply rel_setC; eauto. apply (rp_len Rp).
Qed.

Lemma setcbs_sim w aw c a f : rel w aw -> slot (aw_caches aw) c = Some a ->
  simr E (fun _ _ _ _ => True) (set_cbs c f w) (a_setcbs c f aw).
Proof.
  intros R Ha. destruct (rel_get _ R Ha) as (x & s & l & At & Rp).
  unfold set_cbs, a_setcbs. ev get_cache_ev. aev a_get_ev.
  rewrite put_cache_ev, a_put_ev. split; auto.
  rewrite (rp_cap Rp), (rp_cbs Rp), (rp_ttl Rp), (rp_stats Rp). eapply rel_setC; eauto.
  - apply (rp_len Rp).
  - intros i; apply (rel_sts_of R Ha).
Qed.

Lemma stats_sim w aw c a : rel w aw -> slot (aw_caches aw) c = Some a ->
  simr E (fun i i' _ aw' => i = i' /\ slot (aw_stats aw') i <> None) (stats c w) (a_stats_of c aw).
Proof.
  intros R Ha. destruct (rel_get _ R Ha) as (x & s & l & At & Rp).
  unfold stats, a_stats_of. ev get_cache_ev. aev a_get_ev. rewrite (rp_stats Rp).
  destruct (a_stats a) eqn:S; simpl; auto. split; auto. split; auto. eapply (rel_sts R); eauto.
Qed.

Lemma get_stats_sim w aw i : rel w aw -> slot (aw_stats aw) i <> None ->
  exists y, get_stats i w = Val y w /\ a_getstats i aw = Val y aw.
Proof.
  intros R H. unfold get_stats, a_getstats. rewrite (rel_stats R).
  destruct (slot (aw_stats aw) i) as [y|]; [|easy]. eauto.
Qed.

Lemma put_stats_rel w aw i y : rel w aw ->
  simr E (fun _ _ _ _ => True) (put_stats i y w) (a_putstats i y aw).
Proof.
  intros R. unfold put_stats, a_putstats, modify; simpl. split; auto.
  constructor; simpl; try apply R.
  - rewrite (rel_stats R); auto.
  - intros c a j H Q. destruct (Nat.eq_dec i j) as [<-|N].
    + pose proof (@rel_sts _ _ _ _ _ R _ _ _ H Q). destruct (slot (aw_stats aw) i) eqn:S; [|easy].
      erewrite slot_upd_same by eauto. discriminate.
    + rewrite slot_upd_other by auto. eapply (rel_sts R); eauto.
Qed.

Lemma new_stats_rel w aw y : rel w aw ->
  simr E (fun i i' _ aw' => i = i' /\ slot (aw_stats aw') i <> None /\ aw_caches aw' = aw_caches aw)
    (alloc_stats y w) (a_newstats y aw).
Proof.
  intros R. unfold alloc_stats, a_newstats; simpl. split.
  - constructor; simpl; try apply R.
    + rewrite (rel_stats R); auto.
    + intros c a j H Q. pose proof (@rel_sts _ _ _ _ _ R _ _ _ H Q) as S.
      rewrite slot_app_lt; auto. destruct (slot (aw_stats aw) j) eqn:Z; [|easy]. eapply slot_lt; eauto.
  - rewrite (rel_stats R). split; auto. split; auto. rewrite slot_app_new. discriminate.
Qed.

End Obs.
