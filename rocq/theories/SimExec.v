(** Every copy-free call and history of the model behaves like the reference
    machine. *)
From Coq Require Import List Arith ZArith Bool Permutation Lia.
Import ListNotations.
From Verif Require Import Monad Types Model Api Spec Ref Lists SimBase SimRel SimOps SimIns SimErase SimIter SimNew SimObs.
Set Implicit Arguments.
Unset Strict Implicit.
Local Open Scope cpp_scope.

(** Outputs agree; the unordered traversal agrees up to order. *)
Definition out_rel {K V} (o : op K V) (r r' : out K V) : Prop :=
  match o with
  | Unordered _ => r = r' \/ exists l l', r = REnts l /\ r' = REnts l' /\ Permutation l l'
  | _ => r = r'
  end.

Section Exec.
Context {K V : Type}.
Variable E : env K V.
Hypothesis G : good E.

Notation entry := (entry K V).
Notation world := (world K V).
Notation acache := (acache K V).
Notation aworld := (aworld K V).
Notation rel := (rel E).
Notation rep := (rep E).
Implicit Types (w : world) (aw : aworld).

(** The reference step allowed for a call: [aexec] for some choice of the
    element an unordered position denotes. *)

Lemma alive_get aw c : a_alive aw c = true -> exists a, slot (aw_caches aw) c = Some a.
Proof. unfold a_alive. destruct (slot (aw_caches aw) c); [eauto|discriminate]. Qed.
Lemma timed_get aw c : a_timed aw c = true ->
  exists a d, slot (aw_caches aw) c = Some a /\ a_ttl a = Some d.
Proof.
  unfold a_timed. destruct (slot (aw_caches aw) c) as [a|]; [|discriminate].
  destruct (a_ttl a) eqn:T; [eauto|discriminate].
Qed.
Lemma kind_get aw c d : a_alive aw c && a_alive aw d && Bool.eqb (a_timed aw c) (a_timed aw d) = true ->
  exists a b, slot (aw_caches aw) c = Some a /\ slot (aw_caches aw) d = Some b.
Proof.
  intros H. apply andb_prop in H as (H & _). apply andb_prop in H as (H1 & H2).
  destruct (alive_get H1), (alive_get H2). eauto.
Qed.

Definition ok o := fun r r' (_ : world) (_ : aworld) => @out_rel K V o r r'.

(** A function returning a plain result, wrapped. *)
Lemma sim_wrap {A B} (f : A -> out K V) (g : B -> out K V) o m am w aw :
  simr E (fun a b _ _ => out_rel o (f a) (g b)) (m w) (am aw) ->
  simr E (ok o) ((a <- m;; ret (f a)) w) ((b <- am;; ret (g b)) aw).
Proof. intros S. eapply sim_bind; [exact S|]. simpl. auto. Qed.

Lemma sim_eq {A} (f : A -> out K V) o m am w aw : (forall r, out_rel o r r) ->
  simr E (fun a b _ _ => a = b) (m w) (am aw) ->
  simr E (ok o) ((a <- m;; ret (f a)) w) ((b <- am;; ret (f b)) aw).
Proof.
  intros H S. apply sim_wrap. eapply sim_weaken; [exact S|]. simpl. intros; subst; auto.
Qed.
Lemma sim_unit {A B} o m am w aw : out_rel o RUnit RUnit ->
  simr E (fun (a : A) (b : B) _ _ => True) (m w) (am aw) ->
  simr E (ok o) ((m;;; ret RUnit) w) ((am;;; ret RUnit) aw).
Proof. intros H S. apply sim_wrap. eapply sim_weaken; [exact S|]. simpl. auto. Qed.

Lemma stats_update_sim w aw c a f o : (forall r, out_rel o r r) -> rel w aw -> slot (aw_caches aw) c = Some a ->
  simr E (ok o) (stats_update_or c f w) (a_stats_update c f aw).
Proof.
  intros H R Ha. unfold stats_update_or, a_stats_update.
  eapply sim_bind; [eapply stats_sim; eauto|]. cbv beta. intros i i' w1 aw1 R1 (<- & Hi).
  destruct (get_stats_sim R1 Hi) as (y & E1 & E2). ev E1. aev E2.
  destruct (f y); [|simpl; auto].
  eapply sim_bind; [apply put_stats_rel; auto|]. simpl. intros; split; auto; apply H.
Qed.

Lemma out_refl o r : @out_rel K V o r r.
Proof. destruct o; simpl; auto. Qed.


Tactic Notation "unit_by" uconstr(L) := apply sim_unit; [apply out_refl|eapply sim_weaken; [eapply L; eauto|auto]].
Tactic Notation "eq_by" uconstr(L) := apply sim_eq; [apply out_refl|eapply sim_weaken; [eapply L; eauto|cbv beta; tauto]].
Ltac stats_by := eapply sim_bind; [eapply stats_sim; eauto|]; cbv beta;
  let i := fresh "i" in let R1 := fresh "R1" in let Hi := fresh "Hi" in
  let y := fresh "y" in let E1 := fresh "E1" in let E2 := fresh "E2" in
  intros i ? ? ? R1 (<- & Hi); destruct (get_stats_sim R1 Hi) as (y & E1 & E2); ev E1; aev E2.

Lemma bind_ext {S A B} (m : M S A) (f g : A -> M S B) s :
  (forall a t, f a t = g a t) -> bind m f s = bind m g s.
Proof. intros H. unfold bind. destruct (m s); auto. Qed.

Lemma body_sim o w aw : rel w aw -> copy_free o = true -> a_well_formed aw o = true ->
  exists ch, simr E (ok o) (body E o w) (abody E ch o aw).
Proof.
  intros R CF WF.
  destruct o; simpl in CF; try discriminate CF;
    cbn [a_well_formed] in WF;
    try (destruct (alive_get WF) as (a & Ha));
    try (destruct (kind_get WF) as (a & b & Ha & Hb));
    try (destruct (timed_get WF) as (a & ttl & Ha & HT));
    try (apply andb_prop in WF as (WF & WF'); destruct (alive_get WF) as (a & Ha));
    try (destruct (rel_get _ R Ha) as (x & ? & ls & At & Rp); pose proof (rp_store Rp) as RS).
  all: cbn [body abody].
  - (* New *) exists 0. eq_by new_cache_sim.
  - (* NewFrom *) exists 0. eq_by new_from_sim.
  - (* NewIters *) exists 0. eq_by new_from_sim.
  - (* NewMove *) exists 0. eq_by new_from_move_sim.
  - (* NewRvalue *) exists 0. eq_by new_from_move_sim.
  - (* NewList *) exists 0. eq_by new_from_sim.
  - (* Move *) exists 0. eq_by move_sim.
  - (* Destroy *) exists 0. rewrite <- (bind_assoc (a_get c)). unit_by destroy_sim.
  - (* CopyAssign *) exists 0. unfold copy_assign. rewrite CF. simpl. split; [auto|reflexivity].
  - (* MoveAssign *) exists 0. unit_by move_assign_sim.
  - (* Swap *) exists 0. unit_by swap_sim.
  - (* AssignRange *) exists 0. unit_by assign_range_sim.
  - (* AssignMove *) exists 0. unit_by assign_move_sim.
  - (* Insert *) exists 0. eapply sim_bind; [eapply insert_sim; eauto|].
    intros r ar w' aw' R' (H & U & _). ev (denotes_sim (c := c)). rewrite H. simpl. split; [auto|reflexivity].
  - (* Emplace *) exists 0. eapply sim_bind; [eapply emplace_sim; eauto|].
    intros r ar w' aw' R' (H & U & _). ev (denotes_sim (c := c)). rewrite H. simpl. split; [auto|reflexivity].
  - (* InsertRange *) exists 0. eq_by insert_range_sim.
  - (* InsertMove *) exists 0. eq_by insert_move_sim.
  - (* Find *) exists 0. eapply sim_bind; [eapply find_sim; eauto|].
    intros r ar w' aw' R' (U & _). ev (denotes_sim (c := c)). simpl. split; [auto|reflexivity].
  - (* FindEntry *) exists 0. aev a_get_ev. eapply sim_bind; [eapply find_sim; eauto|].
    intros it r w' aw' R' (U & T & _). destruct r as [e|].
    + destruct U as (i & -> & B).
      assert (Q : forall (t : option Z), (ex <- a_expired E t e;;
          (if ex then throw KeyExpired else ret (ROpt (V := V) (Some (pair_of e))))) aw' =
        (e' <- (ex <- a_expired E t e;; if ex then throw KeyExpired else ret e);;
         ret (ROpt (Some (pair_of e')))) aw').
      { intros t. rewrite bind_assoc. unfold bind. destruct (a_expired E t e aw'); auto. destruct a0; auto. }
      rewrite Q. eapply sim_bind; [eapply u_entry_sim; eauto|].
      cbv beta. intros p e' w2 aw2 R2 (-> & -> & B2).
      destruct (at_back_ev B2) as (n & D & D' & N1 & N2 & N3).
      unfold read_entry. rewrite bind_assoc. ev D'. rewrite bind_ret, N1, N2. simpl.
      split; [auto|reflexivity].
    + rewrite U. unfold u_entry. cbn [unordered_end ui_entry ui_pos ui_cache].
      destruct (lenient_end E); [|simpl; auto].
      destruct T as (a' & Ha' & _). destruct (rel_get _ R' Ha') as (x' & s' & l' & At' & _).
      unfold throw_if_invalid_u. rewrite !bind_assoc. ev get_cache_ev.
      unfold u_eq; simpl. rewrite Nat.eqb_refl. simpl. auto.
  - (* Contains *) exists 0. eq_by contains_sim.
  - (* Lookup *) exists 0. eapply sim_bind; [eapply lookup_sim; eauto|].
    cbv beta. intros p e w' aw' R' (_ & i & -> & B).
    destruct (at_back_ev B) as (n & D & D' & N1 & N2 & N3).
    ev D'. rewrite N2. simpl. split; [auto|reflexivity].
  - (* Write *) exists 0. pose proof (write_sim G k v R Ha) as S. cbn [body abody] in S.
    eapply sim_weaken; [exact S|]. simpl; auto.
  - (* Erase *) exists 0. eq_by erase_key_sim.
  - (* EraseFound *) exists 0. rewrite <- (bind_assoc (find E c k)).
    pose proof (erase_found_sim G k R Ha) as S.
    match goal with |- simr _ _ _ (?m aw) =>
      assert (Q : m aw = ((r <- a_find E c k;;
        match r with None => throw InvalidIterator | Some e => a_remove E c (e_key e) end);;; ret RUnit) aw) end.
    { rewrite bind_assoc. unfold bind. destruct (a_find E c k aw) as [[e|]| | |]; auto. }
    rewrite Q. apply sim_unit; [reflexivity|exact S].
  - (* EraseOrdered *) exists 0. rewrite <- (bind_assoc (ordered_nth c n)).
    pose proof (erase_o_sim G n R Ha) as S. aev a_get_ev.
    match goal with |- simr _ _ _ (?m aw) =>
      assert (Q : m aw = ((match nth_error (a_ents a) n with
      | None => throw InvalidIterator
      | Some e =>
          ex <- a_expired E (a_ttl a) e;;
          if ex then throw KeyExpired else a_remove E c (e_key e)
      end);;; ret RUnit) aw) end.
    { destruct (nth_error (a_ents a) n); auto. rewrite bind_assoc. unfold bind.
      destruct (a_expired E (a_ttl a) e aw); auto. destruct a0; auto. }
    rewrite Q. apply sim_unit; [reflexivity|exact S].
  - (* EraseUnordered *) destruct (erase_unordered_sim G n R Ha) as (ch & S). exists ch.
    rewrite <- (bind_assoc (unordered_nth c n)). aev a_get_ev.
    match goal with |- simr _ _ _ (?m aw) =>
      assert (Q : m aw = ((if Nat.leb (length (a_ents a)) n then throw InvalidIterator
      else match nth_error (a_ents a) ch with
           | None => throw InvalidIterator
           | Some e => a_remove E c (e_key e)
           end);;; ret RUnit) aw) end.
    { destruct (Nat.leb _ _); auto. destruct (nth_error (a_ents a) ch); auto. }
    rewrite Q. apply sim_unit; [reflexivity|exact S].
  - (* Clear *) exists 0. unit_by clear_sim.
  - (* Shrink *) exists 0. unit_by shrink_sim.
  - (* SetCapacity *) exists 0. rewrite <- (bind_assoc (a_keep c n)). unit_by set_capacity_sim.
  - (* ClearExpired *) exists 0. unfold with_ttl. ev get_cache_ev. rewrite (rp_ttl Rp), HT.
    aev a_get_ev. eq_by clear_expired_sim.
  - (* Size *) exists 0. ev size_ev. aev a_get_ev. simpl. split; auto. unfold ok; simpl.
    rewrite (rep_size RS), (rp_ents Rp). unfold ents. rewrite map_length; auto.
  - (* Capacity *) exists 0. ev capacity_ev. aev a_get_ev. simpl. split; auto. unfold ok; simpl.
    rewrite (rp_cap Rp); auto.
  - (* SpaceLeft *) exists 0. unfold space_left. rewrite bind_assoc. ev capacity_ev.
    rewrite bind_assoc. ev size_ev. aev a_get_ev. rewrite bind_ret. simpl. split; auto. unfold ok; simpl.
    rewrite (rep_size RS), (rp_ents Rp), (rp_cap Rp). unfold ents. rewrite map_length; auto.
  - (* IsEmpty *) exists 0. unfold is_empty. rewrite bind_assoc. ev size_ev. aev a_get_ev.
    rewrite bind_ret. simpl. split; auto. unfold ok; simpl.
    rewrite (rep_size RS), (rp_ents Rp). unfold ents. rewrite map_length; auto.
  - (* IsFull *) exists 0. unfold is_full. rewrite bind_assoc. ev size_ev.
    rewrite bind_assoc. ev capacity_ev. aev a_get_ev.
    rewrite bind_ret. simpl. split; auto. unfold ok; simpl.
    rewrite (rep_size RS), (rp_ents Rp), (rp_cap Rp). unfold ents. rewrite map_length; auto.
  - (* Front *) exists 0. pose proof (front_sim R Ha) as S.
    match goal with |- simr _ _ _ (?m aw) =>
      assert (Q : m aw = ((k <- noexcept (match last_ent (a_ents a) with
        None => throw EmptyCache | Some e => ret (e_key e) end);; ret (RKey k)) aw)) end.
    { unfold noexcept, bind. erewrite a_get_ev by eauto. destruct (last_ent (a_ents a)); auto. }
    rewrite Q. apply sim_eq; [apply out_refl|exact S].
  - (* Back *) exists 0. pose proof (back_sim R Ha) as S.
    match goal with |- simr _ _ _ (?m aw) =>
      assert (Q : m aw = ((k <- noexcept (match a_ents a with
        [] => throw EmptyCache | e :: _ => ret (e_key e) end);; ret (RKey k)) aw)) end.
    { unfold noexcept, bind. erewrite a_get_ev by eauto. destruct (a_ents a); auto. }
    rewrite Q. apply sim_eq; [apply out_refl|exact S].
  - (* HasExpired *) exists 0. unfold with_ttl. ev get_cache_ev. rewrite (rp_ttl Rp), HT.
    aev a_get_ev. pose proof (has_expired_key_sim G k R Ha HT) as S.
    match goal with |- simr _ _ _ (?m aw) =>
      assert (Q : m aw = ((b <- (match lookup_ent E k (a_ents a) with
        None => ret false | Some e => a_expired E (a_ttl a) e end);; ret (RBool b)) aw)) end.
    { destruct (lookup_ent E k (a_ents a)); auto. }
    rewrite Q. apply sim_eq; [apply out_refl|exact S].
  - (* AllExpired *) exists 0. unfold with_ttl. ev get_cache_ev. rewrite (rp_ttl Rp), HT.
    aev a_get_ev. pose proof (all_expired_sim G R Ha HT) as S.
    match goal with |- simr _ _ _ (?m aw) =>
      assert (Q : m aw = ((b <- (match last_ent (a_ents a) with
        None => ret true | Some e => a_expired E (a_ttl a) e end);; ret (RBool b)) aw)) end.
    { destruct (last_ent (a_ents a)); auto. }
    rewrite Q. apply sim_eq; [apply out_refl|exact S].
  - (* Equal *) exists 0. eq_by equals_sim.
  - (* Ordered *) exists 0. ev traverse_ordered_ev. aev a_get_ev. rewrite (rp_ents Rp).
    simpl. split; [auto|reflexivity].
  - (* Backward *) exists 0. ev traverse_backward_ev. aev a_get_ev. rewrite (rp_ents Rp).
    simpl. split; [auto|reflexivity].
  - (* Unordered *) exists 0. destruct (traverse_unordered_ev At RS) as (t & Et & P). ev Et.
    aev a_get_ev. simpl. split; auto. unfold ok; simpl. right. eexists _, _.
    split; [reflexivity|]. split; [reflexivity|]. rewrite (rp_ents Rp). auto.
  - (* EntryAt *) exists 0. pose proof (entry_at_sim G n R Ha) as S. aev a_get_ev.
    match goal with |- simr _ _ (?cm w) (?m aw) =>
      assert (Qc : cm w = ((e <- (it <- ordered_nth c n;; p <- o_entry E it;; read_entry p);;
                     ret (ROpt (Some e))) w));
      [|assert (Q : m aw = ((e <- (match nth_error (a_ents a) n with
      | None => throw InvalidIterator
      | Some e => ex <- a_expired E (a_ttl a) e;; if ex then throw KeyExpired else ret e
      end);; ret (ROpt (Some (pair_of e)))) aw))] end.
    { rewrite bind_assoc. apply bind_ext. intros it ?. rewrite bind_assoc. auto. }
    { destruct (nth_error (a_ents a) n); auto. rewrite bind_assoc. unfold bind.
      destruct (a_expired E (a_ttl a) e aw); auto. destruct a0; auto. }
    rewrite Q, Qc. apply sim_wrap. eapply sim_weaken; [exact S|]. simpl. intros; congruence.
  - (* ValidAt *) exists 0. pose proof (valid_at_sim G n R Ha) as S. aev a_get_ev.
    rewrite <- (bind_assoc (ordered_nth c n)).
    match goal with |- simr _ _ _ (?m aw) =>
      assert (Q : m aw = ((b <- (match nth_error (a_ents a) n with
      | None => ret false
      | Some e => ex <- a_expired E (a_ttl a) e;; ret (negb ex)
      end);; ret (RBool b)) aw)) end.
    { destruct (nth_error (a_ents a) n); auto. rewrite bind_assoc. auto. }
    rewrite Q. apply sim_eq; [apply out_refl|exact S].
  - (* MonitorNew *) exists 0. unfold monitor_new. rewrite bind_assoc. ev get_cache_ev. aev a_get_ev.
    rewrite bind_assoc. eapply sim_bind; [apply new_stats_rel; auto|].
    cbv beta. intros i ? w' aw' R' (<- & Hi & Hc). rewrite bind_assoc.
    eapply sim_bind; [eapply setstats_sim; eauto|].
    + rewrite Hc; eauto.
    + congruence.
    + simpl. intros; split; [auto|reflexivity].
  - (* MonitorShared *) exists 0. unfold monitor_shared.
    assert (Hs : slot (aw_stats aw) s <> None) by (destruct (slot (aw_stats aw) s); [discriminate|easy]).
    destruct (get_stats_sim R Hs) as (y & E1 & E2). rewrite bind_assoc. ev E1. aev E2.
    apply sim_unit; [reflexivity|]. eapply setstats_sim; eauto. congruence.
  - (* StopMonitoring *) exists 0. unfold stop_monitoring. apply sim_unit; [reflexivity|].
    eapply setstats_sim; eauto. discriminate.
  - (* IsMonitoring *) exists 0. unfold is_monitoring. rewrite bind_assoc. ev get_cache_ev. aev a_get_ev.
    rewrite bind_ret, (rp_stats Rp). simpl. split; [auto|reflexivity].
  - (* Totals *) exists 0. stats_by. simpl. split; [auto|reflexivity].
  - (* StatsFor *) exists 0. stats_by. destruct (stats_for E y k); simpl; auto; split; auto; reflexivity.
  - (* StatsMonitor *) exists 0. eapply stats_update_sim; eauto. apply out_refl.
  - (* StatsUnmonitor *) exists 0. eapply stats_update_sim; eauto. apply out_refl.
  - (* StatsUnmonitorAll *) exists 0. eapply stats_update_sim; eauto. apply out_refl.
  - (* StatsResetKey *) exists 0. eapply stats_update_sim; eauto. apply out_refl.
  - (* StatsIsMonitoring *) exists 0. stats_by. simpl. split; [auto|reflexivity].
  - (* StatsNumber *) exists 0. stats_by. simpl. split; [auto|reflexivity].
  - (* AddHit *) exists 0. unit_by setcbs_sim.
  - (* AddMiss *) exists 0. unit_by setcbs_sim.
  - (* AddAccess *) exists 0. unit_by setcbs_sim.
  - (* ClearHit *) exists 0. unit_by setcbs_sim.
  - (* ClearMiss *) exists 0. unit_by setcbs_sim.
  - (* ClearAccess *) exists 0. unit_by setcbs_sim.
  - (* ClearCallbacks *) exists 0. unit_by setcbs_sim.
Qed.

Lemma exec_sim o w aw : rel w aw -> copy_free o = true ->
  exists ch, simr E (ok o) (exec E o w) (aexec E ch o aw).
Proof.
  intros R CF. unfold exec, aexec. rewrite (rel_well_formed _ R).
  destruct (a_well_formed aw o) eqn:WF; [|exists 0; simpl; split; [auto|apply out_refl]].
  apply body_sim; auto.
Qed.

Lemma rel_init : rel init_world (init_aworld (K := K) (V := V)).
Proof.
  constructor; simpl; auto.
  - intros c. destruct c; exact I.
  - intros c d x y H. destruct c; discriminate H.
  - intros c a i H. destruct c; discriminate H.
Qed.

End Exec.
