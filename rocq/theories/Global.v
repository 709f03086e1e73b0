(** The reference machine without monads, continued: calls on several caches, on
    statistics objects, and all calls together ([astep]). *)
From Coq Require Import List Arith ZArith Bool Permutation Lia.
Import ListNotations.
From Verif Require Import Monad Types Model Api Spec Ref Lists SimBase SimRel SimOps SimIns SimErase SimIter SimNew SimObs SimExec RefEval SimRun LruProofs CallProofs LruMore Flat.
Set Implicit Arguments.
Unset Strict Implicit.
Local Open Scope cpp_scope.

Section Global.
Context {K V : Type}.
Variable E : env K V.

Notation entry := (entry K V).
Notation acache := (acache K V).
Notation aworld := (aworld K V).
Notation out := (out K V).
Implicit Types (a : acache) (aw : aworld) (e : entry) (o : op K V).

(** The cache whose statistics a call uses. *)
Definition stats_target o : option nat :=
  match o with
  | Totals c | StatsFor c _ | StatsMonitor c _ | StatsUnmonitor c _ | StatsUnmonitorAll c
  | StatsResetKey c _ | StatsIsMonitoring c _ | StatsNumber c => Some c
  | _ => None
  end.
Definition upd_or (x : statistics K) (r : option (statistics K)) : res unit out * statistics K :=
  match r with Some x' => (val RUnit, x') | None => (exc UnmonitoredKey, x) end.
Definition on_stats o (x : statistics K) : res unit out * statistics K :=
  match o with
  | Totals _ => (val (RTotals (total_accesses x) (total_hits x) (total_misses x)), x)
  | StatsFor _ k =>
      match stats_for E x k with
      | Some h => (val (RKeyStats (fst h) (snd h) (accesses_of h)), x)
      | None => (exc UnmonitoredKey, x)
      end
  | StatsMonitor _ k => (val RUnit, stats_monitor E k x)
  | StatsUnmonitor _ k => upd_or x (stats_unmonitor E k x)
  | StatsUnmonitorAll _ => (val RUnit, stats_unmonitor_all x)
  | StatsResetKey _ k => upd_or x (stats_reset_key E k x)
  | StatsIsMonitoring _ k => (val (RBool (stats_is_monitoring E x k)), x)
  | StatsNumber _ => (val (RNat (number_of_monitored_keys x)), x)
  | _ => (val RIll, x)
  end.
Definition wstats s x aw : aworld := MkAW (aw_caches aw) (upd (aw_stats aw) s (Some x)) (aw_log aw) (aw_reads aw).
Definition out_in {A} (r : res unit A) aw : res aworld A :=
  match r with Val v _ => Val v aw | Exc e _ => Exc e aw | Undef u => Undef u | Term e => Term e end.

(** Constructors: capacity, time to live, elements. *)
Definition building o : option (nat * option Z * list (K * V)) :=
  match o with
  | New cap ttl => Some (cap, ttl, [])
  | NewFrom cap ttl l | NewMove cap ttl l => Some (cap, ttl, l)
  | NewIters ttl l => Some (Nat.max (length l) DEFAULT_CAPACITY, ttl, l)
  | NewRvalue ttl l | NewList ttl l => Some (length l, ttl, l)
  | _ => None
  end.
Definition anew a m aw : aworld :=
  MkAW (aw_caches aw ++ [Some a]) (aw_stats aw) (aw_log aw) (m + aw_reads aw).

(** [a] with the elements and capacity of [b]. *)
Definition take_from b a : acache := MkA (a_ents b) (a_hot b) (a_cap b) (a_stats a) (a_cbs a) (a_ttl a).
Definition with_ttl' t a : acache := MkA (a_ents a) (a_hot a) (a_cap a) (a_stats a) (a_cbs a) t.
Definition pair_put c d a b aw : aworld := awith d b (awith c a aw).

Definition ent_eqs (timed : bool) (x y : list entry) : bool :=
  Nat.eqb (length x) (length y)
  && forallb (fun e => match lookup_ent E (e_key e) y with
                       | None => false
                       | Some e' => ent_eq E timed e e'
                       end) x
  && forallb (fun p => key_eqop E (e_key (fst p)) (e_key (snd p))) (combine x y).
Definition is_timed a : bool := match a_ttl a with None => false | _ => true end.

Definition two c d aw (f : acache -> acache -> res aworld out) : res aworld out :=
  match slot (aw_caches aw) c, slot (aw_caches aw) d with
  | Some a, Some b => f a b
  | _, _ => Val RIll aw
  end.

Definition astep ch o aw : res aworld out :=
  if negb (a_well_formed aw o) then Val RIll aw
  else
  match target o with
  | Some c => two c c aw (fun a _ => give E c a (local E ch o a (aw_reads aw)) aw)
  | None =>
  match stats_target o with
  | Some c => two c c aw (fun a _ =>
      match a_stats a with
      | None => Exc NotMonitoring aw
      | Some s => match slot (aw_stats aw) s with
                  | None => Undef NullPointer
                  | Some x => let '(r, x') := on_stats o x in out_in r (wstats s x' aw)
                  end
      end)
  | None =>
  match building o with
  | Some (cap, ttl, l) =>
      let '(_, a', n') := l_inserts E l 0 (fresh_a cap ttl) (aw_reads aw) in
      Val (RNat (length (aw_caches aw))) (anew a' (n' - aw_reads aw) aw)
  | None =>
  match o with
  | Move c => two c c aw (fun a _ =>
      match junk E with
      | None => Undef Indeterminate
      | Some n =>
          Val (RNat (length (aw_caches aw)))
              (anew (take_from a (fresh_a 0 (a_ttl a))) 0 (awith c (take_from (fresh_a n None) a) aw))
      end)
  | Destroy c => Val RUnit (MkAW (upd (aw_caches aw) c None) (aw_stats aw) (aw_log aw) (aw_reads aw))
  | CopyAssign c d => Val RUnit aw
  | MoveAssign c d => two c d aw (fun a b =>
      if Nat.eqb c d then Val RUnit aw
      else Val RUnit (pair_put c d (with_ttl' (a_ttl b) (take_from b a)) (take_from a b) aw))
  | Swap c d => two c d aw (fun a b =>
      if Nat.eqb c d then Val RUnit aw
      else Val RUnit (pair_put c d (with_ttl' (a_ttl b) (take_from b a)) (with_ttl' (a_ttl a) (take_from a b)) aw))
  | Equal c d => two c d aw (fun a b =>
      Val (RBool (Nat.eqb c d || ent_eqs (is_timed a) (a_ents a) (a_ents b))) aw)
  | MonitorNew c ks => two c c aw (fun a _ =>
      Val (RNat (length (aw_stats aw)))
          (MkAW (upd (aw_caches aw) c (Some (with_st (Some (length (aw_stats aw))) a)))
                (aw_stats aw ++ [Some (new_stats E ks)]) (aw_log aw) (aw_reads aw)))
  | _ => Val RIll aw
  end end end end.

(** Worlds the reference machine reaches. *)
Definition awf aw : Prop := forall c a, slot (aw_caches aw) c = Some a ->
  stats_ok aw a /\ dkeys E (a_ents a).
Lemma awf_rel w aw : rel E w aw -> awf aw.
Proof. intros R c a Ha. split; [eapply rel_st|eapply rel_dkeys]; eauto. Qed.

Lemma upd_app_lt {A} (l l' : list A) i x : i < length l -> upd (l ++ l') i x = upd l i x ++ l'.
Proof.
  revert i; induction l as [|y l IH]; intros [|i]; simpl; intros H; try lia; auto.
  rewrite IH by lia. auto.
Qed.
Lemma upd_app_new {A} (l : list A) y x : upd (l ++ [y]) (length l) x = l ++ [x].
Proof. induction l as [|z l IH]; simpl; auto. rewrite IH. auto. Qed.

Lemma build_step ch o cap ttl l aw : building o = Some (cap, ttl, l) ->
  aexec E ch o aw = Val (RNat (length (aw_caches aw)))
    (let '(_, a', n') := l_inserts E l 0 (fresh_a cap ttl) (aw_reads aw) in anew a' (n' - aw_reads aw) aw).
Proof.
  intros B.
  set (c := length (aw_caches aw)).
  assert (X : aexec E ch o aw = Val (RNat c) (snd (inserts_r E c l 0 (fresh_a cap ttl) (anewc cap ttl aw)))).
  { rewrite aexec_ch by (destruct o; try reflexivity; discriminate).
    destruct o; inversion B; subst; eapply build_ev; constructor. }
  rewrite X. f_equal.
  assert (H : slot (aw_caches (anewc cap ttl aw)) c = Some (fresh_a cap ttl)) by apply anewc_get.
  destruct (inserts_flat E l 0 H) as (m & A & Q).
  change (aw_reads (anewc cap ttl aw)) with (aw_reads aw) in A.
  rewrite A, Q, Nat.add_sub. unfold awith, ticks, anewc, anew; simpl. f_equal.
  unfold c at 1. rewrite upd_app_new. reflexivity.
Qed.

Lemma a_swap_ev t c d a b aw : slot (aw_caches aw) c = Some a -> slot (aw_caches aw) d = Some b ->
  a_swap t c d aw = Val tt (awith d (MkA (a_ents a) (a_hot a) (a_cap a)
               (if Nat.eqb c d then a_stats a else a_stats b)
               (if Nat.eqb c d then a_cbs a else a_cbs b)
               (if t then a_ttl a else a_ttl b))
     (awith c (MkA (a_ents b) (a_hot b) (a_cap b) (a_stats a) (a_cbs a) (if t then a_ttl b else a_ttl a)) aw)).
Proof.
  intros Ha Hb. unfold a_swap. erewrite bind_val by (apply a_get_ev; eauto).
  erewrite bind_val by (apply a_get_ev; eauto). erewrite bind_val by apply a_put_ev. apply a_put_ev.
Qed.

Lemma astep_ev ch o aw : good E -> awf aw -> copy_free o = true -> aexec E ch o aw = astep ch o aw.
Proof.
  intros G W CF. unfold astep.
  destruct (a_well_formed aw o) eqn:WF; simpl; [|unfold aexec; rewrite WF; auto].
  destruct (target o) as [c|] eqn:T.
  { assert (A : a_alive aw c = true).
    { destruct o; inversion T; subst; simpl in WF; auto; try (apply andb_prop in WF as (WF & _); auto);
        unfold a_timed in WF; unfold a_alive; destruct (slot (aw_caches aw) c); auto. }
    destruct (alive_get A) as (a & Ha). unfold two. rewrite Ha. destruct (W c a Ha). apply local_ev; auto. }
  destruct (stats_target o) as [c|] eqn:ST.
  { assert (A : a_alive aw c = true) by (destruct o; inversion ST; subst; auto).
    destruct (alive_get A) as (a & Ha). unfold two. rewrite Ha. destruct (W c a Ha) as (S & _).
    unfold aexec. rewrite WF.
    assert (SO : a_stats_of c aw = match a_stats a with Some s => Val s aw | None => Exc NotMonitoring aw end).
    { unfold a_stats_of. erewrite bind_val by (apply a_get_ev; eauto). destruct (a_stats a); reflexivity. }
    destruct (a_stats a) as [s|] eqn:As.
    - pose proof (S s As) as S'. destruct (slot (aw_stats aw) s) as [x|] eqn:Hs; [|congruence].
      assert (GS : a_getstats s aw = Val x aw) by (unfold a_getstats; rewrite Hs; auto).
      assert (WS : wstats s x aw = aw).
      { unfold wstats. rewrite upd_slot by auto. destruct aw; auto. }
      assert (U : forall f, a_stats_update c f aw = let '(r, x') := upd_or x (f x) in out_in r (wstats s x' aw)).
      { intros f. unfold a_stats_update. erewrite bind_val by exact SO. erewrite bind_val by exact GS.
        destruct (f x); simpl; [reflexivity|rewrite WS; reflexivity]. }
      destruct o; inversion ST; subst; cbn [abody on_stats];
        try (rewrite U; reflexivity);
        try (erewrite bind_val by exact SO; erewrite bind_val by exact GS; simpl; rewrite WS; reflexivity).
      erewrite bind_val by exact SO; erewrite bind_val by exact GS.
      destruct (stats_for E x k); simpl; rewrite WS; reflexivity.
    - assert (X : forall (f : nat -> M aworld out), (s <- a_stats_of c;; f s) aw = Exc NotMonitoring aw).
      { intros f. unfold bind. rewrite SO. auto. }
      destruct o; inversion ST; subst; cbn [abody]; unfold a_stats_update; apply X. }
  destruct (building o) as [((cap, ttl), l)|] eqn:B.
  { rewrite (build_step ch aw B). destruct (l_inserts E l 0 (fresh_a cap ttl) (aw_reads aw)) as ((cnt & a') & n').
    reflexivity. }
  unfold aexec. rewrite WF.
  destruct o; try discriminate; cbn [abody]; simpl in WF.
  - (* Move *) destruct (alive_get WF) as (a & Ha). unfold two. rewrite Ha.
    unfold a_move. rewrite bind_assoc. erewrite bind_val by (apply a_get_ev; eauto).
    destruct (junk E) as [n|]; [|reflexivity].
    rewrite bind_assoc. erewrite bind_val by reflexivity.
    set (d := length (aw_caches aw)).
    match goal with |- _ ?w1 = _ => set (aw1 := w1) end.
    assert (Hc : c < d) by (eapply slot_lt; eauto).
    assert (H1 : slot (aw_caches aw1) d = Some (fresh_a n (a_ttl a))) by (apply slot_app_new).
    assert (H2 : slot (aw_caches aw1) c = Some a) by (simpl; rewrite slot_app_lt; auto).
    rewrite bind_assoc. erewrite bind_val by (apply a_swap_ev; eauto).
    rewrite (proj2 (Nat.eqb_neq d c)) by lia.
    unfold ret, bind, awith, anew; simpl. f_equal. f_equal.
    unfold d. rewrite upd_app_new, upd_app_lt by auto. reflexivity.
  - (* Destroy *) destruct (alive_get WF) as (a & Ha). erewrite bind_val by (apply a_get_ev; eauto). reflexivity.
  - (* CopyAssign *) reflexivity.
  - (* MoveAssign *) destruct (kind_get WF) as (a & b & Ha & Hb). unfold two. rewrite Ha, Hb.
    unfold a_move_assign. rewrite bind_assoc. erewrite bind_val by (apply a_swap_ev; eauto).
    rewrite bind_assoc.
    destruct (Nat.eqb_spec c d) as [->|N].
    + rewrite Ha in Hb; inversion Hb; subst b. rewrite awith_awith.
      erewrite bind_val by (apply a_get_ev; eapply awith_get; eauto). rewrite bind_assoc.
      erewrite bind_val by (apply a_get_ev; eapply awith_get; eauto).
      erewrite bind_val by apply a_put_ev. rewrite awith_awith. simpl.
      replace (MkA (a_ents a) (a_hot a) (a_cap a) (a_stats a) (a_cbs a) (a_ttl a)) with a by (destruct a; auto).
      rewrite awith_same; auto.
    + assert (L1 : forall x, slot (aw_caches (awith d x (awith c (take_from b a) aw))) c = Some (take_from b a)).
      { intros x. simpl. rewrite slot_upd_other by auto. erewrite slot_upd_same; eauto. }
      erewrite bind_val by (apply a_get_ev; apply L1). rewrite bind_assoc.
      erewrite bind_val.
      2:{ apply a_get_ev. simpl. erewrite slot_upd_same; [eauto|]. rewrite slot_upd_other; eauto. }
      erewrite bind_val by apply a_put_ev. unfold ret. f_equal.
      unfold pair_put, awith; simpl. rewrite upd_comm by auto. rewrite upd_upd. auto.
  - (* Swap *) destruct (kind_get WF) as (a & b & Ha & Hb). unfold two. rewrite Ha, Hb.
    erewrite bind_val by (apply a_swap_ev; eauto).
    destruct (Nat.eqb_spec c d) as [->|N].
    + rewrite Ha in Hb; inversion Hb; subst b. rewrite awith_awith. simpl.
      replace (MkA (a_ents a) (a_hot a) (a_cap a) (a_stats a) (a_cbs a) (a_ttl a)) with a by (destruct a; auto).
      rewrite awith_same; auto.
    + reflexivity.
  - (* Equal *) destruct (kind_get WF) as (a & b & Ha & Hb). unfold two. rewrite Ha, Hb.
    unfold a_equal. rewrite !bind_assoc. erewrite bind_val by (apply a_get_ev; eauto).
    rewrite bind_assoc. erewrite bind_val by (apply a_get_ev; eauto). reflexivity.
  - (* MonitorNew *) destruct (alive_get WF) as (a & Ha). unfold two. rewrite Ha.
    erewrite bind_val by (apply a_get_ev; eauto). erewrite bind_val by reflexivity.
    unfold a_setstats. rewrite bind_assoc. erewrite bind_val by (apply a_get_ev; eauto).
    erewrite bind_val by apply a_put_ev. reflexivity.
Qed.

End Global.
