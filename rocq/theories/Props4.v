(** Property theorems: monitoring, statistics and callbacks.

    [ledger_of ops outs] is what the client works out from its calls and their
    outcomes: which statistics object each cache has, which callbacks, and which
    accesses each statistics object saw (SpecStats.v). *)
From Coq Require Import List Arith ZArith Bool Permutation.
Import ListNotations.
From Verif Require Import Monad Types Model Api EnvEx Spec SpecStats SpecTimed ExBase StatMore TimedStats.

Lemma ex_eqop clk : eqop_good (ex_env clk).
Proof.
  constructor; simpl.
  - apply Nat.eqb_refl.
  - apply Nat.eqb_sym.
  - intros a b c A B. apply Nat.eqb_eq in A, B. subst. apply Nat.eqb_refl.
Qed.
Definition outs_after (E : env nat nat) (ops : list (op nat nat)) : list (outcome nat nat) := fst (seen (run E ops init_world)).

(** C28.  Every read of a key is an access, a hit iff the key is present; the
    totals are the numbers of accesses, hits and misses made while the statistics
    object was attached; one access changes them by one. *)
Theorem C28_every_read : forall (K V : Type) (E : env K V), good E ->
  forall w c k o oc w' l, reachable E w -> timed w c = false -> asks o = Some (c, k) ->
  call E o w oc w' -> contents E c w l -> access_of o oc = Some (c, k, has E k l).
Proof. exact @access_happens. Qed.
Print Assumptions C28_every_read.
Theorem C28_totals : forall (K V : Type) (E : env K V), good E ->
  forall ops outs w, forallb copy_free ops = true -> run E ops init_world = Finished outs w ->
  forall c, eqop_good E -> countable ops -> alive w c = true ->
  let L := ledger_of ops outs in
  exec E (Totals c) w =
    match attached L c with
    | None => Exc NotMonitoring w
    | Some s => Val (RTotals (size_t (Z.of_nat (n_accesses (books L s))))
                             (size_t (Z.of_nat (n_hits (books L s))))
                             (size_t (Z.of_nat (n_misses (books L s))))) w
    end.
Proof. exact @totals. Qed.
Print Assumptions C28_totals.
Theorem C28_one_access : forall (K V : Type) (E : env K V), good E ->
  forall w c k o oc w' hit d r, reachable E w -> timed w c = false \/ by_find o = true ->
  call E o w oc w' -> access_of o oc = Some (c, k, hit) -> totals_are E d w r ->
  (~ separate w c d -> totals_are E d w' (counts hit r)) /\ (separate w c d -> totals_are E d w' r).
Proof. exact @step_totals. Qed.
Print Assumptions C28_one_access.
Definition C28_ops : list (op nat nat) :=
  [New 2 None; Find 0 1; MonitorNew 0 [1; 2]; Insert 0 1 10; Find 0 1; Contains 0 2; Lookup 0 2; Insert 0 2 20;
   Lookup 0 2; Insert 0 3 30; Find 0 1; StatsUnmonitor 0 2; Write 0 3 33; EraseFound 0 3; StatsMonitor 0 3; Find 0 3].
Definition C28_world := world_after E0 C28_ops.
Example C28_case : good E0 /\ eqop_good E0 /\ reachable E0 C28_world /\ countable C28_ops /\
  run E0 C28_ops init_world = Finished (outs_after E0 C28_ops) C28_world /\
  alive C28_world 0 = true /\ attached (ledger_of C28_ops (outs_after E0 C28_ops)) 0 = Some 0 /\
  n_accesses (books (ledger_of C28_ops (outs_after E0 C28_ops)) 0) = 8 /\
  n_hits (books (ledger_of C28_ops (outs_after E0 C28_ops)) 0) = 4 /\ totals_are E0 0 C28_world (8, 4, 4)%Z /\
  asks (Lookup 0 2 : op nat nat) = Some (0, 2) /\ contents E0 0 C28_world [(2, 20)].
Proof. split; [apply ex_good|]. split; [apply ex_eqop|]. split; [reached|]. split; [left; reflexivity|]. ands; vm_compute; reflexivity. Qed.

(** C29.  Per key: the hits and misses of the accesses that name the key, since it
    was monitored or reset; [key_count] is [None] for keys not monitored. *)
Theorem C29_key_stats : forall (K V : Type) (E : env K V), good E ->
  forall ops outs w, forallb copy_free ops = true -> run E ops init_world = Finished outs w ->
  forall c k, eqop_good E -> countable ops -> alive w c = true ->
  let L := ledger_of ops outs in
  exec E (StatsFor c k) w =
    match attached L c with
    | None => Exc NotMonitoring w
    | Some s => match key_count E k (books L s) with
                | None => Exc UnmonitoredKey w
                | Some (h, m) => Val (RKeyStats (size_t (Z.of_nat h)) (size_t (Z.of_nat m))
                                                (size_t (Z.of_nat (h + m)))) w
                end
    end.
Proof. exact @stats_for_key. Qed.
Print Assumptions C29_key_stats.
Theorem C29_is_monitoring : forall (K V : Type) (E : env K V), good E ->
  forall ops outs w, forallb copy_free ops = true -> run E ops init_world = Finished outs w ->
  forall c k, eqop_good E -> countable ops -> alive w c = true ->
  let L := ledger_of ops outs in
  exec E (StatsIsMonitoring c k) w =
    match attached L c with
    | None => Exc NotMonitoring w
    | Some s => Val (RBool (match key_count E k (books L s) with Some _ => true | None => false end)) w
    end.
Proof. exact @stats_monitoring. Qed.
Print Assumptions C29_is_monitoring.
Theorem C29_number : forall (K V : Type) (E : env K V), good E ->
  forall ops outs w, forallb copy_free ops = true -> run E ops init_world = Finished outs w ->
  forall c, eqop_good E -> countable ops -> alive w c = true ->
  let L := ledger_of ops outs in
  match attached L c with
  | None => exec E (StatsNumber c) w = Exc NotMonitoring w
  | Some s => exists ks, exec E (StatsNumber c) w = Val (RNat (length ks)) w /\ unique_keys E ks /\
                forall k, key_count E k (books L s) <> None <-> exists k', In k' ks /\ key_eqop E k k' = true
  end.
Proof. exact @stats_number. Qed.
Print Assumptions C29_number.
Example C29_case :
  seen (run E0 [StatsFor 0 1; StatsFor 0 2; StatsFor 0 3; StatsNumber 0; StatsIsMonitoring 0 2] C28_world) =
    ([Returned (RKeyStats 1 1 2); Threw UnmonitoredKey; Returned (RKeyStats 0 1 1); Returned (RNat 2);
      Returned (RBool false)], Alive) /\
  key_count E0 1 (books (ledger_of C28_ops (outs_after E0 C28_ops)) 0) = Some (1, 1).
Proof. ands; vm_compute; reflexivity. Qed.

(** C30.  The totals of a statistics object are the sums, over all caches, of the
    accesses each made while the object was attached to it ([n] is any number of
    caches not smaller than the number of calls).  That one access on a cache
    changes the totals shown by exactly the caches that share its object is
    C28_one_access. *)
Theorem C30_sum : forall (K V : Type) (E : env K V), good E ->
  forall ops outs w c, forallb copy_free ops = true -> run E ops init_world = Finished outs w ->
  eqop_good E -> countable ops -> alive w c = true ->
  forall s n, attached (ledger_of ops outs) c = Some s -> length ops <= n ->
  exists m, exec E (Totals c) w =
    Val (RTotals (size_t (Z.of_nat (sum_over n (fun d => length (accesses_by d s ops outs blank)))))
                 (size_t (Z.of_nat (sum_over n (fun d => length (filter snd (accesses_by d s ops outs blank))))))
                 m) w.
Proof. exact @shared_sums. Qed.
Print Assumptions C30_sum.
Definition C30_ops : list (op nat nat) :=
  [New 2 None; New 3 None; MonitorNew 0 []; MonitorShared 1 0; Insert 0 1 10; Find 0 1; Find 1 1; Insert 1 2 20;
   Contains 1 2; StopMonitoring 0; Find 0 1; MonitorNew 0 []; Find 0 5; Lookup 1 2].
Definition C30_world := world_after E0 C30_ops.
Example C30_case : reachable E0 C30_world /\ countable C30_ops /\ alive C30_world 1 = true /\
  run E0 C30_ops init_world = Finished (outs_after E0 C30_ops) C30_world /\
  attached (ledger_of C30_ops (outs_after E0 C30_ops)) 1 = Some 0 /\
  map (fun d => accesses_by d 0 C30_ops (outs_after E0 C30_ops) blank) [0; 1; 2] =
    [[(1, true)]; [(1, false); (2, true); (2, true)]; []] /\
  totals_are E0 1 C30_world (4, 3, 1)%Z /\ totals_are E0 0 C30_world (1, 0, 1)%Z.
Proof. split; [reached|]. split; [left; reflexivity|]. ands; vm_compute; reflexivity. Qed.

(** C32.  Every copy-free call appends to the sequence of callback calls: an
    access that succeeds appends the calls of a hit, with the value stored before
    the call; one that fails those of a miss; other calls nothing.  (On a timed
    cache, contains() of an expired element that is the most recently used one may
    call nothing.  A call that throws KeyExpired calls nothing, if it was for such
    an element, or the callbacks of a hit, if the element expired between the two
    readings of the clock in the call.) *)
Theorem C32_callbacks : forall (K V : Type) (E : env K V), good E ->
  forall ops outs w o oc w', forallb copy_free ops = true ->
  run E ops init_world = Finished outs w -> copy_free o = true -> call E o w oc w' ->
  let L := ledger_of ops outs in
  exists evs, w_log w' = w_log w ++ evs /\
    match asks o with
    | None => evs = []
    | Some (c, k) => forall l, contents E c w l ->
        match access_of o oc with
        | Some (_, _, true) => exists p, look E k l = Some p /\ evs = hit_calls (subs L c) k (snd p)
        | Some (_, _, false) => evs = miss_calls (subs L c) k \/
            (evs = [] /\ o = Contains c k /\ is_newest E k l /\ old E c w k (clock E (w_reads w)))
        | None => oc = Threw KeyExpired /\
            ((evs = [] /\ is_newest E k l /\ old E c w k (clock E (w_reads w))) \/
             exists p, look E k l = Some p /\ evs = hit_calls (subs L c) k (snd p) /\
                       ~ old E c w k (clock E (w_reads w)) /\ old E c w k (clock E (S (w_reads w))))
        end
    end.
Proof. exact @callbacks_called. Qed.
Print Assumptions C32_callbacks.
Definition C32_ops : list (op nat nat) :=
  [New 2 None; AddHit 0 5; AddAccess 0 6; AddMiss 0 7; AddHit 0 8; Insert 0 1 10; ClearMiss 0; AddMiss 0 9].
Definition C32_world := world_after E0 C32_ops.
Example C32_case : forallb copy_free C32_ops = true /\
  run E0 C32_ops init_world = Finished (outs_after E0 C32_ops) C32_world /\
  call E0 (Write 0 1 11) C32_world (Returned RUnit) (world_after E0 (C32_ops ++ [Write 0 1 11])) /\
  w_log (world_after E0 (C32_ops ++ [Write 0 1 11; Find 0 3])) =
    [EvHit 5 1 10; EvHit 8 1 10; EvAccess 6 1 true; EvMiss 9 3; EvAccess 6 3 false] /\
  subs (ledger_of C32_ops (outs_after E0 C32_ops)) 0 = MkCbs [5; 8] [9] [6].
Proof. ands; vm_compute; reflexivity. Qed.

(** C63. *)
Theorem C63_is_monitoring : forall (K V : Type) (E : env K V), good E ->
  forall ops outs w, forallb copy_free ops = true -> run E ops init_world = Finished outs w ->
  forall c, alive w c = true ->
  exec E (IsMonitoring c) w =
    Val (RBool (match attached (ledger_of ops outs) c with Some _ => true | None => false end)) w.
Proof. exact @monitored. Qed.
Print Assumptions C63_is_monitoring.
Theorem C63_throws : forall (K V : Type) (E : env K V), good E ->
  forall ops outs w, forallb copy_free ops = true -> run E ops init_world = Finished outs w ->
  forall o c, alive w c = true -> uses_stats o = Some c -> attached (ledger_of ops outs) c = None ->
  exec E o w = Exc NotMonitoring w.
Proof. exact @stats_access_thrown. Qed.
Print Assumptions C63_throws.
Theorem C63_throws_only : forall (K V : Type) (E : env K V), good E ->
  forall ops outs w, forallb copy_free ops = true -> run E ops init_world = Finished outs w ->
  forall o c w', alive w c = true -> uses_stats o = Some c ->
  exec E o w = Exc NotMonitoring w' -> attached (ledger_of ops outs) c = None.
Proof. exact @stats_access_not_thrown. Qed.
Print Assumptions C63_throws_only.
Theorem C63_start : forall (K V : Type) (E : env K V), good E ->
  forall w c ks, reachable E w -> alive w c = true -> eqop_good E ->
  exists s w', call E (MonitorNew c ks) w (Returned (RNat s)) w' /\
    exec E (IsMonitoring c) w' = Val (RBool true) w' /\ totals_are E c w' (0, 0, 0)%Z /\
    forall k, exec E (StatsFor c k) w' =
      if existsb (key_eqop E k) ks then Val (RKeyStats 0 0 0) w' else Exc UnmonitoredKey w'.
Proof. exact @monitor_starts. Qed.
Print Assumptions C63_start.
Theorem C63_stop : forall (K V : Type) (E : env K V), good E ->
  forall w c s, reachable E w -> has_stats w c s ->
  exists w', call E (StopMonitoring c) w (Returned RUnit) w' /\
    exec E (IsMonitoring c) w' = Val (RBool false) w' /\
    (forall d o r, d <> c -> uses_stats o = Some d -> observer o = true -> exec E o w = Val r w -> exec E o w' = Val r w') /\
    exists w'', call E (MonitorShared c s) w' (Returned RUnit) w'' /\ same_seen E w w''.
Proof. exact @stop_leaves. Qed.
Print Assumptions C63_stop.
Example C63_case : reachable E0 C30_world /\ has_stats C30_world 1 0 /\
  seen (run E0 [StopMonitoring 1; Totals 1; IsMonitoring 1; MonitorShared 1 0; Totals 1; MonitorNew 1 [3]; Totals 1; StatsFor 1 3; StatsFor 1 2] C30_world) =
    ([Returned RUnit; Threw NotMonitoring; Returned (RBool false); Returned RUnit; Returned (RTotals 4 3 1);
      Returned (RNat 2); Returned (RTotals 0 0 0); Returned (RKeyStats 0 0 0); Threw UnmonitoredKey], Alive).
Proof.
  split; [reached|]. split; [|vm_compute; reflexivity].
  unfold has_stats. destruct (slot (w_caches C30_world) 1) as [x|] eqn:H; vm_compute in H; [|discriminate].
  exists x. split; auto. inversion H; reflexivity.
Qed.

(** C43.  Refuted: contains() of an expired last-accessed key counts nothing, a
    lookup of it counts nothing, and a lookup that finds the key expired only at
    its second reading of the clock counts a hit although it throws.  Proved:
    what each outcome counts on any cache; exactly one access, a hit iff it
    succeeded, for find (C28_totals and C28_one_access with [by_find]). *)
Definition C43_ops : list (op nat nat) :=
  [New 3 (Some 1%Z); Insert 0 1 10; MonitorNew 0 []; Find 0 1; HasExpired 0 1].
Definition C43_world := world_after ET C43_ops.
Theorem C43_contains_refuted : exists (E : env nat nat) w o oc w', good E /\ reachable E w /\ timed w 0 = true /\
  asks o = Some (0, 1) /\ call E o w oc w' /\ oc = Returned (RBool false) /\
  totals_are E 0 w (1, 1, 0)%Z /\ totals_are E 0 w' (1, 1, 0)%Z.
Proof.
  exists ET, C43_world, (Contains 0 1), (Returned (RBool false)), (world_after ET (C43_ops ++ [Contains 0 1])).
  split; [apply ex_good|]. split; [reached|]. ands; vm_compute; reflexivity.
Qed.
Print Assumptions C43_contains_refuted.
Theorem C43_lookup_refuted : exists (E : env nat nat) w o oc w', good E /\ reachable E w /\ timed w 0 = true /\
  asks o = Some (0, 1) /\ call E o w oc w' /\ oc = Threw KeyExpired /\
  totals_are E 0 w (1, 1, 0)%Z /\ totals_are E 0 w' (1, 1, 0)%Z.
Proof.
  exists ET, C43_world, (Lookup 0 1), (Threw KeyExpired), (world_after ET (C43_ops ++ [Lookup 0 1])).
  split; [apply ex_good|]. split; [reached|]. ands; vm_compute; reflexivity.
Qed.
Print Assumptions C43_lookup_refuted.
Definition C43_late : list (op nat nat) :=
  [New 3 (Some 2%Z); Insert 0 1 10; Insert 0 2 20; MonitorNew 0 []].
Theorem C43_late_refuted : exists (E : env nat nat) w o oc w', good E /\ reachable E w /\ timed w 0 = true /\
  asks o = Some (0, 1) /\ call E o w oc w' /\ oc = Threw KeyExpired /\
  totals_are E 0 w (0, 0, 0)%Z /\ totals_are E 0 w' (1, 1, 0)%Z.
Proof.
  exists ET, (world_after ET C43_late), (Lookup 0 1), (Threw KeyExpired), (world_after ET (C43_late ++ [Lookup 0 1])).
  split; [apply ex_good|]. split; [reached|]. ands; vm_compute; reflexivity.
Qed.
Print Assumptions C43_late_refuted.
Theorem C43_counted_partial : forall (K V : Type) (E : env K V), good E ->
  forall w c k o oc w' l r, reachable E w -> asks o = Some (c, k) -> contents E c w l ->
  call E o w oc w' -> totals_are E c w r ->
  match access_of o oc with
  | Some (_, _, true) => totals_are E c w' (counts true r)
  | Some (_, _, false) => totals_are E c w' (counts false r) \/
      (o = Contains c k /\ is_newest E k l /\ old E c w k (clock E (w_reads w)) /\ totals_are E c w' r)
  | None => oc = Threw KeyExpired /\
      ((is_newest E k l /\ old E c w k (clock E (w_reads w)) /\ totals_are E c w' r) \/
       (has E k l = true /\ ~ old E c w k (clock E (w_reads w)) /\ old E c w k (clock E (S (w_reads w))) /\
        totals_are E c w' (counts true r)))
  end.
Proof. exact @step_totals_any. Qed.
Print Assumptions C43_counted_partial.
Definition C43_find : list (op nat nat) :=
  [New 3 (Some 2%Z); Insert 0 1 10; MonitorNew 0 []; Find 0 1; Find 0 1; Find 0 1; Find 0 5].
Example C43_case : countable C43_find /\
  seen (run ET (C43_find ++ [Totals 0]) init_world) =
    ([Returned (RNat 0); Returned (RIns true (Some (1, 10))); Returned (RNat 0); Returned (ROpt (Some (1, 10)));
      Returned (ROpt (Some (1, 10))); Returned (ROpt None); Returned (ROpt None); Returned (RTotals 4 2 2)], Alive).
Proof. split; [right; reflexivity|]. vm_compute. reflexivity. Qed.
