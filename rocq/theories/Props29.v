(** Property theorems: monitoring and statistics in histories in which caches may be
    copied and allocations may fail. *)
From Coq Require Import List Arith ZArith Bool.
Import ListNotations.
From Verif Require Import Monad Types Model Api EnvEx Spec SpecStats SpecSettings ExBase FaultEx Props4 SpecTally TallyRun.

(** Cache 1 is a copy of cache 0 and feeds the same statistics object; cache 2 is
    assigned a cache that is not monitored. *)
Definition shared_ops : list (op nat nat) :=
  [New 2 None; MonitorNew 0 [1; 5]; Insert 0 1 10; Insert 0 2 20; Copy 0; Find 0 1; Find 1 5; Insert 1 7 70; Find 1 7;
   New 4 None; MonitorShared 2 0; Find 2 9; StatsMonitor 2 7; StopMonitoring 0; Find 0 5; Contains 1 5; Destroy 0;
   New 1 None; CopyAssign 2 3; Find 2 1; Find 1 7].
Definition shared_outs := outs_after E0 shared_ops.
Definition shared_world := world_after E0 shared_ops.
(** The same with the insertion of the second element running out of memory. *)
Definition ES := failing 2.
Definition short_ops : list (op nat nat) :=
  [New 2 None; MonitorNew 0 [1; 5]; Insert 0 1 10; Insert 0 2 20; Copy 0; Find 0 2; Contains 1 1; Find 1 5; StopMonitoring 1].

(** C28. *)
Theorem C28_totals_any : forall (K V : Type) (E : env K V), passive E ->
  forall ops outs w, run E ops init_world = Finished outs w -> eqop_good E -> countable ops ->
  forall c, alive w c = true ->
  let t := tally_of ops outs in
  exec E (Totals c) w =
    match feeds t c with
    | Some (Some s) => Val (RTotals (size_t (Z.of_nat (n_accesses (page t s)))) (size_t (Z.of_nat (n_hits (page t s))))
                                    (size_t (Z.of_nat (n_misses (page t s))))) w
    | _ => Exc NotMonitoring w
    end.
Proof. exact @tally_totals. Qed.
Print Assumptions C28_totals_any.
Example C28_any_case : passive E0 /\ eqop_good E0 /\ countable shared_ops /\
  run E0 shared_ops init_world = Finished shared_outs shared_world /\ map (alive shared_world) [0; 1; 2; 3] = [false; true; true; true] /\
  map (feeds (tally_of shared_ops shared_outs)) [0; 1; 2; 3] = [None; Some (Some 0); Some None; Some None] /\
  page (tally_of shared_ops shared_outs) 0 =
    [BAccess 7 true; BAccess 5 false; BMonitor 7; BAccess 9 false; BAccess 7 true; BAccess 5 false; BAccess 1 true; BMonitor 5; BMonitor 1] /\
  totals_are E0 1 shared_world (6, 3, 3)%Z /\
  passive ES /\ outs_after ES short_ops = [Returned (RNat 0); Returned (RNat 0); Returned (RIns true (Some (1, 10))); Threw BadAlloc;
    Returned (RNat 1); Returned (ROpt None); Returned (RBool true); Returned (ROpt None); Returned RUnit] /\
  totals_are ES 0 (world_after ES short_ops) (3, 1, 2)%Z.
Proof.
  split; [intros ev w; reflexivity|]. split; [apply ex_eqop|]. split; [left; reflexivity|]. do 5 (split; [vm_compute; reflexivity|]).
  split; [intros ev w; reflexivity|]. split; vm_compute; reflexivity.
Qed.

(** C29. *)
Theorem C29_key_stats_any : forall (K V : Type) (E : env K V), passive E ->
  forall ops outs w, run E ops init_world = Finished outs w -> eqop_good E -> countable ops ->
  forall c, alive w c = true -> forall k,
  let t := tally_of ops outs in
  exec E (StatsFor c k) w =
    match feeds t c with
    | Some (Some s) => match key_count E k (page t s) with
                       | None => Exc UnmonitoredKey w
                       | Some (h, n) => Val (RKeyStats (size_t (Z.of_nat h)) (size_t (Z.of_nat n)) (size_t (Z.of_nat (h + n)))) w
                       end
    | _ => Exc NotMonitoring w
    end.
Proof. exact @tally_key. Qed.
Print Assumptions C29_key_stats_any.
Theorem C29_is_monitoring_any : forall (K V : Type) (E : env K V), passive E ->
  forall ops outs w, run E ops init_world = Finished outs w -> eqop_good E -> countable ops ->
  forall c, alive w c = true -> forall k,
  let t := tally_of ops outs in
  exec E (StatsIsMonitoring c k) w =
    match feeds t c with
    | Some (Some s) => Val (RBool (match key_count E k (page t s) with Some _ => true | None => false end)) w
    | _ => Exc NotMonitoring w
    end.
Proof. exact @tally_monitored. Qed.
Print Assumptions C29_is_monitoring_any.
Theorem C29_number_any : forall (K V : Type) (E : env K V), passive E ->
  forall ops outs w, run E ops init_world = Finished outs w -> eqop_good E -> countable ops ->
  forall c, alive w c = true ->
  let t := tally_of ops outs in
  match feeds t c with
  | Some (Some s) => exists ks, exec E (StatsNumber c) w = Val (RNat (length ks)) w /\ unique_keys E ks /\
                       forall k, key_count E k (page t s) <> None <-> exists k', In k' ks /\ key_eqop E k k' = true
  | _ => exec E (StatsNumber c) w = Exc NotMonitoring w
  end.
Proof. exact @tally_number. Qed.
Print Assumptions C29_number_any.
Example C29_any_case :
  map (fun k => key_count E0 k (page (tally_of shared_ops shared_outs) 0)) [1; 5; 7; 9] = [Some (1, 0); Some (0, 2); Some (1, 0); None] /\
  exec E0 (StatsFor 1 5) shared_world = Val (RKeyStats 0 2 2) shared_world /\
  exec E0 (StatsFor 1 9) shared_world = Exc UnmonitoredKey shared_world /\
  exec E0 (StatsFor 2 5) shared_world = Exc NotMonitoring shared_world /\
  exec E0 (StatsNumber 1) shared_world = Val (RNat 3) shared_world.
Proof. do 4 (split; [vm_compute; reflexivity|]). vm_compute; reflexivity. Qed.

(** C30.  Caches come to share a statistics object by monitor(shared), by copying and
    by assignment; [n] is a number greater than those of the caches accessed. *)
Theorem C30_sum_any : forall (K V : Type) (E : env K V), passive E ->
  forall ops outs w, run E ops init_world = Finished outs w -> eqop_good E -> countable ops ->
  forall c s n,
  feeds (tally_of ops outs) c = Some (Some s) -> (forall o d k, In o ops -> asks o = Some (d, k) -> d < n) ->
  exists m, exec E (Totals c) w =
    Val (RTotals (size_t (Z.of_nat (sum_over n (fun d => length (through d s ops outs no_tally)))))
                 (size_t (Z.of_nat (sum_over n (fun d => length (filter snd (through d s ops outs no_tally))))))
                 m) w.
Proof. exact @tally_sums. Qed.
Print Assumptions C30_sum_any.
Example C30_any_case : feeds (tally_of shared_ops shared_outs) 1 = Some (Some 0) /\
  (forall o d k, In o shared_ops -> asks o = Some (d, k) -> d < 3) /\
  map (fun d => through d 0 shared_ops shared_outs no_tally) [0; 1; 2] =
    [[(1, true)]; [(5, false); (7, true); (5, false); (7, true)]; [(9, false)]] /\
  totals_are E0 1 shared_world (6, 3, 3)%Z.
Proof.
  split; [vm_compute; reflexivity|]. split; [|split; vm_compute; reflexivity].
  intros o d k H. simpl in H. repeat destruct H as [<-|H]; try discriminate; try contradiction; intros X; inversion X; subst; auto.
Qed.

(** C63.  Not even the outcomes of accesses need tell hits from misses. *)
Theorem C63_is_monitoring_any : forall (K V : Type) (E : env K V), passive E ->
  forall ops outs w c, run E ops init_world = Finished outs w -> alive w c = true ->
  exec E (IsMonitoring c) w = Val (RBool (match feeds (tally_of ops outs) c with Some (Some _) => true | _ => false end)) w.
Proof. exact @tally_monitoring. Qed.
Print Assumptions C63_is_monitoring_any.
Theorem C63_throws_any : forall (K V : Type) (E : env K V), passive E ->
  forall ops outs w o c w', run E ops init_world = Finished outs w -> uses_stats o = Some c ->
  exec E o w = Exc NotMonitoring w' <-> feeds (tally_of ops outs) c = Some None /\ w' = w.
Proof. exact @tally_throws. Qed.
Print Assumptions C63_throws_any.
Example C63_any_case : run E0 shared_ops init_world = Finished shared_outs shared_world /\
  exec E0 (IsMonitoring 1) shared_world = Val (RBool true) shared_world /\
  exec E0 (IsMonitoring 2) shared_world = Val (RBool false) shared_world /\
  uses_stats (StatsResetKey 2 1 : op nat nat) = Some 2 /\
  exec E0 (StatsResetKey 2 1) shared_world = Exc NotMonitoring shared_world.
Proof. do 4 (split; [vm_compute; reflexivity|]). vm_compute; reflexivity. Qed.
