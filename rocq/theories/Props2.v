(** Property theorems: histories on one cache, ranges, observers. *)
From Coq Require Import List Arith ZArith Bool Permutation.
Import ListNotations.
From Verif Require Import Monad Types Model Api EnvEx Spec ExBase CallProofs Effects LruMore LruTrack.

(** C05.  [lwritten] is the value last written for the key by the history, or the
    one shown before it. *)
Theorem C05_last_written : forall (K V : Type) (E : env K V), good E ->
  forall w c l n calls outs w', reachable E w -> timed w c = false ->
  contents E c w l -> capacity_is E c w n -> run E (map (on c) calls) w = Finished outs w' ->
  forall k k0 v w'', call E (Find c k) w' (Returned (ROpt (Some (k0, v)))) w'' \/
                     call E (Lookup c k) w' (Returned (RVal v)) w'' ->
  lwritten E k calls (option_map snd (look E k l)) = Some v.
Proof. exact @last_written. Qed.
Print Assumptions C05_last_written.
Definition C05_calls : list (@lcall nat nat) :=
  [LInsert 4 40; LInsertRange [(5, 50); (4, 41); (4, 42)]; LWrite 5 51; LErase 2; LLookup 4].
Definition C05_world : world nat nat := world_after E0 (full_ops ++ map (on 0) C05_calls).
Example C05_case : reachable E0 full /\ timed full 0 = false /\
  contents E0 0 full [(1, 10); (3, 30); (2, 20)] /\ capacity_is E0 0 full 3 /\
  (exists outs, run E0 (map (on 0) C05_calls) full = Finished outs C05_world) /\
  (exists w'', call E0 (Lookup 0 5) C05_world (Returned (RVal 51)) w'') /\
  lwritten E0 5 C05_calls (option_map snd (look E0 5 [(1, 10); (3, 30); (2, 20)])) = Some 51.
Proof.
  split; [apply full_reachable|]. ands; try (vm_compute; reflexivity);
  eexists; vm_compute; reflexivity.
Qed.

(** C11.  [p] is the most recently used element; the calls insert, emplace or
    access other keys; [different (luses ..)] are the distinct keys inserted or
    hit. *)
Theorem C11_survival : forall (K V : Type) (E : env K V), good E ->
  forall w c l p n calls, reachable E w -> timed w c = false ->
  contents E c w (l ++ [p]) -> capacity_is E c w n ->
  (forall x, In x calls -> exists k, lkey x = Some k /\ key_equal E (fst p) k = false) ->
  exists outs w' l', run E (map (on c) calls) w = Finished outs w' /\ contents E c w' l' /\
    (has E (fst p) l' = true <-> length (different E (luses calls outs)) < n).
Proof. exact @survival. Qed.
Print Assumptions C11_survival.
Definition C11_calls : list (@lcall nat nat) := [LInsert 3 31; LInsert 4 40; LFind 9; LInsert 3 32; LContains 4].
Example C11_case : reachable E0 full /\ timed full 0 = false /\
  contents E0 0 full ([(1, 10); (3, 30)] ++ [(2, 20)]) /\ capacity_is E0 0 full 3 /\
  (forall x, In x C11_calls -> exists k, lkey x = Some k /\ key_equal E0 2 k = false) /\
  (exists outs w', run E0 (map (on 0) C11_calls) full = Finished outs w' /\
     contents E0 0 w' [(2, 20); (3, 32); (4, 40)] /\ different E0 (luses C11_calls outs) = [4; 3]).
Proof.
  split; [apply full_reachable|]. ands; try (vm_compute; reflexivity).
  2:{ do 2 eexists. split; [vm_compute; reflexivity|]. split; vm_compute; reflexivity. }
  simpl. intros x [<-|[<-|[<-|[<-|[<-|[]]]]]]; eexists; split; reflexivity.
Qed.

(** C14.  For any cache: empty, same capacity.  For an untimed one: every history
    gives the same answers as on a freshly constructed cache. *)
Theorem C14_clear : forall (K V : Type) (E : env K V), good E ->
  forall w c l n, reachable E w -> contents E c w l -> capacity_is E c w n ->
  exists w', exec E (Clear c) w = Val RUnit w' /\ contents E c w' [] /\ capacity_is E c w' n.
Proof. exact @clear_result. Qed.
Print Assumptions C14_clear.
Theorem C14_clear_as_fresh : forall (K V : Type) (E : env K V), good E ->
  forall w c l n calls, reachable E w -> timed w c = false ->
  contents E c w l -> capacity_is E c w n ->
  exists w1 d w2 answers outs1 outs2 e,
    exec E (Clear c) w = Val RUnit w1 /\ exec E (New n None) w = Val (RNat d) w2 /\
    seen (run E (map (on c) calls) w1) = (outs1, e) /\ seen (run E (map (on d) calls) w2) = (outs2, e) /\
    agrees calls outs1 answers /\ agrees calls outs2 answers.
Proof. exact @clear_fresh. Qed.
Print Assumptions C14_clear_as_fresh.
Example C14_case : reachable E0 full /\ timed full 0 = false /\
  contents E0 0 full [(1, 10); (3, 30); (2, 20)] /\ capacity_is E0 0 full 3.
Proof. split; [apply full_reachable|]. ands; vm_compute; reflexivity. Qed.

(** C19.  Same number of insertions, and no later program can tell the results
    apart. *)
Theorem C19_insert_range : forall (K V : Type) (E : env K V), good E ->
  forall w c l o, puts_range c l o -> reachable E w -> alive w c = true ->
  exists w' outs w1, exec E o w = Val (RNat (news outs)) w' /\
    run E (map (fun p => Insert c (fst p) (snd p)) l) w = Finished outs w1 /\ same_seen E w' w1.
Proof. exact @insert_range_result. Qed.
Print Assumptions C19_insert_range.
Example C19_case : reachable ET timed_full /\ alive timed_full 0 = true /\
  (exists w', exec ET (InsertRange 0 [(4, 40); (4, 41); (3, 31); (5, 50); (6, 60); (7, 70); (3, 32)]) timed_full
     = Val (RNat 5) w').
Proof. split; [apply timed_full_reachable|]. split; [vm_compute; reflexivity|]. eexists. vm_compute. reflexivity. Qed.

(** C20.  [builds] lists the constructors with their documented capacities. *)
Theorem C20_range_constructors : forall (K V : Type) (E : env K V), good E ->
  forall w ttl o cap l, builds ttl o cap l -> reachable E w ->
  exists c w', exec E o w = Val (RNat c) w' /\ alive w c = false /\
    contents E c w' (rev (items (snd (lputs E l (Lru cap []))))) /\ capacity_is E c w' cap /\
    ttl_of c w' ttl /\
    exists outs w1, run E (New cap ttl :: map (fun p => Insert c (fst p) (snd p)) l) w = Finished outs w1 /\
      same_seen E w' w1.
Proof. exact @build_result. Qed.
Print Assumptions C20_range_constructors.
Example C20_case : builds (Some 5%Z) (NewFrom 2 (Some 5%Z) [(1, 10); (2, 20); (1, 11); (3, 30)]) 2 [(1, 10); (2, 20); (1, 11); (3, 30)] /\
  reachable E0 full /\
  rev (items (snd (lputs E0 [(1, 10); (2, 20); (1, 11); (3, 30)] (Lru 2 [])))) = [(1, 11); (3, 30)].
Proof. split; [constructor|]. split; [apply full_reachable|reflexivity]. Qed.

(** C21 *)
Theorem C21_assign_range : forall (K V : Type) (E : env K V), good E ->
  forall w c l o l0 n, assigns c l o -> reachable E w -> contents E c w l0 -> capacity_is E c w n ->
  exists w', exec E o w = Val RUnit w' /\
    contents E c w' (rev (items (snd (lputs E l (Lru (Nat.max n (length l)) []))))) /\
    capacity_is E c w' (Nat.max n (length l)).
Proof. exact @assign_result. Qed.
Print Assumptions C21_assign_range.
(** Nothing is lost: the keys shown are those of the range, each with its last
    value; a range without repetitions is shown as it is. *)
Theorem C21_assign_keeps_all : forall (K V : Type) (E : env K V), good E ->
  forall w c l o l0 n, assigns c l o -> reachable E w -> contents E c w l0 -> capacity_is E c w n ->
  exists w' l', exec E o w = Val RUnit w' /\ contents E c w' l' /\
    capacity_is E c w' (Nat.max n (length l)) /\
    (forall k, has E k l' = has E k l) /\
    (forall k v, In (k, v) l' -> exists k', look E k (rev l) = Some (k', v)) /\
    (distinct E l -> l' = l).
Proof. exact @assign_keeps_all. Qed.
Print Assumptions C21_assign_keeps_all.
Example C21_case : assigns 0 [(7, 70); (8, 80); (9, 90); (6, 60)] (AssignRange 0 [(7, 70); (8, 80); (9, 90); (6, 60)]) /\
  reachable E0 full /\ contents E0 0 full [(1, 10); (3, 30); (2, 20)] /\ capacity_is E0 0 full 3 /\
  distinct E0 [(7, 70); (8, 80); (9, 90); (6, 60)].
Proof. split; [constructor|]. split; [apply full_reachable|]. ands; try (vm_compute; reflexivity). vm_compute. tauto.  Qed.

(** C23.  In every world at all (copies included): an observer leaves every cache,
    every statistics object and the record of callbacks as they are; those that
    do not look at the clock leave the whole world as it is. *)
Theorem C23_observers : forall (K V : Type) (E : env K V) (o : op K V), observer o = true ->
  forall w, match exec E o w with
            | Val _ w' | Exc _ w' =>
                w_caches w' = w_caches w /\ w_stores w' = w_stores w /\ w_stats w' = w_stats w /\
                w_log w' = w_log w /\ w_steps w' = w_steps w
            | _ => True
            end.
Proof. exact @observer_effect. Qed.
Print Assumptions C23_observers.
Theorem C23_pure_observers : forall (K V : Type) (E : env K V) (o : op K V), pure_observer o = true ->
  forall w, match exec E o w with Val _ w' | Exc _ w' => w = w' | _ => True end.
Proof. exact @pure_observer_same. Qed.
Print Assumptions C23_pure_observers.
Example C23_case : observer (AllExpired 0 : op nat nat) = true /\
  exists w', exec ET (AllExpired 0) timed_full = Val (RBool false) w'.
Proof. split; [reflexivity|eexists; vm_compute; reflexivity]. Qed.

(** C31.  In every world at all: a call other than the accesses (and the direct
    changes of a statistics object) calls no callback and leaves every existing
    statistics object as it is. *)
Theorem C31_modifications_are_not_accesses : forall (K V : Type) (E : env K V) (o : op K V), registers o = false ->
  forall w, match exec E o w with
            | Val _ w' | Exc _ w' =>
                w_log w' = w_log w /\ forall i x, slot (w_stats w) i = Some x -> slot (w_stats w') i = Some x
            | _ => True
            end.
Proof. exact @unregistered_effect. Qed.
Print Assumptions C31_modifications_are_not_accesses.
Definition watched : world nat nat :=
  world_after E0 (full_ops ++ [MonitorNew 0 [1]; AddHit 0 1; AddMiss 0 2; AddAccess 0 3; Find 0 1; Find 0 9]).
Example C31_case : registers (Insert 0 4 40 : op nat nat) = false /\ reachable E0 watched /\
  length (w_log watched) = 4 /\ exists w', exec E0 (Insert 0 4 40) watched = Val (RIns true (Some (4, 40))) w'.
Proof. split; [reflexivity|]. split; [reached|]. split; [vm_compute; reflexivity|eexists; vm_compute; reflexivity]. Qed.

(** C46.  The full statement is false: front() and back() are declared noexcept,
    so the EmptyCache they throw terminates the program. *)
Theorem C46_empty_front_back_refuted : exists (E : env nat nat) (w : world nat nat),
  good E /\ reachable E w /\ timed w 0 = false /\ contents E 0 w [] /\
  exec E (Front 0) w = Term EmptyCache /\ exec E (Back 0) w = Term EmptyCache.
Proof.
  exists E0, (world_after E0 [New 3 None]).
  split; [apply ex_good|]. split; [reached|]. ands; vm_compute; reflexivity.
Qed.
Print Assumptions C46_empty_front_back_refuted.
(** True: of a non-empty cache they deliver the most and the least recently used
    key; of an empty one they always terminate the program.  Missing: that the
    exception can be caught. *)
Theorem C46_front_back_partial : forall (K V : Type) (E : env K V), good E ->
  forall w c l, reachable E w -> timed w c = false -> contents E c w l ->
  match l with
  | [] => exec E (Front c) w = Term EmptyCache /\ exec E (Back c) w = Term EmptyCache
  | p :: _ => exec E (Back c) w = Val (RKey (fst p)) w /\
              exec E (Front c) w = Val (RKey (fst (last l p))) w
  end.
Proof. exact @front_back. Qed.
Print Assumptions C46_front_back_partial.
Example C46_case : reachable E0 full /\ timed full 0 = false /\ contents E0 0 full [(1, 10); (3, 30); (2, 20)].
Proof. split; [apply full_reachable|]. ands; vm_compute; reflexivity. Qed.

(** C58.  One call at a time (histories by repetition; ranges by C19): while an
    element for [k] is shown, its key is the one shown before. *)
Theorem C58_first_key : forall (K V : Type) (E : env K V), good E ->
  forall w c l n x r w' l', reachable E w -> timed w c = false -> contents E c w l -> capacity_is E c w n ->
  single x = true -> call E (on c x) w r w' -> contents E c w' l' ->
  forall k k0 v k1 v1, look E k l = Some (k0, v) -> look E k l' = Some (k1, v1) -> k1 = k0.
Proof. exact @first_key. Qed.
Print Assumptions C58_first_key.
(** Equal keys of a present element are interchangeable in every call naming a
    key. *)
Theorem C58_equal_keys : forall (K V : Type) (E : env K V), good E ->
  forall w c l n k k' x x', reachable E w -> timed w c = false -> contents E c w l -> capacity_is E c w n ->
  key_equal E k k' = true -> has E k l = true -> renamed k k' x x' ->
  exists r w1 w2 l', call E (on c x) w r w1 /\ call E (on c x') w r w2 /\ contents E c w1 l' /\ contents E c w2 l'.
Proof. exact @equal_keys. Qed.
Print Assumptions C58_equal_keys.
Definition EM : env nat nat := mod_env still.
Definition mods : world nat nat := world_after EM [New 2 None; Insert 0 1 10; Insert 0 2 20].
Example C58_case : good EM /\ reachable EM mods /\ timed mods 0 = false /\
  contents EM 0 mods [(1, 10); (2, 20)] /\ capacity_is EM 0 mods 2 /\
  key_equal EM 1 21 = true /\ has EM 1 [(1, 10); (2, 20)] = true /\
  renamed 1 21 (LInsert 1 99) (LInsert 21 99) /\
  (exists w', exec EM (Insert 0 21 99) mods = Val (RIns false (Some (1, 99))) w').
Proof.
  split; [apply mod_good|]. split; [reached|]. ands; try (vm_compute; reflexivity); try constructor.
  eexists; vm_compute; reflexivity.
Qed.
