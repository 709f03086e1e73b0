(** Property theorems: timed caches. *)
From Coq Require Import List Arith ZArith Bool Lia.
Import ListNotations.
From Verif Require Import Monad Types Model Api EnvEx Spec SpecStats SpecTimed ExBase CallProofs TimedProofs TimedStats TimedOrder TimedErase.

Ltac witness := eexists; vm_compute; reflexivity.

(** C27.  [old c w k z]: asked at time [z], has_expired(k) says yes; never the
    case for a cache that is not timed. *)
Theorem C27_is_valid : forall (K V : Type) (E : env K V), good E ->
  forall w c l n, reachable E w -> contents E c w l ->
  exists b w', exec E (ValidAt c n) w = Val (RBool b) w' /\
    (b = true <-> exists p, nth_error l n = Some p /\ ~ old E c w (fst p) (clock E (w_reads w))).
Proof. exact @valid_at. Qed.
Print Assumptions C27_is_valid.
Theorem C27_entry : forall (K V : Type) (E : env K V), good E ->
  forall w c l n, reachable E w -> contents E c w l ->
  exists w', match nth_error l n with
  | None => exec E (EntryAt c n) w = Exc InvalidIterator w'
  | Some p => (~ old E c w (fst p) (clock E (w_reads w)) /\ exec E (EntryAt c n) w = Val (ROpt (Some p)) w') \/
              (old E c w (fst p) (clock E (w_reads w)) /\ exec E (EntryAt c n) w = Exc KeyExpired w')
  end.
Proof. exact @entry_at. Qed.
Print Assumptions C27_entry.

(** Two elements, 1 inserted at time 0 and used last, 2 inserted at time 5, time
    to live 10; it is time 12 now. *)
Definition late : env nat nat := ex_env (fun n => nth n [0; 5; 6]%Z 12%Z).
Definition mixed : world nat nat := world_after late [New 3 (Some 10%Z); Insert 0 1 10; Insert 0 2 20; Find 0 1].
Lemma mixed_reachable : reachable late mixed.
Proof. reached. Qed.
Lemma mixed_contents : contents late 0 mixed [(2, 20); (1, 10)].
Proof. vm_compute. reflexivity. Qed.
Lemma mixed_1 : old late 0 mixed 1 (clock late (w_reads mixed)).
Proof. witness. Qed.
Lemma mixed_2 : ~ old late 0 mixed 2 (clock late (w_reads mixed)).
Proof. intros (w' & H). vm_compute in H. discriminate. Qed.
Example C27_case : reachable late mixed /\ contents late 0 mixed [(2, 20); (1, 10)] /\
  old late 0 mixed 1 (clock late (w_reads mixed)) /\ ~ old late 0 mixed 2 (clock late (w_reads mixed)) /\
  fst (seen (run late [ValidAt 0 0; ValidAt 0 1; ValidAt 0 2; EntryAt 0 0; EntryAt 0 1; EntryAt 0 2] mixed)) =
    [Returned (RBool true); Returned (RBool false); Returned (RBool false);
     Returned (ROpt (Some (2, 20))); Threw KeyExpired; Threw InvalidIterator].
Proof.
  split; [apply mixed_reachable|]. split; [apply mixed_contents|]. split; [apply mixed_1|]. split; [apply mixed_2|].
  vm_compute. reflexivity.
Qed.
(** ... and of a cache that is not timed. *)
Example C27_untimed : reachable E0 full /\ contents E0 0 full [(1, 10); (3, 30); (2, 20)] /\
  fst (seen (run E0 [ValidAt 0 2; ValidAt 0 3; EntryAt 0 2; EntryAt 0 3] full)) =
    [Returned (RBool true); Returned (RBool false); Returned (ROpt (Some (2, 20))); Threw InvalidIterator].
Proof. split; [apply full_reachable|]. ands; vm_compute; reflexivity. Qed.

(** C38 and C39.  An element put into a timed cache by call [o0] has an insertion
    time, a clock reading made during [o0] (for insert and emplace: the first).
    As long as it is [kept], an access is served exactly when it is young by all
    clock readings made during the access. *)
Theorem C38_served_iff_young : forall (K V : Type) (E : env K V), good E ->
  forall w0 o0 oc0 w1 c0 k, reachable E w0 -> call E o0 w0 oc0 w1 -> adds o0 oc0 c0 ->
  absent E k c0 w0 -> present E k c0 w1 -> timed w1 c0 = true ->
  exists i0, during w0 w1 i0 /\ (forall j u, puts c0 j u o0 -> i0 = w_reads w0) /\
  forall ops c w2 d, kept E k c0 w1 ops c w2 -> ttl_of c w2 (Some d) ->
    (forall o oc w3, asks o = Some (c, k) -> call E o w2 oc w3 ->
       w_reads w2 < w_reads w3 /\
       (served o oc c k <-> forall i, during w2 w3 i -> young E d (clock E i0) (clock E i))) /\
    (forall z, old E c w2 k z <-> ~ young E d (clock E i0) z).
Proof. exact @life. Qed.
Print Assumptions C38_served_iff_young.
Definition ins_ops : list (op nat nat) := [New 3 (Some 10%Z); Insert 0 2 20].
Definition between : list (op nat nat) := [Find 0 1; New 2 (Some 4%Z); Insert 0 1 11; Swap 0 1; Contains 1 1; Insert 1 5 50].
Definition ins0 := world_after ET ins_ops.
Definition ins1 := world_after ET (ins_ops ++ [Insert 0 1 10]).
Definition ins2 := world_after ET (ins_ops ++ [Insert 0 1 10] ++ between).
Ltac keep_on := match goal with
  | |- kept ?E ?k ?c ?w (?o :: ?t) ?c' ?w' =>
      let r := eval vm_compute in (exec E o w) in
      match r with
      | Val ?x ?w1 =>
          let ct := eval vm_compute in (exec E (Ordered (follow o (Returned x) c)) w1) in
          match ct with Val (REnts ?l) _ =>
            apply (@kept_cons _ _ E k c w o (Returned x) w1 l t c' w');
              [reflexivity|vm_compute; reflexivity|vm_compute; reflexivity|vm_compute; reflexivity|vm_compute; reflexivity|]
          end
      | Exc ?e ?w1 =>
          let ct := eval vm_compute in (exec E (Ordered (follow o (Threw e) c)) w1) in
          match ct with Val (REnts ?l) _ =>
            apply (@kept_cons _ _ E k c w o (Threw e) w1 l t c' w');
              [reflexivity|vm_compute; reflexivity|vm_compute; reflexivity|vm_compute; reflexivity|vm_compute; reflexivity|]
          end
      end
  end.
Example C38_case : reachable ET ins0 /\ call ET (Insert 0 1 10) ins0 (Returned (RIns true (Some (1, 10)))) ins1 /\
  adds (Insert 0 1 10) (Returned (RIns true (Some (1, 10)))) 0 /\
  absent ET 1 0 ins0 /\ present ET 1 0 ins1 /\ timed ins1 0 = true /\
  kept ET 1 0 ins1 between 1 ins2 /\ ttl_of 1 ins2 (Some 10%Z).
Proof.
  split; [reached|]. split; [vm_compute; reflexivity|]. split; [eapply adds_put; constructor|].
  split; [right; exists [(2, 20)]; split; vm_compute; reflexivity|].
  split; [exists [(2, 20); (1, 10)]; split; vm_compute; reflexivity|]. split; [vm_compute; reflexivity|].
  split.
  - unfold between. do 6 keep_on. match goal with |- kept _ _ _ ?w _ _ _ => replace ins2 with w by (vm_compute; reflexivity) end. constructor.
  - eexists. split; vm_compute; reflexivity.
Qed.
Theorem C39_inserted_is_served : forall (K V : Type) (E : env K V), good E ->
  forall w0 o0 oc0 w1 c0 k v, puts c0 k v o0 -> reachable E w0 -> call E o0 w0 oc0 w1 ->
  absent E k c0 w0 -> present E k c0 w1 -> timed w1 c0 = true ->
  forall ops c w2 d, kept E k c0 w1 ops c w2 -> ttl_of c w2 (Some d) ->
  forall o oc w3, asks o = Some (c, k) -> call E o w2 oc w3 ->
  (forall i, during w2 w3 i -> young E d (clock E (w_reads w0)) (clock E i)) -> served o oc c k.
Proof. exact @inserted_served. Qed.
Print Assumptions C39_inserted_is_served.
Example C39_case : seen (run ET [Lookup 1 1; Find 1 1] ins2) =
  ([Returned (RVal 11); Returned (ROpt (Some (1, 11)))], Alive).
Proof. vm_compute. reflexivity. Qed.

(** C40.  Refuted: the element stays as old as it was. *)
Definition jump : env nat nat := ex_env (fun n => nth n [0]%Z 100%Z).
Theorem C40_reinsertion_refuted : exists (E : env nat nat) w w1 w2, good E /\ reachable E w /\
  ttl_of 0 w (Some 10%Z) /\ capacity_is E 0 w 3 /\
  (forall i, w_reads w <= i -> clock E i = 100%Z) /\ young E 10 100 100 /\
  call E (Insert 0 1 11) w (Returned (RIns false (Some (1, 11)))) w1 /\
  call E (Find 0 1) w1 (Returned (ROpt None)) w2.
Proof.
  exists jump, (world_after jump [New 3 (Some 10%Z); Insert 0 1 10]),
    (world_after jump [New 3 (Some 10%Z); Insert 0 1 10; Insert 0 1 11]),
    (world_after jump [New 3 (Some 10%Z); Insert 0 1 10; Insert 0 1 11; Find 0 1]).
  split; [apply ex_good|]. split; [reached|]. split; [eexists; split; vm_compute; reflexivity|].
  split; [vm_compute; reflexivity|]. split.
  - intros [|[|i]] H; vm_compute in H; [lia|reflexivity|reflexivity].
  - split; [vm_compute; discriminate|]. split; vm_compute; reflexivity.
Qed.
Print Assumptions C40_reinsertion_refuted.
(** ... proved when no element for the key is present. *)
Theorem C40_new_partial : forall (K V : Type) (E : env K V), good E ->
  forall w0 o0 oc0 w1 c k v d, puts c k v o0 -> reachable E w0 -> call E o0 w0 oc0 w1 ->
  absent E k c w0 -> present E k c w1 -> ttl_of c w1 (Some d) ->
  forall o oc w2, asks o = Some (c, k) -> call E o w1 oc w2 ->
  (served o oc c k <-> forall i, during w1 w2 i -> young E d (clock E (w_reads w0)) (clock E i)).
Proof. exact @inserted_fresh. Qed.
Print Assumptions C40_new_partial.

(** C41.  Refuted: an expired element behind one that has not expired, in order
    of use, is not removed. *)
Theorem C41_exact_refuted : exists (E : env nat nat) w w', good E /\ reachable E w /\ timed w 0 = true /\
  contents E 0 w [(2, 20); (1, 10)] /\ old E 0 w 1 (clock E (w_reads w)) /\
  call E (ClearExpired 0) w (Returned (RNat 0)) w' /\ contents E 0 w' [(2, 20); (1, 10)].
Proof.
  exists late, mixed, (world_after late [New 3 (Some 10%Z); Insert 0 1 10; Insert 0 2 20; Find 0 1; ClearExpired 0]).
  split; [apply ex_good|]. split; [apply mixed_reachable|]. split; [vm_compute; reflexivity|]. split; [apply mixed_contents|].
  split; [apply mixed_1|]. split; vm_compute; reflexivity.
Qed.
Print Assumptions C41_exact_refuted.
(** ... what it does: the j-th element is checked by the j-th clock reading, and
    removal stops at the first element that has not expired. *)
Theorem C41_prefix_partial : forall (K V : Type) (E : env K V), good E ->
  forall w c l n, reachable E w -> timed w c = true -> contents E c w l -> capacity_is E c w n ->
  exists gone rest w', l = gone ++ rest /\ exec E (ClearExpired c) w = Val (RNat (length gone)) w' /\
    contents E c w' rest /\ capacity_is E c w' n /\
    (forall j p, nth_error gone j = Some p -> during w w' (w_reads w + j) /\ old E c w (fst p) (clock E (w_reads w + j))) /\
    match rest with
    | [] => w_reads w' = w_reads w + length gone
    | p :: _ => w_reads w' = S (w_reads w + length gone) /\ ~ old E c w (fst p) (clock E (w_reads w + length gone))
    end.
Proof. exact @clear_expired_prefix. Qed.
Print Assumptions C41_prefix_partial.
(** ... exact if order of use is order of insertion. *)
Theorem C41_exact_partial : forall (K V : Type) (E : env K V), good E ->
  forall w c l n, monotone_time E -> reachable E w -> timed w c = true -> contents E c w l -> capacity_is E c w n ->
  in_age_order E c w l ->
  exists gone rest w', l = gone ++ rest /\ exec E (ClearExpired c) w = Val (RNat (length gone)) w' /\
    contents E c w' rest /\ capacity_is E c w' n /\
    (forall p, In p gone -> old E c w (fst p) (clock E (w_reads w' - 1))) /\
    (forall p, In p rest -> ~ old E c w (fst p) (clock E (w_reads w' - 1))).
Proof. exact @clear_expired_exact. Qed.
Print Assumptions C41_exact_partial.
(** ... which is the case if every element is inserted once and never used again. *)
Theorem C41_age_order : forall (K V : Type) (E : env K V), good E ->
  forall w0 o c ttl cap w1 ops outs w l, monotone_time E -> reachable E w0 -> builds (Some ttl) o cap [] ->
  call E o w0 (Returned (RNat c)) w1 -> forallb copy_free ops = true -> run E ops w1 = Finished outs w ->
  inserts_only c ops outs = true -> contents E c w l -> in_age_order E c w l.
Proof. exact @inserted_order. Qed.
Print Assumptions C41_age_order.
Definition C41_ops : list (op nat nat) :=
  [Insert 0 1 10; Insert 0 2 20; Insert 0 3 30; Insert 0 4 40; Find 0 9; Erase 0 3; HasExpired 0 2; HasExpired 0 2].
Definition C41_outs : list (outcome nat nat) :=
  match run ET (New 3 (Some 4%Z) :: C41_ops) init_world with Finished (_ :: t) _ => t | _ => [] end.
Definition C41_world := world_after ET (New 3 (Some 4%Z) :: C41_ops).
Lemma monotone_ET : monotone_time ET.
Proof. split; simpl; unfold ticking; lia. Qed.
Example C41_case : monotone_time ET /\ builds (Some 4%Z) (New 3 (Some 4%Z) : op nat nat) 3 [] /\
  call ET (New 3 (Some 4%Z)) init_world (Returned (RNat 0)) (world_after ET [New 3 (Some 4%Z)]) /\
  run ET C41_ops (world_after ET [New 3 (Some 4%Z)]) = Finished C41_outs C41_world /\
  inserts_only 0 C41_ops C41_outs = true /\ contents ET 0 C41_world [(2, 20); (4, 40)] /\
  fst (seen (run ET [ClearExpired 0; Ordered 0] C41_world)) = [Returned (RNat 1); Returned (REnts [(4, 40)])].
Proof. split; [apply monotone_ET|]. split; [constructor|]. ands; vm_compute; reflexivity. Qed.

(** C42.  Refuted: only the most recently used element is looked at. *)
Theorem C42_all_refuted : exists (E : env nat nat) w w', good E /\ reachable E w /\ timed w 0 = true /\
  contents E 0 w [(2, 20); (1, 10)] /\ ~ old E 0 w 2 (clock E (w_reads w)) /\
  call E (AllExpired 0) w (Returned (RBool true)) w'.
Proof.
  exists late, mixed, (world_after late [New 3 (Some 10%Z); Insert 0 1 10; Insert 0 2 20; Find 0 1; AllExpired 0]).
  split; [apply ex_good|]. split; [apply mixed_reachable|]. split; [vm_compute; reflexivity|]. split; [apply mixed_contents|].
  split; [apply mixed_2|]. vm_compute; reflexivity.
Qed.
Print Assumptions C42_all_refuted.
(** ... what it does (in particular, false is always right). *)
Theorem C42_last_partial : forall (K V : Type) (E : env K V), good E ->
  forall w c l, reachable E w -> timed w c = true -> contents E c w l ->
  exists b w', exec E (AllExpired c) w = Val (RBool b) w' /\
    (b = true <-> forall l0 p, l = l0 ++ [p] -> old E c w (fst p) (clock E (w_reads w))).
Proof. exact @all_expired_last. Qed.
Print Assumptions C42_last_partial.
(** ... exact if order of use is order of insertion (see C41_age_order). *)
Theorem C42_exact_partial : forall (K V : Type) (E : env K V), good E ->
  forall w c l, reachable E w -> timed w c = true -> contents E c w l -> in_age_order E c w l ->
  exists b w', exec E (AllExpired c) w = Val (RBool b) w' /\
    (b = true <-> forall p, In p l -> old E c w (fst p) (clock E (w_reads w))).
Proof. exact @all_expired_exact. Qed.
Print Assumptions C42_exact_partial.
Example C42_case : timed C41_world 0 = true /\ contents ET 0 C41_world [(2, 20); (4, 40)] /\
  fst (seen (run ET [AllExpired 0; AllExpired 0; AllExpired 0] C41_world)) =
    [Returned (RBool false); Returned (RBool false); Returned (RBool true)].
Proof. ands; vm_compute; reflexivity. Qed.

(** C44.  Refuted. *)
Theorem C44_uniform_refuted : exists (E : env nat nat) w w1 w' w1', good E /\ reachable E w /\ timed w 0 = true /\
  old E 0 w 1 (clock E (w_reads w)) /\ call E (Lookup 0 1) w (Threw KeyExpired) w' /\
  call E (Contains 0 2) w (Returned (RBool true)) w1 /\
  old E 0 w1 1 (clock E (w_reads w1)) /\ call E (Lookup 0 1) w1 (Threw KeyNotFound) w1'.
Proof.
  exists late, mixed, (world_after late [New 3 (Some 10%Z); Insert 0 1 10; Insert 0 2 20; Find 0 1; Contains 0 2]),
    (world_after late [New 3 (Some 10%Z); Insert 0 1 10; Insert 0 2 20; Find 0 1; Lookup 0 1]),
    (world_after late [New 3 (Some 10%Z); Insert 0 1 10; Insert 0 2 20; Find 0 1; Contains 0 2; Lookup 0 1]).
  split; [apply ex_good|]. split; [apply mixed_reachable|]. split; [vm_compute; reflexivity|]. split; [apply mixed_1|].
  split; [vm_compute; reflexivity|]. split; [vm_compute; reflexivity|]. split; [witness|]. vm_compute; reflexivity.
Qed.
Print Assumptions C44_uniform_refuted.
(** ... it always fails, with one of two exceptions, KeyExpired only for the most
    recently used element; find and contains are uniform. *)
Theorem C44_fails_partial : forall (K V : Type) (E : env K V), good E ->
  forall w c k o oc w' l n, reachable E w -> contents E c w l -> capacity_is E c w n ->
  asks o = Some (c, k) -> old E c w k (clock E (w_reads w)) -> call E o w oc w' ->
  match o with
  | Find _ _ => oc = Returned (ROpt None)
  | Contains _ _ => oc = Returned (RBool false)
  | Lookup _ _ | Write _ _ _ => oc = Threw KeyNotFound \/ (oc = Threw KeyExpired /\ is_newest E k l)
  | _ => oc = Threw InvalidIterator
  end.
Proof. intros. eapply expired_access; eauto. Qed.
Print Assumptions C44_fails_partial.
(** ... and it depends on the call before in one way only: after a call that
    inserted or found an element, a lookup of an expired element throws KeyExpired
    if it is for the same key, and KeyNotFound otherwise. *)
Theorem C44_after_partial : forall (K V : Type) (E : env K V), good E ->
  forall w o oc c k w1 l1 j oc2 w2, reachable E w -> call E o w oc w1 -> touched o oc = Some (c, k) ->
  contents E c w1 l1 -> old E c w1 j (clock E (w_reads w1)) -> call E (Lookup c j) w1 oc2 w2 ->
  oc2 = Threw (if key_equal E j k then KeyExpired else KeyNotFound).
Proof. exact @expired_after. Qed.
Print Assumptions C44_after_partial.
Definition C44_ops : list (op nat nat) := [New 3 (Some 10%Z); Insert 0 1 10; Insert 0 2 20; Find 0 1].
Example C44_case : reachable late (world_after late (C44_ops ++ [Contains 0 2])) /\
  old late 0 (world_after late (C44_ops ++ [Contains 0 2])) 1 (clock late (w_reads (world_after late (C44_ops ++ [Contains 0 2])))) /\
  touched (Contains 0 2 : op nat nat) (Returned (RBool true)) = Some (0, 2) /\
  contents late 0 (world_after late (C44_ops ++ [Contains 0 2])) [(1, 10); (2, 20)] /\
  call late (Lookup 0 1) (world_after late (C44_ops ++ [Contains 0 2])) (Threw KeyNotFound)
    (world_after late (C44_ops ++ [Contains 0 2; Lookup 0 1])) /\
  call late (Lookup 0 1) (world_after late C44_ops) (Threw KeyExpired) (world_after late (C44_ops ++ [Lookup 0 1])).
Proof. split; [reached|]. split; [witness|]. ands; vm_compute; reflexivity. Qed.

(** C45.  Refuted for ordered iterators. *)
Theorem C45_ordered_refuted : exists (E : env nat nat) w w', good E /\ reachable E w /\ timed w 0 = true /\
  contents E 0 w [(2, 20); (1, 10)] /\ old E 0 w 1 (clock E (w_reads w)) /\
  call E (EraseOrdered 0 1) w (Threw KeyExpired) w' /\ contents E 0 w' [(2, 20); (1, 10)].
Proof.
  exists late, mixed, (world_after late [New 3 (Some 10%Z); Insert 0 1 10; Insert 0 2 20; Find 0 1; EraseOrdered 0 1]).
  split; [apply ex_good|]. split; [apply mixed_reachable|]. split; [vm_compute; reflexivity|]. split; [apply mixed_contents|].
  split; [apply mixed_1|]. split; vm_compute; reflexivity.
Qed.
Print Assumptions C45_ordered_refuted.
Theorem C45_ordered_partial : forall (K V : Type) (E : env K V), good E ->
  forall w c l n i, reachable E w -> contents E c w l -> capacity_is E c w n ->
  match nth_error l i with
  | None => exists w', exec E (EraseOrdered c i) w = Exc InvalidIterator w' /\ contents E c w' l /\ capacity_is E c w' n
  | Some p => (~ old E c w (fst p) (clock E (w_reads w)) ->
               exists w', exec E (EraseOrdered c i) w = Val RUnit w' /\ contents E c w' (without E (fst p) l) /\ capacity_is E c w' n) /\
              (old E c w (fst p) (clock E (w_reads w)) ->
               exists w', exec E (EraseOrdered c i) w = Exc KeyExpired w' /\ contents E c w' l /\ capacity_is E c w' n)
  end.
Proof. exact @erase_at. Qed.
Print Assumptions C45_ordered_partial.
(** ... proved for unordered iterators (whether expired or not). *)
Theorem C45_unordered : forall (K V : Type) (E : env K V), good E ->
  forall w c l n u i, reachable E w ->
  contents E c w l -> capacity_is E c w n -> exec E (Unordered c) w = Val (REnts u) w ->
  match nth_error u i with
  | Some (k, _) => exists w', exec E (EraseUnordered c i) w = Val RUnit w' /\
      contents E c w' (without E k l) /\ capacity_is E c w' n
  | None => exists w', exec E (EraseUnordered c i) w = Exc InvalidIterator w' /\
      contents E c w' l /\ capacity_is E c w' n
  end.
Proof. exact @erase_unordered. Qed.
Print Assumptions C45_unordered.
Example C45_case : exec late (Unordered 0) mixed = Val (REnts [(2, 20); (1, 10)]) mixed /\
  old late 0 mixed 1 (clock late (w_reads mixed)) /\
  fst (seen (run late [EraseUnordered 0 1; Ordered 0] mixed)) = [Returned RUnit; Returned (REnts [(2, 20)])].
Proof. split; [vm_compute; reflexivity|]. split; [apply mixed_1|vm_compute; reflexivity]. Qed.

(** C59.  Ages are counted in whole units [u], rounded towards zero. *)
Theorem C59_precision : forall (K V : Type) (E : env K V), good E ->
  forall u, (0 < u)%Z -> (forall z, dcast E z = Z.quot z u) ->
  forall w0 o0 oc0 w1 c0 k v, puts c0 k v o0 -> reachable E w0 -> call E o0 w0 oc0 w1 ->
  absent E k c0 w0 -> present E k c0 w1 -> timed w1 c0 = true ->
  forall ops c w2 d, kept E k c0 w1 ops c w2 -> ttl_of c w2 (Some d) -> (0 <= d)%Z ->
  forall o oc w3, asks o = Some (c, k) -> call E o w2 oc w3 ->
  (forall i, during w2 w3 i -> 0 <= clock E i - clock E (w_reads w0))%Z ->
  (served o oc c k <-> forall i, during w2 w3 i -> (clock E i - clock E (w_reads w0) < (d + 1) * u)%Z).
Proof. exact @precision. Qed.
Print Assumptions C59_precision.
(** Time to live two units of 1000; found at age 2999, expired at age 3000. *)
Definition unit_env (clk : nat -> Z) : env nat nat :=
  MkEnv Nat.eqb Nat.eqb Nat.eqb (fun l n => n :: l) (fun _ => false)
        clk (fun z => Z.quot z 1000) (Some 7) true (fun _ => false) quiet_cb.
Example C59_case :
  fst (seen (run (unit_env (fun n => nth n [0; 2999; 3000]%Z 0%Z)) [New 3 (Some 2%Z); Insert 0 1 10; Find 0 1; Find 0 1] init_world)) =
    [Returned (RNat 0); Returned (RIns true (Some (1, 10))); Returned (ROpt (Some (1, 10))); Returned (ROpt None)].
Proof. vm_compute. reflexivity. Qed.

(** C60. *)
Theorem C60_expired_access : forall (K V : Type) (E : env K V), good E ->
  forall w c k o oc w' l n, reachable E w -> contents E c w l -> capacity_is E c w n ->
  asks o = Some (c, k) -> old E c w k (clock E (w_reads w)) -> call E o w oc w' ->
  contents E c w' l /\ capacity_is E c w' n.
Proof. intros K V E G w c k o oc w' l n H1 H2 H3 H4 H5 H6. destruct (expired_access G H1 H2 H3 H4 H5 H6) as (A & B & _). exact (conj A B). Qed.
Print Assumptions C60_expired_access.
Theorem C60_eviction : forall (K V : Type) (E : env K V), good E ->
  forall w c k v o p l, puts c k v o -> reachable E w ->
  contents E c w (p :: l) -> capacity_is E c w (length (p :: l)) -> look E k (p :: l) = None ->
  exists w', exec E o w = Val (RIns true (Some (k, v))) w' /\
    contents E c w' (l ++ [(k, v)]) /\ capacity_is E c w' (length (p :: l)).
Proof. exact @put_full. Qed.
Print Assumptions C60_eviction.
Example C60_case : old late 0 mixed 1 (clock late (w_reads mixed)) /\
  fst (seen (run late [Contains 0 1; Lookup 0 1; Size 0; SetCapacity 0 2; Insert 0 3 30; Ordered 0] mixed)) =
    [Returned (RBool false); Threw KeyExpired; Returned (RNat 2); Returned RUnit; Returned (RIns true (Some (3, 30)));
     Returned (REnts [(1, 10); (3, 30)])].
Proof. split; [apply mixed_1|vm_compute; reflexivity]. Qed.

(** C62. *)
Theorem C62_everlasting : forall (K V : Type) (E : env K V), good E ->
  forall ops, forallb plain ops = true -> forallb common ops = true -> everlasting E ops ->
  alike init_world init_world (run E ops init_world) (run E (map untime ops) init_world).
Proof. exact @everlasting_alike. Qed.
Print Assumptions C62_everlasting.
Definition C62_ops : list (op nat nat) :=
  [New 2 (Some 5%Z); AddAccess 0 1; MonitorNew 0 [1]; Insert 0 1 10; NewFrom 3 (Some 9%Z) [(4, 40); (5, 50)]; Lookup 0 1;
   Insert 0 2 20; Swap 0 1; Contains 1 1; EntryAt 0 1; Insert 1 3 30; Ordered 1; StatsFor 0 1; Lookup 1 2].
Definition E6 : env nat nat := ex_env (fun n => Z.of_nat (Nat.min n 5)).
Example C62_case : forallb plain C62_ops = true /\ forallb common C62_ops = true /\ everlasting E6 C62_ops /\
  fst (seen (run E6 C62_ops init_world)) =
    [Returned (RNat 0); Returned RUnit; Returned (RNat 0); Returned (RIns true (Some (1, 10))); Returned (RNat 1); Returned (RVal 10);
     Returned (RIns true (Some (2, 20))); Returned RUnit; Returned (RBool true); Returned (ROpt (Some (5, 50)));
     Returned (RIns true (Some (3, 30))); Returned (REnts [(1, 10); (3, 30)]); Returned (RKeyStats 1 0 1); Threw KeyNotFound].
Proof.
  split; [reflexivity|]. split; [reflexivity|]. split; [|vm_compute; reflexivity].
  intros o t I Q. assert (X : t = Some 5%Z \/ t = Some 9%Z).
  { simpl in I. repeat (destruct I as [<-|I]; [simpl in Q; try discriminate; inversion Q; auto|]). easy. }
  destruct X as [->| ->]; eexists; (split; [reflexivity|]); intros i j; unfold young; simpl; lia.
Qed.
