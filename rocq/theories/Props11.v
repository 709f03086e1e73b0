(** Property theorems: failing allocations, and callbacks that throw or use the
    cache. *)
From Coq Require Import List Arith ZArith Bool.
Import ListNotations.
From Verif Require Import Monad Types Model Api EnvEx Spec SpecStats SpecFault ExBase FaultEx FaultMain.

(** C53.  If a step of a call runs out of memory and the caches it names still
    show as many elements as their size, nothing is undefined afterwards, however
    many failures there were before.  This is not the case after every failure:
    see [C53_failed_partial] and [C53_refuted]. *)
Theorem C53_usable_partial : forall K V (E : env K V) w o, fair E -> only_throws E -> survives E w ->
  copy_free o = true -> defined E o w.
Proof. exact usable. Qed.
Print Assumptions C53_usable_partial.

(** What a failed insertion does: the other caches and all capacities are
    unaffected; the cache is as before, or the element with the key has become the
    most recent; or the cache was not full, the key was absent, and now size()
    counts an element too many, which cannot be seen, and erasing its key is
    undefined. *)
Theorem C53_failed_partial : forall K V (E : env K V) w o c k v e w', fair E -> only_throws E -> survives E w ->
  o = Insert c k v \/ o = Emplace c k v -> call E o w (Threw e) w' ->
  e = BadAlloc /\
  (forall d l, d <> c -> contents E d w l -> contents E d w' l) /\
  (forall d n, capacity_is E d w n -> capacity_is E d w' n) /\
  forall l, contents E c w l ->
    ((contents E c w' l \/
      exists l1 p l2, l = l1 ++ p :: l2 /\ key_equal E k (fst p) = true /\ contents E c w' (l1 ++ l2 ++ [p])) /\
     size_is E c w' (length l)) \/
    ((forall p, In p l -> key_equal E k (fst p) = false) /\ (exists n, capacity_is E c w n /\ length l < n) /\
     contents E c w' l /\ size_is E c w' (S (length l)) /\ exec E (Erase c k) w' = Undef SingularIterator).
Proof. exact failed_insertion. Qed.
Print Assumptions C53_failed_partial.

(** Cache 0 has room for one more element; cache 1 is another one.  In the next
    insertion, step 8 allocates the map node and step 9 the list node; if the key
    is present, step 8 is the assignment of the value. *)
Definition C53_ops : list (op nat nat) :=
  [New 4 None; New 2 None; Insert 0 1 10; Insert 0 2 20; Insert 0 3 30; Insert 1 5 50; Find 0 2].
Definition C53_after (n : nat) (o : op nat nat) : world nat nat := world_after (failing n) (C53_ops ++ [o]).
Example C53_case : fair (failing 8) /\ only_throws (failing 8) /\ survives (failing 8) (world_after (failing 8) C53_ops) /\
  contents E0 0 (world_after (failing 8) C53_ops) [(1, 10); (3, 30); (2, 20)] /\
  (* nothing happened *)
  call (failing 8) (Insert 0 4 40) (world_after (failing 8) C53_ops) (Threw BadAlloc) (C53_after 8 (Insert 0 4 40)) /\
  survives (failing 8) (C53_after 8 (Insert 0 4 40)) /\
  contents E0 0 (C53_after 8 (Insert 0 4 40)) [(1, 10); (3, 30); (2, 20)] /\
  (* the element moved *)
  call (failing 8) (Insert 0 1 11) (world_after (failing 8) C53_ops) (Threw BadAlloc) (C53_after 8 (Insert 0 1 11)) /\
  survives (failing 8) (C53_after 8 (Insert 0 1 11)) /\
  contents E0 0 (C53_after 8 (Insert 0 1 11)) [(3, 30); (2, 20); (1, 10)] /\
  (* an element that cannot be seen *)
  call (failing 9) (Insert 0 4 40) (world_after (failing 9) C53_ops) (Threw BadAlloc) (C53_after 9 (Insert 0 4 40)) /\
  contents E0 0 (C53_after 9 (Insert 0 4 40)) [(1, 10); (3, 30); (2, 20)] /\
  size_is E0 0 (C53_after 9 (Insert 0 4 40)) 4 /\
  exec (failing 9) (Erase 0 4) (C53_after 9 (Insert 0 4 40)) = Undef SingularIterator.
Proof.
  split; [apply failing_fair|]. split; [apply failing_throws|]. split; [survived|].
  assert (S : survives (failing 8) (world_after (failing 8) C53_ops)) by survived.
  split; [vm_compute; reflexivity|]. split; [vm_compute; reflexivity|]. split.
  { eapply survives_call with (r := Threw BadAlloc) (o := Insert 0 4 40); [exact S|reflexivity|vm_compute; reflexivity|].
    intros _ c [<-|[]]. exists [(1, 10); (3, 30); (2, 20)]. split; vm_compute; reflexivity. }
  split; [vm_compute; reflexivity|]. split; [vm_compute; reflexivity|]. split.
  { eapply survives_call with (r := Threw BadAlloc) (o := Insert 0 1 11); [exact S|reflexivity|vm_compute; reflexivity|].
    intros _ c [<-|[]]. exists [(3, 30); (2, 20); (1, 10)]. split; vm_compute; reflexivity. }
  ands; vm_compute; reflexivity.
Qed.

(** After a failed insertion the size can be wrong, and every later call with that
    key be undefined. *)
Theorem C53_refuted : exists (E : env nat nat) w w' c k v, fair E /\ only_throws E /\ survives E w /\
  call E (Insert c k v) w (Threw BadAlloc) w' /\
  exec E (Erase c k) w' = Undef SingularIterator /\
  exec E (Find c k) w' = Undef SingularIterator /\
  exec E (Contains c k) w' = Undef SingularIterator /\
  exec E (Lookup c k) w' = Undef SingularIterator /\
  exec E (Insert c k v) w' = Undef SingularIterator /\
  exists n, size_is E c w n /\ size_is E c w' (S n).
Proof.
  exists (failing 9), (world_after (failing 9) C53_ops), (C53_after 9 (Insert 0 4 40)), 0, 4, 40.
  split; [apply failing_fair|]. split; [apply failing_throws|]. split; [survived|].
  split; [vm_compute; reflexivity|]. split; [vm_compute; reflexivity|]. split; [vm_compute; reflexivity|].
  split; [vm_compute; reflexivity|]. split; [vm_compute; reflexivity|]. split; [vm_compute; reflexivity|].
  exists 3. split; vm_compute; reflexivity.
Qed.
Print Assumptions C53_refuted.

(** If the assignment of the value fails, the element has become the most recent
    one, but the cache still takes the previously most recent one for it: looking
    that one up then no longer makes it the most recent. *)
Theorem C53_order_refuted : exists (E : env nat nat) w w' w'' c k v k2 v2 l, fair E /\ only_throws E /\ survives E w /\
  call E (Insert c k v) w (Threw BadAlloc) w' /\ survives E w' /\
  call E (Lookup c k2) w' (Returned (RVal v2)) w'' /\
  contents E c w'' (l ++ [(k2, v2); (k, 10)]).
Proof.
  exists (failing 8), (world_after (failing 8) C53_ops), (C53_after 8 (Insert 0 1 11)),
    (world_after (failing 8) (C53_ops ++ [Insert 0 1 11; Lookup 0 2])), 0, 1, 11, 2, 20, [(3, 30)].
  split; [apply failing_fair|]. split; [apply failing_throws|]. split; [survived|].
  split; [vm_compute; reflexivity|]. split; [apply C53_case|]. split; vm_compute; reflexivity.
Qed.
Print Assumptions C53_order_refuted.

(** C54.  [t] says which callbacks throw.  Let [evs] be the events the access
    would report if no callback threw.  If none of them throws, the call is the
    same as if callbacks could not throw.  Otherwise the first to throw ends the
    call, its exception reaches the caller, no further callback is called, the
    contents, order, size and capacity of every cache are as before, the access
    has been counted as what the event said it was, and all statistics are what
    they would be if no callback had thrown.  Every later call is defined
    ([C54_usable]). *)
Theorem C54_exception : forall K V (E : env K V) t w o c k r w'', fair E -> survives (throwing t E) w ->
  asks o = Some (c, k) -> call (throwing (fun _ _ => None) E) o w r w'' ->
  exists evs, w_log w'' = w_log w ++ evs /\
    (lets_pass t (w_log w) evs -> call (throwing t E) o w r w'') /\
    forall e1 ev e2 n, evs = e1 ++ ev :: e2 -> lets_pass t (w_log w) e1 -> t ev (w_log w ++ e1 ++ [ev]) = Some n ->
      exists w', call (throwing t E) o w (Threw (UserExn n)) w' /\ w_log w' = w_log w ++ e1 ++ [ev] /\
        (forall d l, contents E d w l -> contents E d w' l) /\
        (forall d i, size_is E d w i -> size_is E d w' i) /\
        (forall d i, capacity_is E d w i -> capacity_is E d w' i) /\
        (forall x, totals_are E c w x -> totals_are E c w' (counts (snd (about ev)) x)) /\
        (forall qs, Forall (fun q => uses_stats q <> None) qs -> seen (run E qs w') = seen (run E qs w'')).
Proof. exact throwing_access. Qed.
Print Assumptions C54_exception.

Theorem C54_usable : forall K V (E : env K V) t w o, fair E -> survives (throwing t E) w -> copy_free o = true ->
  defined (throwing t E) o w.
Proof. exact throwing_usable. Qed.
Print Assumptions C54_usable.

(** Two hit callbacks and an access callback; the second hit callback throws. *)
Definition C54_ops : list (op nat nat) :=
  [New 3 None; Insert 0 1 10; Insert 0 2 20; MonitorNew 0 [1]; AddHit 0 0; AddHit 0 1; AddAccess 0 2].
Definition C54_t (ev : cbevent nat nat) (log : list (cbevent nat nat)) : option nat :=
  match ev with EvHit 1 _ _ => Some 9 | _ => None end.
Definition C54_w : world nat nat := world_after (throwing C54_t E0) C54_ops.
Definition C54_w' : world nat nat := world_after (throwing C54_t E0) (C54_ops ++ [Find 0 1]).
Example C54_case : fair E0 /\ survives (throwing C54_t E0) C54_w /\ asks (Find 0 1 : op nat nat) = Some (0, 1) /\
  call (throwing (fun _ _ => None) E0) (Find 0 1) C54_w (Returned (ROpt (Some (1, 10))))
    (world_after E0 (C54_ops ++ [Find 0 1])) /\
  w_log (world_after E0 (C54_ops ++ [Find 0 1])) = [EvHit 0 1 10; EvHit 1 1 10; EvAccess 2 1 true] /\
  call (throwing C54_t E0) (Find 0 1) C54_w (Threw (UserExn 9)) C54_w' /\
  w_log C54_w' = [EvHit 0 1 10; EvHit 1 1 10] /\
  contents E0 0 C54_w [(1, 10); (2, 20)] /\ contents E0 0 C54_w' [(1, 10); (2, 20)] /\
  totals_are E0 0 C54_w (0, 0, 0)%Z /\ totals_are E0 0 C54_w' (1, 1, 0)%Z /\
  (* an access that is not reported to the callback that throws *)
  call (throwing C54_t E0) (Find 0 3) C54_w (Returned (ROpt None)) (world_after E0 (C54_ops ++ [Find 0 3])) /\
  w_log (world_after E0 (C54_ops ++ [Find 0 3])) = [EvAccess 2 3 false].
Proof.
  split; [apply E0_fair|]. split; [survived|]. ands; vm_compute; reflexivity.
Qed.

(** C55.  Callbacks may make any sequence of gentle calls (they construct caches,
    look up and overwrite elements, ask for sizes, traverse, and use statistics)
    on any cache, depending on the outcomes, and may throw: every call is defined,
    at any depth of nesting.  Callbacks that insert, erase or register callbacks
    are missing: see the refutations. *)
Theorem C55_gentle_partial : forall K V (E : env K V) script n w o, fair E ->
  (forall ev log, calls_only gentle (script ev log)) ->
  survives (scripted n script E) w -> copy_free o = true -> defined (scripted n script E) o w.
Proof. exact gentle_usable. Qed.
Print Assumptions C55_gentle_partial.

(** A miss callback that looks up the key below, which may miss in turn, and an
    access callback that writes. *)
Definition C55_script (ev : cbevent nat nat) (log : list (cbevent nat nat)) : prog nat nat :=
  match ev with
  | EvMiss _ (S k) => Then (Find 0 k) (fun r => match r with Returned (ROpt None) => Stop (Some 8) | _ => Stop None end)
  | EvAccess _ k true => Then (Write 1 k 99) (fun _ => Stop None)
  | _ => Stop None
  end.
Definition C55_ops : list (op nat nat) :=
  [New 3 None; New 3 None; Insert 0 1 10; Insert 0 2 20; Insert 1 1 11; AddMiss 0 0; AddAccess 0 1].
Definition C55_w : world nat nat := world_after (scripted 5 C55_script E0) C55_ops.
Example C55_case : fair E0 /\ (forall ev log, calls_only gentle (C55_script ev log)) /\
  survives (scripted 5 C55_script E0) C55_w /\
  call (scripted 5 C55_script E0) (Find 0 4) C55_w (Threw (UserExn 8))
    (world_after (scripted 5 C55_script E0) (C55_ops ++ [Find 0 4])) /\
  w_log (world_after (scripted 5 C55_script E0) (C55_ops ++ [Find 0 4])) =
    [EvMiss 0 4; EvMiss 0 3; EvAccess 1 2 true; EvAccess 1 3 false] /\
  contents E0 1 (world_after (scripted 5 C55_script E0) (C55_ops ++ [Find 0 1])) [(1, 99)].
Proof.
  split; [apply E0_fair|]. split.
  { intros ev log. destruct ev as [? ? ?|? [|k]|? ? []]; simpl; try apply calls_stop.
    - apply calls_then; auto. intros [[]|]; try apply calls_stop. destruct e; apply calls_stop.
    - apply calls_then; auto. intros; apply calls_stop. }
  split; [survived|]. ands; vm_compute; reflexivity.
Qed.

(** A hit callback that makes the call [o] when it is called for the first time. *)
Definition reacting (o : op nat nat) (ev : cbevent nat nat) (log : list (cbevent nat nat)) : prog nat nat :=
  if Nat.eqb (length log) 1 then Then o (fun _ => Stop None) else Stop None.
Definition C55_hit_ops : list (op nat nat) := [New 2 None; Insert 0 1 10; Insert 0 2 20; AddHit 0 0].

(** It erases the key that was found, clears the cache, or inserts another
    element into the full cache (which evicts the one that was found). *)
Theorem C55_erase_refuted : exists (E : env nat nat) w c k, fair E /\
  survives (scripted 3 (reacting (Erase c k)) E) w /\ exec (scripted 3 (reacting (Erase c k)) E) (Find c k) w = Undef DanglingNode.
Proof.
  exists E0, (world_after (scripted 3 (reacting (Erase 0 1)) E0) C55_hit_ops), 0, 1.
  split; [apply E0_fair|]. split; [survived|vm_compute; reflexivity].
Qed.
Print Assumptions C55_erase_refuted.

Theorem C55_insert_refuted : exists (E : env nat nat) w c k k' v, fair E /\
  survives (scripted 3 (reacting (Insert c k' v)) E) w /\
  exec (scripted 3 (reacting (Insert c k' v)) E) (Find c k) w = Undef DanglingNode.
Proof.
  exists E0, (world_after (scripted 3 (reacting (Insert 0 3 30)) E0) C55_hit_ops), 0, 1, 3, 30.
  split; [apply E0_fair|]. split; [survived|vm_compute; reflexivity].
Qed.
Print Assumptions C55_insert_refuted.

(** The cache has room, but the insertion makes the hash table grow. *)
Theorem C55_rehash_refuted : exists (E : env nat nat) w c k k' v n, fair E /\
  survives (scripted 3 (reacting (Insert c k' v)) E) w /\
  size_is E c w n /\ capacity_is E c w (S n) /\
  exec (scripted 3 (reacting (Insert c k' v)) E) (Find c k) w = Undef RehashedIterator.
Proof.
  exists (rehash_env still), (world_after (scripted 3 (reacting (Insert 0 3 30)) (rehash_env still))
    [New 3 None; Insert 0 1 10; Insert 0 2 20; AddHit 0 0]), 0, 1, 3, 30, 2.
  split; [destruct (rehash_good still); constructor; auto|].
  split; [survived|ands; vm_compute; reflexivity].
Qed.
Print Assumptions C55_rehash_refuted.

Theorem C55_register_refuted : exists (E : env nat nat) w c k i, fair E /\
  survives (scripted 3 (reacting (AddHit c i)) E) w /\
  exec (scripted 3 (reacting (AddHit c i)) E) (Find c k) w = Undef VectorInvalidated.
Proof.
  exists E0, (world_after (scripted 3 (reacting (AddHit 0 5)) E0) C55_hit_ops), 0, 1, 5.
  split; [apply E0_fair|]. split; [survived|vm_compute; reflexivity].
Qed.
Print Assumptions C55_register_refuted.
