(** Property theorems: calls by keys that were inserted into a cache itself, in histories
    in which caches may be copied. *)
From Coq Require Import List Arith ZArith Bool.
Import ListNotations.
From Verif Require Import Monad Types Model Api EnvEx Spec ExBase SpecAny SpecOwn AnyMore AnyOwnCalls Props4 Props27.

(** C106.  Whatever calls a program has made, copies of caches included: after keys were inserted into a cache (a copy,
    or one that was copied), or, for all keys, after it was emptied or constructed, find, insert, emplace, erase, contains and lookup by these keys are well defined, ... *)
Theorem C106_defined : forall (K V : Type) (E : env K V), good E ->
  forall w c ks o, since E c ks w -> uses c ks w o -> exists r w', call E o w r w'.
Proof. exact @own_defined. Qed.
Print Assumptions C106_defined.
(** ... find(), contains() and lookup() give the element and make it the most recently used one, ... *)
Theorem C106_find : forall (K V : Type) (E : env K V), good E ->
  forall w c ks k p l n, since E c ks w -> In k ks -> ttl_of c w None -> coherent E c w l n -> look E k l = Some p ->
  exists w', exec E (Find c k) w = Val (ROpt (Some p)) w' /\ coherent E c w' (without E k l ++ [p]) n /\
    forall d ld nd, d <> c -> coherent E d w ld nd -> coherent E d w' ld nd.
Proof. exact @own_find. Qed.
Print Assumptions C106_find.
Theorem C106_contains : forall (K V : Type) (E : env K V), good E ->
  forall w c ks k p l n, since E c ks w -> In k ks -> ttl_of c w None -> coherent E c w l n -> look E k l = Some p ->
  exists w', exec E (Contains c k) w = Val (RBool true) w' /\ coherent E c w' (without E k l ++ [p]) n /\
    forall d ld nd, d <> c -> coherent E d w ld nd -> coherent E d w' ld nd.
Proof. exact @own_contains. Qed.
Print Assumptions C106_contains.
Theorem C106_lookup : forall (K V : Type) (E : env K V), good E ->
  forall w c ks k p l n, since E c ks w -> In k ks -> ttl_of c w None -> coherent E c w l n -> look E k l = Some p ->
  exists w', exec E (Lookup c k) w = Val (RVal (snd p)) w' /\ coherent E c w' (without E k l ++ [p]) n /\
    forall d ld nd, d <> c -> coherent E d w ld nd -> coherent E d w' ld nd.
Proof. exact @own_lookup. Qed.
Print Assumptions C106_lookup.
(** ... insert and emplace replace the value, and erase removes the element; no other cache changes. *)
Theorem C106_put : forall (K V : Type) (E : env K V), good E ->
  forall w c ks k v o p l n, since E c ks w -> In k ks -> puts c k v o -> coherent E c w l n -> look E k l = Some p ->
  exists w', exec E o w = Val (RIns false (Some (fst p, v))) w' /\ coherent E c w' (without E k l ++ [(fst p, v)]) n /\
    forall d ld nd, d <> c -> coherent E d w ld nd -> coherent E d w' ld nd.
Proof. exact @own_put. Qed.
Print Assumptions C106_put.
Theorem C106_erase : forall (K V : Type) (E : env K V), good E ->
  forall w c ks k l n, since E c ks w -> In k ks -> coherent E c w l n ->
  exists w', exec E (Erase c k) w = Val (RBool (has E k l)) w' /\ coherent E c w' (without E k l) n /\
    forall d ld nd, d <> c -> coherent E d w ld nd -> coherent E d w' ld nd.
Proof. exact @own_erase. Qed.
Print Assumptions C106_erase.

(** A copy into which two keys were inserted, the first of them found and the second overwritten since; a key was also
    inserted into the original. *)
Definition own_ops : list (op nat nat) := full_ops ++ [Copy 0; Insert 1 7 70; Emplace 1 8 80; Insert 0 9 90; Find 1 7; Insert 1 8 81].
Definition own_world : world nat nat := world_after E0 own_ops.
Definition upto (n : nat) : world nat nat := world_after E0 (firstn n own_ops).
Example C106_case : since E0 1 [8; 7] own_world /\ ttl_of 1 own_world None /\ coherent E0 1 own_world [(2, 20); (7, 70); (8, 81)] 3 /\
  look E0 7 [(2, 20); (7, 70); (8, 81)] = Some (7, 70) /\ exec E0 (Lookup 1 2) own_world = Undef ForeignListIterator /\
  uses 1 [8; 7] own_world (Lookup 1 7).
Proof.
  set (m := length full_ops).
  assert (A1 : attained E0 (upto (m + 1))) by (apply after_attained; vm_compute; reflexivity).
  assert (S1 : since E0 1 [7] (upto (m + 2))).
  { eapply since_first with (o := Insert 1 7 70); [exact A1| |vm_compute; reflexivity].
    eexists 70, _, _. split; [constructor|]. split; [vm_compute; reflexivity|]. split; [vm_compute; reflexivity|]. split; [repeat constructor|vm_compute; reflexivity]. }
  assert (S2 : since E0 1 [8; 7] (upto (m + 3))).
  { eapply since_more with (o := Emplace 1 8 80); [exact S1| |vm_compute; reflexivity].
    eexists 80, _, _. split; [constructor|]. split; [vm_compute; reflexivity|]. split; [vm_compute; reflexivity|]. split; [repeat constructor|vm_compute; reflexivity]. }
  assert (S3 : since E0 1 [8; 7] (upto (m + 4))).
  { eapply since_other with (o := Insert 0 9 90) (d := 0); [exact S2|discriminate| |vm_compute; reflexivity].
    eexists 90, _, _. split; [constructor|]. split; [vm_compute; reflexivity|]. split; [vm_compute; reflexivity|]. split; [repeat constructor|vm_compute; reflexivity]. }
  assert (S4 : since E0 1 [8; 7] (upto (m + 5))).
  { eapply since_use with (o := Find 1 7) (d := 1); [exact S3|exact S3|apply use_find; simpl; auto|].
    instantiate (1 := Returned (ROpt (Some (7, 70)))). vm_compute; reflexivity. }
  assert (S5 : since E0 1 [8; 7] own_world).
  { eapply since_use with (o := Insert 1 8 81) (d := 1); [exact S4|exact S4|eapply use_put with (k := 8); [simpl; auto|constructor]|].
    instantiate (1 := Returned (RIns false (Some (8, 81)))). vm_compute; reflexivity. }
  assert (T : ttl_of 1 own_world None) by (eexists; split; [vm_compute; reflexivity|reflexivity]).
  split; [exact S5|]. split; [exact T|].
  split; [apply coherent_of; [apply ex_good|apply after_attained; vm_compute; reflexivity|vm_compute; reflexivity|vm_compute; reflexivity]|].
  split; [vm_compute; reflexivity|]. split; [vm_compute; reflexivity|]. apply use_lookup; [simpl; auto|exact T].
Qed.

(** A copy that was emptied and then used; the original was copied again, a new cache was made and the other copy destroyed. *)
Definition emptied_ops : list (op nat nat) := full_ops ++ [Copy 0; Clear 1; Insert 1 2 21; Copy 0; New 4 None; CopyAssign 2 1; Destroy 2].
Definition emptied : world nat nat := world_after E0 emptied_ops.
Definition at_step (n : nat) : world nat nat := world_after E0 (firstn n emptied_ops).
Example C106_case_emptied : (forall ks : list nat, since E0 1 (2 :: ks) emptied) /\ coherent E0 1 emptied [(2, 21)] 3 /\
  exec E0 (Erase 1 2) (world_after E0 (full_ops ++ [Copy 0])) = Undef ForeignListIterator /\
  (exists w', exec E0 (Erase 1 2) emptied = Val (RBool true) w').
Proof.
  set (m := length full_ops).
  split.
  - intros ks.
    assert (S1 : since E0 1 ks (at_step (m + 2))).
    { eapply since_clear with (w := at_step (m + 1)); [apply after_attained; vm_compute; reflexivity|vm_compute; reflexivity|repeat constructor|vm_compute; reflexivity]. }
    assert (S2 : since E0 1 (2 :: ks) (at_step (m + 3))).
    { eapply since_more with (o := Insert 1 2 21); [exact S1| |vm_compute; reflexivity].
      eexists 21, _, _. split; [constructor|]. split; [vm_compute; reflexivity|]. split; [vm_compute; reflexivity|]. split; [repeat constructor|vm_compute; reflexivity]. }
    assert (S3 : since E0 1 (2 :: ks) (at_step (m + 4))) by (eapply since_else with (o := Copy 0); [exact S2|constructor|vm_compute; reflexivity]).
    assert (S4 : since E0 1 (2 :: ks) (at_step (m + 5))) by (eapply since_else with (o := New 4 None); [exact S3|constructor|vm_compute; reflexivity]).
    assert (S5 : since E0 1 (2 :: ks) (at_step (m + 6))) by (eapply since_else with (o := CopyAssign 2 1); [exact S4|constructor; discriminate|vm_compute; reflexivity]).
    eapply since_else with (o := Destroy 2); [exact S5|constructor; discriminate|vm_compute; reflexivity].
  - split; [apply coherent_of; [apply ex_good|apply after_attained; vm_compute; reflexivity|vm_compute; reflexivity|vm_compute; reflexivity]|].
    split; [vm_compute; reflexivity|]. eexists. vm_compute; reflexivity.
Qed.
