(** Property theorems: copies. *)
From Coq Require Import List Arith ZArith Bool Permutation Lia.
Import ListNotations.
From Verif Require Import Monad Types Model Api EnvEx Spec SpecPair SpecCopy ExBase CopyMore CopyRun CopyMisuse Settings.

(** The worlds of the examples: cache 0 of [full] is copied to cache 1. *)
Definition twoful : world nat nat := world_after E0 (full_ops ++ [Copy 0]).
Lemma E0_blind : hash_blind E0.
Proof.
  constructor; simpl; auto. intros. constructor; auto. split; auto.
Qed.
Lemma twoful_copies : copies E0 0 1 full twoful.
Proof. apply copies_new. vm_compute. reflexivity. Qed.
Definition lent : world nat nat := world_after E0 (full_ops ++ [New 9 None; Insert 1 7 70; Insert 1 8 80]).
Definition lent_to : world nat nat := world_after E0 (full_ops ++ [New 9 None; Insert 1 7 70; Insert 1 8 80; CopyAssign 1 0]).
Lemma lent_copies : copies E0 0 1 lent lent_to.
Proof. apply copies_assign; [discriminate|]. vm_compute. reflexivity. Qed.

(** C36.  The copy has the elements, their order and insertion times, the capacity,
    the statistics object, the callbacks and the time to live of the original; every
    other cache, the original included, keeps its own, and no statistics changes. *)
Theorem C36_copy_has_the_same : forall (K V : Type) (E : env K V), good E ->
  forall w c d w', reachable E w -> copies E c d w w' ->
  same_elements E c w d w' /\ same_books c w d w' /\
  (forall e, e <> d -> alive w e = true -> same_elements E e w e w' /\ same_books e w e w') /\
  w_stats w' = w_stats w /\ w_log w' = w_log w.
Proof. exact @copy_same. Qed.
Print Assumptions C36_copy_has_the_same.
(** Traversals of the copy, right after the copy. *)
Theorem C36_copy_traversals : forall (K V : Type) (E : env K V), good E ->
  forall w c d w' l, reachable E w -> copies E c d w w' -> contents E c w l ->
  exec E (Ordered d) w' = Val (REnts l) w' /\ exec E (Backward d) w' = Val (REnts (rev l)) w' /\
  (exists u, exec E (Unordered d) w' = Val (REnts u) w' /\ Permutation u l) /\
  exec E (Size d) w' = Val (RNat (length l)) w'.
Proof. exact @copy_traversals. Qed.
Print Assumptions C36_copy_traversals.
Theorem C36_copy_equals : forall (K V : Type) (E : env K V), good E ->
  forall w c d w', equality_good E -> reachable E w -> copies E c d w w' ->
  exec E (Equal d c) w' = Val (RBool true) w' /\ exec E (Equal c d) w' = Val (RBool true) w'.
Proof. exact @copy_equal. Qed.
Print Assumptions C36_copy_equals.
(** Whatever is then done to another cache than the copy goes as without the copy. *)
Theorem C36_original_does_not_notice : forall (K V : Type) (E : env K V), good E -> hash_blind E ->
  forall w c d w' e ops, reachable E w -> copies E c d w w' -> e <> d ->
  forallb (concerns e) ops = true -> alike w w' (run E ops w) (run E ops w').
Proof. exact @copy_unnoticed. Qed.
Print Assumptions C36_original_does_not_notice.
(** Assignment of a cache to itself does nothing at all. *)
Theorem C36_self_assignment : forall (K V : Type) (E : env K V) c w, alive w c = true ->
  exec E (CopyAssign c c) w = Val RUnit w.
Proof. exact @copy_assign_self. Qed.
Print Assumptions C36_self_assignment.
Example C36_case : reachable E0 full /\ copies E0 0 1 full twoful /\ contents E0 0 full [(1, 10); (3, 30); (2, 20)] /\
  equality_good E0 /\ hash_blind E0 /\
  contents E0 1 twoful [(1, 10); (3, 30); (2, 20)] /\
  forallb (concerns 0) [Find 0 1; Insert 0 4 40; Erase 0 2; Shrink 0 1] = true.
Proof.
  split; [exact full_reachable|]. split; [exact twoful_copies|]. split; [exact full_contents|].
  split; [constructor; simpl; auto; try (intros; apply Nat.eqb_refl); try (intros; apply Nat.eqb_sym);
          intros x y z A B; apply Nat.eqb_eq in A, B; subst; apply Nat.eqb_refl|].
  split; [exact E0_blind|]. split; vm_compute; reflexivity.
Qed.
Example C36_assigned : reachable E0 lent /\ copies E0 0 1 lent lent_to /\
  contents E0 1 lent [(7, 70); (8, 80)] /\ contents E0 1 lent_to [(1, 10); (3, 30); (2, 20)].
Proof. split; [reached|]. split; [exact lent_copies|]. split; vm_compute; reflexivity. Qed.

(** C37 is refuted.  Searching a copy for a key it holds is undefined. *)
Theorem C37_usable_refuted : exists (E : env nat nat) w c d w' k p w1,
  good E /\ reachable E w /\ copies E c d w w' /\
  exec E (Find c k) w = Val (ROpt (Some p)) w1 /\ exec E (Find d k) w' = Undef ForeignListIterator.
Proof.
  exists E0, full, 0, 1, twoful, 1, (1, 10). eexists.
  split; [apply ex_good|]. split; [exact full_reachable|]. split; [exact twoful_copies|].
  split; [vm_compute; reflexivity|]. vm_compute. reflexivity.
Qed.
Print Assumptions C37_usable_refuted.
(** Writing through a copy to the element that was accessed last in the original
    changes the original, and not the copy. *)
Theorem C37_independent_refuted : exists (E : env nat nat) w c d w' k v w1,
  good E /\ reachable E w /\ copies E c d w w' /\ exec E (Write d k v) w' = Val RUnit w1 /\
  exists l l1 m, contents E c w' l /\ contents E c w1 l1 /\ l <> l1 /\ contents E d w' m /\ contents E d w1 m.
Proof.
  exists E0, full, 0, 1, twoful, 2, 99. eexists.
  split; [apply ex_good|]. split; [exact full_reachable|]. split; [exact twoful_copies|].
  split; [vm_compute; reflexivity|].
  exists [(1, 10); (3, 30); (2, 20)], [(1, 10); (3, 30); (2, 99)], [(1, 10); (3, 30); (2, 20)].
  split; [vm_compute; reflexivity|]. split; [vm_compute; reflexivity|]. split; [discriminate|]. split; vm_compute; reflexivity.
Qed.
Print Assumptions C37_independent_refuted.
(** After the original erased its last accessed element, reading that key from the
    copy follows a dangling pointer. *)
Theorem C37_dangling_refuted : exists (E : env nat nat) w c d w' k w1,
  good E /\ reachable E w /\ copies E c d w w' /\ exec E (Erase c k) w' = Val (RBool true) w1 /\
  exec E (Contains d k) w1 = Undef DanglingNode.
Proof.
  exists E0, full, 0, 1, twoful, 2. eexists.
  split; [apply ex_good|]. split; [exact full_reachable|]. split; [exact twoful_copies|].
  split; [vm_compute; reflexivity|]. vm_compute. reflexivity.
Qed.
Print Assumptions C37_dangling_refuted.

(** The undefined calls are the rule: right after a copy, finding a key (in a cache
    of two elements or more), inserting a key that is present (likewise), erasing a
    key and shrinking are undefined on the copy. *)
Theorem C37_find_undefined : forall (K V : Type) (E : env K V), good E ->
  forall w w' c d, reachable E w -> copies E c d w w' ->
  forall k p w1 l, exec E (Find c k) w = Val (ROpt (Some p)) w1 -> contents E c w l -> 2 <= length l ->
  exec E (Find d k) w' = Undef ForeignListIterator.
Proof. exact @misuse_find. Qed.
Print Assumptions C37_find_undefined.
Theorem C37_insert_undefined : forall (K V : Type) (E : env K V), good E ->
  forall w w' c d, reachable E w -> copies E c d w w' ->
  forall k v l, contents E c w l -> has E k l = true -> 2 <= length l ->
  exec E (Insert d k v) w' = Undef ForeignListIterator.
Proof. exact @misuse_insert. Qed.
Print Assumptions C37_insert_undefined.
Theorem C37_erase_undefined : forall (K V : Type) (E : env K V), good E ->
  forall w w' c d, reachable E w -> copies E c d w w' ->
  forall k l, contents E c w l -> has E k l = true ->
  exec E (Erase d k) w' = Undef ForeignListIterator.
Proof. exact @misuse_erase. Qed.
Print Assumptions C37_erase_undefined.
Theorem C37_shrink_undefined : forall (K V : Type) (E : env K V), good E ->
  forall w w' c d, reachable E w -> copies E c d w w' ->
  forall n l, contents E c w l -> 0 < n < length l ->
  exec E (Shrink d n) w' = Undef ForeignListIterator.
Proof. exact @misuse_shrink. Qed.
Print Assumptions C37_shrink_undefined.
Theorem C37_set_capacity_undefined : forall (K V : Type) (E : env K V), good E ->
  forall w w' c d, reachable E w -> copies E c d w w' ->
  forall n l, contents E c w l -> n < length l ->
  exec E (SetCapacity d n) w' = Undef ForeignListIterator.
Proof. exact @misuse_set_capacity. Qed.
Print Assumptions C37_set_capacity_undefined.
Example C37_undefined_case : exists p w1, exec E0 (Find 0 3) full = Val (ROpt (Some p)) w1 /\
  has E0 3 [(1, 10); (3, 30); (2, 20)] = true /\ 0 < 2 < length [(1, 10); (3, 30); (2, 20)].
Proof. do 2 eexists. split; [vm_compute; reflexivity|]. split; [reflexivity|]. simpl. lia. Qed.

(** What remains of C37: histories that use the copy with care (see [careful]).
    They are free of undefined behaviour other than what move construction and
    find(absent).entry() have anyway, ... *)
Theorem C37_safe_with_care_partial : forall (K V : Type) (E : env K V), good E -> hash_blind E ->
  forall w c d w' ops, reachable E w -> copies E c d w w' -> careful E d ops w' ->
  (forall outs u, run E ops w' = Undefined outs u ->
     exists pre o post w1, ops = pre ++ o :: post /\ run E pre w' = Finished outs w1 /\
       ((exists c, o = Move c /\ u = Indeterminate /\ junk E = None) \/
        (exists c k, o = FindEntry c k /\ u = PastTheEnd /\ lenient_end E = false))) /\
  (forall outs e, run E ops w' = Terminated outs e ->
     e = EmptyCache /\ exists pre o post w1 c, ops = pre ++ o :: post /\ run E pre w' = Finished outs w1 /\
       (o = Front c \/ o = Back c) /\ contents E c w1 []).
Proof. exact @copy_safe. Qed.
Print Assumptions C37_safe_with_care_partial.
(** ... do on the copy what they would have done on the original, ... *)
Theorem C37_behaves_with_care_partial : forall (K V : Type) (E : env K V), good E -> hash_blind E ->
  forall w c d w' ops ops', reachable E w -> copies E c d w w' ->
  Forall2 (same_call c d) ops ops' -> forallb plain ops = true -> careful E d ops' w' ->
  alike w w' (run E ops w) (run E ops' w').
Proof. exact @copy_behaves. Qed.
Print Assumptions C37_behaves_with_care_partial.
(** ... and leave alone the caches they do not name: the original, when they use the
    copy; the copy, when they use the original. *)
Theorem C37_independent_with_care_partial : forall (K V : Type) (E : env K V), good E -> hash_blind E ->
  forall w c d w1 ops outs w2 e, reachable E w -> copies E c d w w1 -> careful E d ops w1 ->
  run E ops w1 = Finished outs w2 -> alive w1 e = true -> (forall o, In o ops -> ~ In e (mentions o)) ->
  same_elements E e w1 e w2.
Proof. exact @copy_apart. Qed.
Print Assumptions C37_independent_with_care_partial.

Ltac care_harmless H := match goal with |- careful ?E ?d (?o :: ?t) ?w =>
  apply careful_harmless; [H|];
  let r := eval vm_compute in (exec E o w) in
  match r with Val ?x ?w1 =>
    let X := fresh in assert (X : exec E o w = Val x w1) by (vm_compute; reflexivity);
    let Q := fresh in intros [] ? Q; unfold call in Q; rewrite X in Q; inversion Q; subst; clear Q X
  end end.
Ltac care_other := match goal with |- careful ?E ?d (?o :: ?t) ?w =>
  apply careful_other; [reflexivity|simpl; lia|];
  let r := eval vm_compute in (exec E o w) in
  match r with Val ?x ?w1 =>
    let X := fresh in assert (X : exec E o w = Val x w1) by (vm_compute; reflexivity);
    let Q := fresh in intros [] ? Q; unfold call in Q; rewrite X in Q; inversion Q; subst; clear Q X
  end end.
Definition C37_uses : list (op nat nat) :=
  [Insert 1 4 40; Find 1 9; Ordered 1; SetCapacity 1 5; Insert 1 5 50; Clear 1; Insert 1 6 60; Insert 1 6 61; Erase 1 6].
Definition C37_uses0 : list (op nat nat) :=
  [Insert 0 4 40; Find 0 9; Ordered 0; SetCapacity 0 5; Insert 0 5 50; Clear 0; Insert 0 6 60; Insert 0 6 61; Erase 0 6].
Example C37_careful_case : careful E0 1 C37_uses twoful.
Proof.
  unfold C37_uses.
  care_harmless ltac:(eapply hl_insert; [vm_compute; reflexivity|reflexivity]).
  care_harmless ltac:(eapply hl_find; [vm_compute; reflexivity|reflexivity]).
  care_harmless ltac:(apply hl_observe; reflexivity).
  care_harmless ltac:(eapply hl_grow; [vm_compute; reflexivity|simpl; lia]).
  care_harmless ltac:(eapply hl_insert; [vm_compute; reflexivity|reflexivity]).
  apply careful_reset; [constructor|reflexivity].
Qed.
Example C37_behaves_case : Forall2 (same_call 0 1) C37_uses0 C37_uses /\ forallb plain C37_uses0 = true /\
  finishes (run E0 C37_uses twoful) = true.
Proof.
  split; [|split; vm_compute; reflexivity].
  unfold C37_uses0, C37_uses. repeat match goal with |- Forall2 _ (_ :: _) _ => constructor end; [| | | | | | | | |constructor].
  - apply (sc_lru 0 1 (LInsert 4 40)).
  - apply (sc_lru 0 1 (LFind 9)).
  - apply (sc_lru 0 1 LOrdered).
  - apply (sc_lru 0 1 (LSetCapacity 5)).
  - apply (sc_lru 0 1 (LInsert 5 50)).
  - apply (sc_lru 0 1 LClear).
  - apply (sc_lru 0 1 (LInsert 6 60)).
  - apply (sc_lru 0 1 (LInsert 6 61)).
  - apply (sc_lru 0 1 (LErase 6)).
Qed.
Example C37_original_case : careful E0 1 [Find 0 1; Erase 0 2; Ordered 1] twoful.
Proof.
  care_other. care_other.
  care_harmless ltac:(apply hl_observe; reflexivity). constructor.
Qed.
