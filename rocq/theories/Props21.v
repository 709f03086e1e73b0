(** Property theorems: references to the entries of iterators, and copies of them. *)
From Coq Require Import List Arith ZArith Bool.
Import ListNotations.
From Verif Require Import Monad Types Model Api IterObj EnvEx Spec SpecTimed SpecIter SpecCursor ExBase EntryRefs SpecEntryRefs EntryRefsProofs.

(** A program: a cache with two elements. *)
Fixpoint plays {K V} (E : env K V) (l : list (estep K V)) (x : xstate K V) : xstate K V :=
  match l with
  | [] => x
  | s :: t => match e_exec E s x with Val _ x' | Exc _ x' => plays E t x' | _ => x end
  end.
Definition begun : list (estep nat nat) :=
  [EDo (ICall (New 3 None)); EDo (ICall (Insert 0 1 10)); EDo (ICall (Insert 0 2 20))].
Definition after (l : list (estep nat nat)) : xstate nat nat := plays E0 (begun ++ l) init_xstate.
Ltac vmr := vm_compute; reflexivity.
Ltac ran l p' s r := match goal with H : eplays _ _ ?p |- _ =>
  let N := fresh in
  assert (N : eplays E0 l p'); [refine (@eplays_step nat nat E0 _ p s r l p' H _ _ _); [| vmr |]|clear H; rename N into H] end.
Ltac ran_call l p' o r := ran l p' (EDo (ICall o)) (EGives (FStep (JCall r)));
  [split; [split; [reflexivity|exists (Returned r); eexists; vmr]|intros ? []]
  |exists (IGives (JCall r)), (p_cs p'), (held_after E0 o (Returned r) (i_world (x_st l))); split; [exists (Returned r); split; [vmr|split; vmr]|split; [exists (Returned r); split; [vmr|reflexivity]|split; vmr]]|].
Definition P0 : plan (K := nat) := no_plan.
Ltac start := assert (H : eplays E0 init_xstate P0) by constructor;
  ran_call (plays E0 (firstn 1 begun) init_xstate) P0 (@New nat nat 3 None) (@RNat nat nat 0);
  ran_call (plays E0 (firstn 2 begun) init_xstate) P0 (@Insert nat nat 0 1 10) (RIns true (Some (1, 10)));
  ran_call (after []) P0 (@Insert nat nat 0 2 20) (RIns true (Some (2, 20))).
Ltac fresh_i := simpl; intuition (subst; discriminate).

(** An ordered iterator at the first element, and a reference to its entry. *)
Definition cur1 := MkCur true 0 (AtKey 1).
Definition cur2 := MkCur true 0 (AtKey 2).
Definition at_end := MkCur true 0 (@AtEnd nat).
Definition held (k : nat) : hold (K := nat) := Some (0, k).
Definition to_ref : list (estep nat nat) := [EDo (IBegin true 0); ERef 0].
Definition P_ref : plan := MkP [cur1] [] [(Some 0, held 1)] [].
Lemma at_ref : eplays E0 (after to_ref) P_ref.
Proof.
  start. ran (after (firstn 1 to_ref)) (MkP [cur1] [] [] []) (EDo (@IBegin nat nat true 0)) (@EGives nat nat (FStep (JNew 0))).
  - split; [vmr|fresh_i].
  - exists (IGives (JNew 0)), (p_cs (MkP [cur1] [] [] [])), (fun h => h); split; [split; [vmr|split; [vmr|exists [(1, 10); (2, 20)]; split; vmr]]|split; [vmr|split; vmr]].
  - ran (after to_ref) P_ref (@ERef nat nat 0) (@EGives nat nat (FNew 0)).
    + split; [fresh_i|exists cur1, 1; split; vmr].
    + split; [vmr|split; [vmr|exists cur1, 1; split; [vmr|split; vmr]]].
    + exact H.
Qed.
(** ... and ++ of the iterator. *)
Definition P_next : plan := MkP [cur2] [] [(None, held 1)] [].
Lemma at_next : eplays E0 (after (to_ref ++ [EDo (INext 0)])) P_next.
Proof.
  pose proof at_ref as H. ran (after (to_ref ++ [EDo (INext 0)])) P_next (EDo (@INext nat nat 0)) (@EGives nat nat (FStep JUnit)).
  - split; [exists cur1; split; [vmr|eexists; vmr]|fresh_i].
  - exists (IGives JUnit), (p_cs P_next), (fun h => h); split; [split; [vmr|split; [vmr|exists cur1; split; [vmr|exists 1, [(1, 10); (2, 20)]; split; [vmr|split; vmr]]]]|split; [vmr|split; vmr]].
  - exact H.
Qed.
(** The function operator* of std::reverse_iterator: { tmp = current; return *--tmp; }. *)
Definition rev_star : list (estep nat nat) := [EDo (IEnd true 0); EDo (ICopy 0); EDo (IPrev 1); ERef 1; EEnd 1].
Definition P_rev : plan := MkP [at_end; moved cur2 (@Stray nat)] [1] [(None, held 2)] [].
Lemma at_rev : eplays E0 (after rev_star) P_rev.
Proof.
  start. ran (after (firstn 1 rev_star)) (MkP [at_end] [] [] []) (EDo (@IEnd nat nat true 0)) (@EGives nat nat (FStep (JNew 0))).
  - split; [vmr|fresh_i].
  - exists (IGives (JNew 0)), (p_cs (MkP [at_end] [] [] [])), (fun h => h); split; [split; [vmr|split; [vmr|vmr]]|split; [vmr|split; vmr]].
  - ran (after (firstn 2 rev_star)) (MkP [at_end; at_end] [] [] []) (EDo (@ICopy nat nat 0)) (@EGives nat nat (FStep (JNew 1))).
    + split; [exists at_end; split; [vmr|exact I]|fresh_i].
    + exists (IGives (JNew 1)), (p_cs (MkP [at_end; at_end] [] [] [])), (fun h => h); split; [split; [vmr|split; [vmr|exists at_end; split; vmr]]|split; [vmr|split; vmr]].
    + ran (after (firstn 3 rev_star)) (MkP [at_end; cur2] [] [] []) (EDo (@IPrev nat nat 1)) (@EGives nat nat (FStep JUnit)).
      * split; [exists at_end; split; [vmr|split; [vmr|exists [(1, 10); (2, 20)]; split; [vmr|discriminate]]]|fresh_i].
      * exists (IGives JUnit), (p_cs (MkP [at_end; cur2] [] [] [])), (fun h => h); split; [split; [vmr|split; [vmr|exists at_end; split; [vmr|exists [(1, 10); (2, 20)]; split; vmr]]]|split; [vmr|split; vmr]].
      * ran (after (firstn 4 rev_star)) (MkP [at_end; cur2] [] [(Some 1, held 2)] []) (@ERef nat nat 1) (@EGives nat nat (FNew 0)).
        -- split; [fresh_i|exists cur2, 2; split; vmr].
        -- split; [vmr|split; [vmr|exists cur2, 2; split; [vmr|split; vmr]]].
        -- ran (after rev_star) P_rev (@EEnd nat nat 1) (@EGives nat nat FUnit).
           ++ split; [vm_compute; auto|fresh_i].
           ++ split; [vmr|split; [vmr|exists cur2; split; vmr]].
           ++ exact H.
Qed.

(** C89.  A reference to an iterator's entry (auto& e = *it) can be used as long as the
    element is in the cache: false.  It refers to an object that the iterator owns and
    destroys when it is advanced, assigned to or at the end of its life.  [p_refs] of the
    plan says that the element with key 1 (2) is still there. *)
Theorem C89_advanced_refuted : exists (E : env nat nat) x p r h c k, good E /\ eplays E x p /\
  nth_error (p_refs p) r = Some (h, Some (c, k)) /\ present E k c (i_world (x_st x)) = true /\
  e_exec E (ERead r) x = Undef DanglingReference.
Proof.
  exists E0, (after (to_ref ++ [EDo (INext 0)])), P_next, 0, None, 0, 1.
  split; [exact (ex_good still)|]. split; [exact at_next|]. split; [vmr|split; vmr].
Qed.
Print Assumptions C89_advanced_refuted.
(** In particular std::reverse_iterator cannot be dereferenced with these iterators. *)
Theorem C89_reverse_iterator_refuted : exists (E : env nat nat) x p r h c k, good E /\ eplays E x p /\ x = after rev_star /\
  nth_error (p_refs p) r = Some (h, Some (c, k)) /\ present E k c (i_world (x_st x)) = true /\
  e_exec E (ERead r) x = Undef DanglingReference.
Proof.
  exists E0, (after rev_star), P_rev, 0, None, 0, 2.
  split; [exact (ex_good still)|]. split; [exact at_rev|]. split; [reflexivity|]. split; [vmr|split; vmr].
Qed.
Print Assumptions C89_reverse_iterator_refuted.
(** What holds: whatever the program does with its iterators, references, copies and
    caches (copies of caches excepted), as long as the element stays and the iterator that
    keeps the entry, or the one it was moved to or swapped with, is not advanced, assigned
    to, converted by move to a const iterator or destroyed, the reference shows the
    element's key and its present value, and writing to it changes this value and nothing
    else. *)
Theorem C89_reference_partial : forall (K V : Type) (E : env K V) x p r i c k, good E -> eplays E x p ->
  nth_error (p_refs p) r = Some (Some i, Some (c, k)) ->
  (exists l k' v x', contents E c (i_world (x_st x)) l /\ look E k l = Some (k', v) /\
     e_exec E (ERead r) x = Val (FEnt k' v) x' /\ i_world (x_st x') = i_world (x_st x)) /\
  (forall v, exists x', e_exec E (EWrite r v) x = Val (@FUnit K V) x' /\
     overwritten E c k v (i_world (x_st x)) (i_world (x_st x'))).
Proof. intros K V E x p r i c k G. exact (@ref_usable K V E G x p r i c k). Qed.
Print Assumptions C89_reference_partial.
(** Every step such a program may take is defined and does what [epromise] says. *)
Theorem C89_programs_partial : forall (K V : Type) (E : env K V) x p s, good E -> eplays E x p ->
  eallowed E s (i_world (x_st x)) p ->
  exists r x' p', edone E s x r x' /\ epromise E s (i_world (x_st x)) p r (i_world (x_st x')) p'.
Proof. intros K V E x p s G. exact (@entry_steps K V E G x p s). Qed.
Print Assumptions C89_programs_partial.
(** The reference follows the iterator: here to the iterator it was moved to, while the
    first one goes on. *)
Definition P_moved : plan := MkP [cur2; cur1] [] [(Some 1, held 1)] [].
Definition to_moved : list (estep nat nat) := to_ref ++ [EDo (IMove 0); EDo (INext 0)].
Lemma at_moved : eplays E0 (after to_moved) P_moved.
Proof.
  pose proof at_ref as H.
  ran (after (firstn 3 to_moved)) (MkP [cur1; cur1] [] [(Some 1, held 1)] []) (EDo (@IMove nat nat 0)) (@EGives nat nat (FStep (JNew 1))).
  - split; [exists cur1; split; [vmr|exact I]|fresh_i].
  - exists (IGives (JNew 1)), (p_cs (MkP [cur1; cur1] [] [(Some 1, held 1)] [])), (fun h => h); split; [split; [vmr|split; [vmr|exists cur1; split; vmr]]|split; [vmr|split; vmr]].
  - ran (after to_moved) P_moved (EDo (@INext nat nat 0)) (@EGives nat nat (FStep JUnit)).
    + split; [exists cur1; split; [vmr|eexists; vmr]|fresh_i].
    + exists (IGives JUnit), (p_cs P_moved), (fun h => h); split; [split; [vmr|split; [vmr|exists cur1; split; [vmr|exists 1, [(1, 10); (2, 20)]; split; [vmr|split; vmr]]]]|split; [vmr|split; vmr]].
    + exact H.
Qed.
Example C89_reference_case : nth_error (p_refs P_moved) 0 = Some (Some 1, Some (0, 1)) /\
  e_exec E0 (ERead 0) (after to_moved) = Val (FEnt 1 10) (after to_moved).
Proof. split; vmr. Qed.
Example C89_programs_case : eallowed E0 (EDo (ICall (Erase 0 1))) (i_world (x_st (after to_moved))) P_moved /\
  eallowed E0 (EEnd 1) (i_world (x_st (after to_moved))) P_moved.
Proof.
  split; [split; [split; [reflexivity|exists (Returned (RBool true)); eexists; vmr]|intros ? []]|].
  split; [vm_compute; auto|intros []].
Qed.

(** C90.  A copy of the entry (auto e = *it), like the references that key() and value()
    give, can be used as long as the element is in a cache, whatever becomes of the
    iterator and also if the contents of the cache went to another one. *)
Theorem C90_copy : forall (K V : Type) (E : env K V) x p e c k, good E -> eplays E x p ->
  nth_error (p_copies p) e = Some (Some (c, k)) ->
  (exists l k' v x', contents E c (i_world (x_st x)) l /\ look E k l = Some (k', v) /\
     e_exec E (EReadCopy e) x = Val (FEnt k' v) x' /\ i_world (x_st x') = i_world (x_st x)) /\
  (forall v, exists x', e_exec E (EWriteCopy e v) x = Val (@FUnit K V) x' /\
     overwritten E c k v (i_world (x_st x)) (i_world (x_st x'))).
Proof. intros K V E x p e c k G. exact (@copy_usable K V E G x p e c k). Qed.
Print Assumptions C90_copy.
(** The iterator is gone and the cache moved to another one. *)
Definition to_copy : list (estep nat nat) := to_ref ++ [ECopy 0; EEnd 0; EDo (ICall (Move 0))].
Definition P_copy : plan := MkP [moved cur1 (@Stray nat)] [0] [(None, Some (1, 1))] [Some (1, 1)].
Lemma at_copy : eplays E0 (after to_copy) P_copy.
Proof.
  pose proof at_ref as H.
  ran (after (firstn 3 to_copy)) (MkP [cur1] [] [(Some 0, held 1)] [held 1]) (@ECopy nat nat 0) (@EGives nat nat (FNew 0)).
  - exists 0, (0, 1). vmr.
  - split; [vmr|split; [vmr|exists (Some 0), (held 1); split; vmr]].
  - ran (after (firstn 4 to_copy)) (MkP [moved cur1 (@Stray nat)] [0] [(None, held 1)] [held 1]) (@EEnd nat nat 0) (@EGives nat nat FUnit).
    + split; [vm_compute; auto|intros []].
    + split; [vmr|split; [vmr|exists cur1; split; vmr]].
    + ran_call (after to_copy) P_copy (@Move nat nat 0) (@RNat nat nat 1). exact H.
Qed.
Example C90_copy_case : nth_error (p_copies P_copy) 0 = Some (Some (1, 1)) /\
  e_exec E0 (EReadCopy 0) (after to_copy) = Val (FEnt 1 10) (after to_copy) /\
  e_exec E0 (ERead 0) (after to_copy) = Undef DanglingReference.
Proof. split; [vmr|split; vmr]. Qed.

(** C91.  Iterators that are equal refer to the same object (the standard asks this of
    iterators of the categories these claim): false, each has an entry of its own, and
    the lifetimes differ. *)
Definition to_twice : list (estep nat nat) := to_ref ++ [EDo (ICopy 0); ERef 1].
Definition P_twice : plan := MkP [cur1; cur1] [] [(Some 0, held 1); (Some 1, held 1)] [].
Lemma at_twice : eplays E0 (after to_twice) P_twice.
Proof.
  pose proof at_ref as H.
  ran (after (firstn 3 to_twice)) (MkP [cur1; cur1] [] [(Some 0, held 1)] []) (EDo (@ICopy nat nat 0)) (@EGives nat nat (FStep (JNew 1))).
  - split; [exists cur1; split; [vmr|exact I]|fresh_i].
  - exists (IGives (JNew 1)), (p_cs (MkP [cur1; cur1] [] [(Some 0, held 1)] [])), (fun h => h); split; [split; [vmr|split; [vmr|exists cur1; split; vmr]]|split; [vmr|split; vmr]].
  - ran (after to_twice) P_twice (@ERef nat nat 1) (@EGives nat nat (FNew 1)).
    + split; [fresh_i|exists cur1, 1; split; vmr].
    + split; [vmr|split; [vmr|exists cur1, 1; split; [vmr|split; vmr]]].
    + exact H.
Qed.
Theorem C91_one_object_refuted : exists (E : env nat nat) x p x1 x2 a b, good E /\ eplays E x p /\
  e_exec E (EDo (ISame 0 1)) x = Val (FStep (JBool true)) x1 /\
  nth_error (p_refs p) 0 = Some (Some 0, Some (0, 1)) /\ nth_error (p_refs p) 1 = Some (Some 1, Some (0, 1)) /\
  nth_error (x_refs x) 0 = Some a /\ nth_error (x_refs x) 1 = Some b /\ a <> b /\
  e_exec E (EEnd 1) x = Val FUnit x2 /\
  e_exec E (ERead 0) x2 = Val (FEnt 1 10) x2 /\ e_exec E (ERead 1) x2 = Undef DanglingReference.
Proof.
  exists E0, (after to_twice), P_twice, (after to_twice), (after (to_twice ++ [EEnd 1])), 0, 1.
  split; [exact (ex_good still)|]. split; [exact at_twice|]. split; [vmr|]. split; [vmr|]. split; [vmr|]. split; [vmr|]. split; [vmr|]. split; [discriminate|]. split; [vmr|]. split; vmr.
Qed.
Print Assumptions C91_one_object_refuted.
(** What holds: their entries show the same key and value, and what is written through
    one is read through the other. *)
Theorem C91_same_element_partial : forall (K V : Type) (E : env K V) x p r i c k r' i' k', good E -> eplays E x p ->
  nth_error (p_refs p) r = Some (Some i, Some (c, k)) -> nth_error (p_refs p) r' = Some (Some i', Some (c, k')) ->
  key_equal E k k' = true ->
  (exists j v x1 x2, e_exec E (ERead r) x = Val (FEnt j v) x1 /\ e_exec E (ERead r') x = Val (FEnt j v) x2) /\
  (forall v, exists x1 j x2, e_exec E (EWrite r v) x = Val (@FUnit K V) x1 /\ e_exec E (ERead r') x1 = Val (FEnt j v) x2).
Proof. intros K V E x p r i c k r' i' k' G. exact (@refs_agree K V E G x p r i c k r' i' k'). Qed.
Print Assumptions C91_same_element_partial.
Example C91_same_element_case :
  nth_error (p_refs P_twice) 0 = Some (Some 0, Some (0, 1)) /\ nth_error (p_refs P_twice) 1 = Some (Some 1, Some (0, 1)) /\
  e_exec E0 (ERead 1) (plays E0 [EWrite 0 11] (after to_twice)) = Val (FEnt 1 11) (plays E0 [EWrite 0 11] (after to_twice)).
Proof. split; [vmr|split; vmr]. Qed.
