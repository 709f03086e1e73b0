(** Property theorems: searches of the hash table made through iterators. *)
From Coq Require Import List Arith ZArith Bool Permutation.
Import ListNotations.
From Verif Require Import Monad Types Model Api IterObj EnvEx Spec SpecTimed SpecIter SpecCursor ExBase SpecSearches IterSearches SpecIterSearches IterSearchMain.

(** Functions that never throw, and functions of which one call throws. *)
Definition never (i : nat) : option nat := None.
Definition throws_at (j n : nat) (i : nat) : option nat := if Nat.eqb i j then Some n else None.

(** A program: a cache with two elements and an ordered iterator to the first; the
    element is read, a third is inserted, and an unordered iterator is converted. *)
Definition tour (ttl : option Z) : list (istep nat nat) :=
  [ICall (New 3 ttl); ICall (Insert 0 1 10); ICall (Insert 0 2 20); IBegin true 0;
   IRead 0; ICall (Insert 0 3 30); IFind 0 2; IToOrdered 1].
Fixpoint goes {K V} (E : env K V) (l : list (istep K V)) (st : istate K V) : istate K V :=
  match l with
  | [] => st
  | s :: t => match iexec E s st with Val _ st' | Exc _ st' => goes E t st' | _ => st end
  end.
Definition stop (ttl : option Z) (n : nat) : istate nat nat := goes E0 (firstn n (tour ttl)) init_istate.
Definition at_1 : list (cursor (K:=nat)) := [MkCur true 0 (AtKey 1)].
Definition at_12 : list (cursor (K:=nat)) := at_1 ++ [MkCur false 0 (AtKey 2)].
Definition at_122 : list (cursor (K:=nat)) := at_12 ++ [MkCur true 0 (AtKey 2)].
Ltac vmr := vm_compute; reflexivity.
Ltac takes ttl num s r cs' hs' := match goal with H : iwarms _ _ ?cs ?hs |- _ =>
  let N := fresh in
  assert (N : iwarms E0 (stop ttl num) cs' hs');
  [refine (@warms_step nat nat E0 _ cs hs s r _ cs' H _ _ _); [| vmr |] | clear H; rename N into H] end.
Ltac takes_call ttl num o r cs hs := takes ttl num (ICall o) (IGives (JCall r)) cs hs;
  [split; [reflexivity|exists (Returned r); eexists; vmr]|exists (Returned r); split; [vmr|split; vmr]|].
Ltac tour_3 ttl := assert (H : iwarms E0 (stop ttl 0) [] []) by constructor;
  takes_call ttl 1 (@New nat nat 3 ttl) (@RNat nat nat 0) (@nil (@cursor nat)) (@nil bool);
  takes_call ttl 2 (@Insert nat nat 0 1 10) (RIns true (Some (1, 10))) (@nil (@cursor nat)) (@nil bool);
  takes_call ttl 3 (@Insert nat nat 0 2 20) (RIns true (Some (2, 20))) (@nil (@cursor nat)) (@nil bool).
Ltac tour_4 ttl := tour_3 ttl;
  takes ttl 4 (@IBegin nat nat true 0) (@IGives nat nat (JNew 0)) at_1 [false];
    [vmr|split; [vmr|split; [vmr|exists [(1, 10); (2, 20)]; split; vmr]]|].
Ltac tour_5 ttl := tour_4 ttl;
  takes ttl 5 (@IRead nat nat 0) (@IGives nat nat (JEnt 1 10)) at_1 [true];
    [eexists; split; [vmr|eexists; vmr]
    |split; [vmr|split; [vmr|eexists; split; [vmr|exists 1, [(1, 10); (2, 20)], 1, 10; split; [vmr|split; [vmr|split; vmr]]]]]|].
Ltac tour_8 ttl := tour_5 ttl;
  takes_call ttl 6 (@Insert nat nat 0 3 30) (RIns true (Some (3, 30))) at_1 [true];
  takes ttl 7 (@IFind nat nat 0 2) (@IGives nat nat (JNew 1)) at_12 [true; false];
    [vmr|exists (Returned (ROpt (Some (2, 20)))); split; [vmr|split; vmr]|];
  takes ttl 8 (@IToOrdered nat nat 1) (@IGives nat nat (JNew 2)) at_122 [true; false; false];
    [eexists; split; [vmr|split; [vmr|discriminate]]|split; [vmr|eexists; split; [vmr|split; vmr]]|].

Definition hour : option Z := Some 3600%Z.
Lemma tour_at_4 : iwarms E0 (stop None 4) at_1 [false]. Proof. tour_4 (@None Z). exact H. Qed.
Lemma tour_at_5 : iwarms E0 (stop None 5) at_1 [true]. Proof. tour_5 (@None Z). exact H. Qed.
Lemma tour_at_8 : iwarms E0 (stop None 8) at_122 [true; false; false]. Proof. tour_8 (@None Z). exact H. Qed.
Lemma hour_at_4 : iwarms E0 (stop hour 4) at_1 [false]. Proof. tour_4 hour. exact H. Qed.
Lemma hour_at_8 : iwarms E0 (stop hour 8) at_122 [true; false; false]. Proof. tour_8 hour. exact H. Qed.

(** C87.  Ordered iterators "provide fast access only to the key().  Accessing the value
    requires a hash table lookup the first time an iterator is dereferenced": false of a
    TimedCache.  There each call of key() searches twice, as does each value() after the
    first dereference. *)
Theorem C87_fast_key_refuted : exists (E : env nat nat) st cs hs st1 st2, good E /\ iwarms E st cs hs /\
  nth_error cs 0 = Some (MkCur true 0 (AtKey 1)) /\ nth_error hs 0 = Some true /\
  iallowed E (IKey 0) (i_world st) cs /\ j_exec E never (IKey 0) (MkJ 0 st) = Val (JKey 1) (MkJ 2 st1) /\
  j_exec E never (IKey 0) (MkJ 2 st1) = Val (JKey 1) (MkJ 4 st2) /\
  exists st3, j_exec E never (IValue 0) (MkJ 4 st2) = Val (JVal 10) (MkJ 6 st3).
Proof.
  eexists E0, (stop hour 8), at_122, _, _, _. split; [exact (ex_good _)|]. split; [exact hour_at_8|].
  split; [reflexivity|]. split; [reflexivity|].
  split; [eexists; split; [reflexivity|split; [discriminate|discriminate]]|].
  split; [vmr|]. split; [vmr|]. eexists. vmr.
Qed.
Print Assumptions C87_fast_key_refuted.
(** The number of searches of every step: one for the first use of the element, two for
    each question whether an element of a TimedCache has expired, one more for erase. *)
Theorem C87_number_partial : forall (K V : Type) (E : env K V), good E ->
  forall throws n st cs hs s r st', iwarms E st cs hs -> iallowed E s (i_world st) cs -> iterating s = true ->
  idone E s st r st' -> (forall k, k < fee s (i_world st) cs hs r -> throws (n + k) = None) ->
  jgives E throws s (MkJ n st) r (MkJ (n + fee s (i_world st) cs hs r) st').
Proof. exact @searches_number. Qed.
Print Assumptions C87_number_partial.
(** Without an expiry time, key() never searches. *)
Theorem C87_key_partial : forall (K V : Type) (E : env K V), good E ->
  forall throws n st cs i r st', iplays E st cs -> iallowed E (IKey i) (i_world st) cs ->
  (forall c, element cs i = Some c -> timed c (i_world st) = false) -> idone E (IKey i) st r st' ->
  jgives E throws (IKey i) (MkJ n st) r (MkJ n st').
Proof. exact @key_free. Qed.
Print Assumptions C87_key_partial.
(** Neither do conversion ("will work and is fast"), ++, --, copies and comparisons. *)
Theorem C87_steady_partial : forall (K V : Type) (E : env K V), good E ->
  forall throws n st cs s r st', iplays E st cs -> iallowed E s (i_world st) cs -> steady s = true ->
  idone E s st r st' -> jgives E throws s (MkJ n st) r (MkJ n st').
Proof. exact @fixed_free. Qed.
Print Assumptions C87_steady_partial.
(** Once an element has been used through an iterator, and until that iterator is moved,
    *it and it-> do not search again, nor do entry() and value() without an expiry time. *)
Theorem C87_once_partial : forall (K V : Type) (E : env K V), good E ->
  forall throws n st cs i c s r st1 cs1 st2 cs2 s' r' st', iplays E st cs -> element cs i = Some c ->
  uses i s = true -> iallowed E s (i_world st) cs -> idone E s st (IGives r) st1 ->
  ipromise E s (i_world st) cs (IGives r) (i_world st1) cs1 -> meanwhile E i st1 cs1 st2 cs2 ->
  uses i s' = true -> (unchecked s' = true \/ forall c', element cs2 i = Some c' -> timed c' (i_world st2) = false) ->
  iallowed E s' (i_world st2) cs2 -> idone E s' st2 r' st' ->
  jgives E throws s' (MkJ n st2) r' (MkJ n st').
Proof. exact @value_once. Qed.
Print Assumptions C87_once_partial.

(** In the program above: the first read searches once; after the insertion of 3 the
    element is used again without a search, the converted iterator searches once. *)
Example C87_case :
  (exists st1, j_exec E0 never (IRead 0) (MkJ 0 (stop None 4)) = Val (JEnt 1 10) (MkJ 1 st1)) /\
  element at_1 0 = Some 0 /\ uses 0 (IRead 0 : istep nat nat) = true /\
  meanwhile E0 0 (stop None 5) at_1 (stop None 8) at_122 /\
  uses 0 (IValue 0 : istep nat nat) = true /\ timed 0 (i_world (stop None 8)) = false /\
  iallowed E0 (IValue 0) (i_world (stop None 8)) at_122 /\
  (exists st1, j_exec E0 never (IValue 0) (MkJ 1 (stop None 8)) = Val (JVal 10) (MkJ 1 st1)) /\
  (exists st1, j_exec E0 never (IKey 2) (MkJ 1 (stop None 8)) = Val (JKey 2) (MkJ 1 st1)) /\
  (exists st1, j_exec E0 never (IValue 2) (MkJ 1 (stop None 8)) = Val (JVal 20) (MkJ 2 st1)) /\
  fee (IValue 2 : istep nat nat) (i_world (stop None 8)) at_122 [true; false; false] (IGives (JVal 20)) = 1 /\
  fee (IErase 0 0 : istep nat nat) (i_world (stop hour 8)) at_122 [true; false; false] (IGives JUnit) = 3.
Proof.
  split; [eexists; vmr|]. split; [reflexivity|]. split; [reflexivity|].
  split.
  { refine (@mean_step _ _ _ _ _ _ _ _ (IToOrdered 1) (@IGives nat nat (JNew 2)) _ _
     (@mean_step _ _ _ _ _ _ _ _ (IFind 0 2) (@IGives nat nat (JNew 1)) _ at_12
       (@mean_step _ _ _ _ _ _ _ _ (ICall (Insert 0 3 30)) (@IGives nat nat (JCall (RIns true (Some (3, 30))))) (stop None 6) at_1
          (mean_none _ _ _ _) eq_refl _ _ _) eq_refl _ _ _) eq_refl _ _ _).
    all: try vmr.
    - split; [reflexivity|exists (Returned (RIns true (Some (3, 30)))); eexists; vmr].
    - exists (Returned (RIns true (Some (3, 30)))); split; [vmr|split; vmr].
    - exists (Returned (ROpt (Some (2, 20)))); split; [vmr|split; vmr].
    - eexists; split; [vmr|split; [vmr|discriminate]].
    - split; [vmr|eexists; split; [vmr|split; vmr]]. }
  split; [reflexivity|]. split; [vmr|].
  split; [eexists; split; [reflexivity|split; [discriminate|discriminate]]|].
  split; [eexists; vmr|]. split; [eexists; vmr|]. split; [eexists; vmr|]. split; vmr.
Qed.

(** C88.  An exception of the hash function thrown while an element is used through an
    iterator reaches the caller: false.  operator*, has_expired and is_valid are noexcept,
    so the program ends; with a TimedCache key() and erase end it as well. *)
Theorem C88_reaches_refuted : exists (E : env nat nat) st cs hs, good E /\ iwarms E st cs hs /\
  iallowed E (IRead 0) (i_world st) cs /\ (exists r st', idone E (IRead 0) st r st') /\
  j_exec E (throws_at 0 5) (IRead 0) (MkJ 0 st) = Term (UserExn 5).
Proof.
  exists E0, (stop None 4), at_1, [false]. split; [exact (ex_good _)|]. split; [exact tour_at_4|].
  split; [eexists; split; [vmr|eexists; vmr]|]. split; [exists (IGives (JEnt 1 10)); eexists; vmr|]. vmr.
Qed.
Print Assumptions C88_reaches_refuted.
Theorem C88_key_refuted : exists (E : env nat nat) st cs hs, good E /\ iwarms E st cs hs /\
  iallowed E (IKey 0) (i_world st) cs /\ (exists st', idone E (IKey 0) st (IGives (JKey 1)) st') /\
  j_exec E (throws_at 0 5) (IKey 0) (MkJ 0 st) = Term (UserExn 5) /\
  j_exec E (throws_at 1 5) (IErase 0 0) (MkJ 0 st) = Term (UserExn 5).
Proof.
  exists E0, (stop hour 4), at_1, [false]. split; [exact (ex_good _)|]. split; [exact hour_at_4|].
  split; [eexists; split; [vmr|split; [discriminate|discriminate]]|]. split; [eexists; vmr|]. split; vmr.
Qed.
Print Assumptions C88_key_refuted.
(** Which searches these are, *)
Theorem C88_fatal : forall (K V : Type) (E : env K V), good E ->
  forall throws n st cs hs s r st' k e, iwarms E st cs hs -> iallowed E s (i_world st) cs -> iterating s = true ->
  idone E s st r st' -> k < fee s (i_world st) cs hs r -> throws (n + k) = Some e ->
  (forall k', k' < k -> throws (n + k') = None) ->
  fatal s (i_world st) cs k = true -> j_exec E throws s (MkJ n st) = Term (UserExn e).
Proof. exact @searches_fatal. Qed.
Print Assumptions C88_fatal.
(** and the exceptions of all others reach the caller: those of entry(), value() and
    erase(), apart from the question whether the element has expired.  The caches and the
    iterators are as before. *)
Theorem C88_reaches_partial : forall (K V : Type) (E : env K V), good E ->
  forall throws n st cs hs s r st' k e, iwarms E st cs hs -> iallowed E s (i_world st) cs -> iterating s = true ->
  idone E s st r st' -> k < fee s (i_world st) cs hs r -> throws (n + k) = Some e ->
  (forall k', k' < k -> throws (n + k') = None) ->
  fatal s (i_world st) cs k = false ->
  exists st1, j_exec E throws s (MkJ n st) = Exc (UserExn e) (MkJ (n + k + 1) st1) /\
    unchanged (i_world st) (i_world st1) /\ i_vars st1 = i_vars st.
Proof. exact @searches_exn. Qed.
Print Assumptions C88_reaches_partial.
(** In the timed program: the third search of erase() and of value() is not fatal, the
    second is. *)
Example C88_case : iwarms E0 (stop hour 4) at_1 [false] /\
  iallowed E0 (IErase 0 0) (i_world (stop hour 4)) at_1 /\ iallowed E0 (IValue 0) (i_world (stop hour 4)) at_1 /\
  (exists st', idone E0 (IErase 0 0) (stop hour 4) (IGives JUnit) st') /\
  fee (IErase 0 0 : istep nat nat) (i_world (stop hour 4)) at_1 [false] (IGives JUnit) = 3 /\
  fatal (IErase 0 0 : istep nat nat) (i_world (stop hour 4)) at_1 2 = false /\
  fatal (IErase 0 0 : istep nat nat) (i_world (stop hour 4)) at_1 1 = true /\
  (exists st1, j_exec E0 (throws_at 2 5) (IErase 0 0) (MkJ 0 (stop hour 4)) = Exc (UserExn 5) (MkJ 3 st1)) /\
  (exists st1, j_exec E0 (throws_at 2 5) (IValue 0) (MkJ 0 (stop hour 4)) = Exc (UserExn 5) (MkJ 3 st1)).
Proof.
  split; [exact hour_at_4|].
  split; [eexists; split; [vmr|split; [vmr|discriminate]]|].
  split; [eexists; split; [vmr|split; [discriminate|discriminate]]|].
  split; [eexists; vmr|]. split; [vmr|]. split; [vmr|]. split; [vmr|]. split; eexists; vmr.
Qed.
