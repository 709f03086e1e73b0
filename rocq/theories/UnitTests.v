(** The project's own unit tests (/repo/tests), run in the model.  They are tests of the
    model, not proofs about the code: each is evaluated by computation.

    Strings are represented by numbers ("one" is 1, "two" 2, ...; std::to_string(i) in a
    test that also uses those is 10 + i).  Times are in microseconds; every call takes
    one, and [Sleep n] lasts [n] milliseconds.  Tests that only compile different ways of
    construction are left out; LastAccessed on its own is in LastTests.v. *)
From Coq Require Import List Arith ZArith Bool.
Import ListNotations.
From Verif Require Import Monad Types Model Api EnvEx IterObj Searches Moves Wrap.

Inductive expect : Type :=
| Done                                   (* returns, no matter what *)
| Gives (r : iout nat nat)
| Throws (e : exn).
Inductive line : Type :=
| Do (s : istep nat nat) (x : expect)
| Guard (ordered : bool) (c i : nat) (x : option exn)   (* c.throw_if_invalid(i) *)
| Count (f : cbevent nat nat -> Z) (z : Z)              (* the sum of f over all callback calls *)
| Sleep (n : Z).

Definition meets (x : expect) (r : res (istate nat nat) (iout nat nat)) : option (istate nat nat) :=
  match x, r with
  | Done, Val JIll _ | Done, Val (JCall RIll) _ => None
  | Done, Val _ st => Some st
  | Gives _, Val _ st => Some st
  | Throws _, Exc _ st => Some st
  | _, _ => None
  end.
Definition says (x : expect) (r : res (istate nat nat) (iout nat nat)) : Prop :=
  match x, r with
  | Gives a, Val b _ => a = b
  | Throws a, Exc b _ => a = b
  | Done, _ => True
  | _, _ => False
  end.
Definition guard E (ordered : bool) (c i : nat) (st : istate nat nat) : option (option exn) :=
  match nth_error (i_vars st) i, ordered with
  | Some (VO it), true =>
      match throw_if_invalid_o E c it (i_world st) with
      | Val _ _ => Some None | Exc e _ => Some (Some e) | _ => None
      end
  | Some (VU it), false =>
      match throw_if_invalid_u E c it (i_world st) with
      | Val _ _ => Some None | Exc e _ => Some (Some e) | _ => None
      end
  | _, _ => None
  end.
Fixpoint total (f : cbevent nat nat -> Z) (l : list (cbevent nat nat)) : Z :=
  match l with [] => 0 | e :: l => f e + total f l end%Z.

Fixpoint passes (t : Z) (l : list line) (st : istate nat nat) : Prop :=
  match l with
  | [] => True
  | Sleep n :: l => passes (t + 1000 * n)%Z l st
  | Count f z :: l => total f (w_log (i_world st)) = z /\ passes t l st
  | Guard o c i x :: l => guard (ex_env (fun _ => t)) o c i st = Some x /\ passes (t + 1)%Z l st
  | Do s x :: l =>
      let r := iexec (ex_env (fun _ => t)) s st in
      says x r /\ match meets x r with Some st => passes (t + 1)%Z l st | None => False end
  end.
Definition test (l : list line) : Prop := passes 0 l init_istate.
Ltac run_test := vm_compute; repeat split.

(** Shorthands. *)
Definition do (o : op nat nat) : line := Do (ICall o) Done.
Definition gives (o : op nat nat) (r : out nat nat) : line := Do (ICall o) (Gives (JCall r)).
Definition is (o : op nat nat) : line := gives o (RBool true).
Definition isnt (o : op nat nat) : line := gives o (RBool false).
Definition throws (o : op nat nat) (e : exn) : line := Do (ICall o) (Throws e).
Definition cache : line := do (New 128 None).
Definition upto (a n : nat) (f : nat -> list line) : list line := flat_map f (seq a n).
Definition range : list (nat * nat) := [(1, 1); (2, 2); (3, 3)].

(** * cache-test.cpp *)
Definition three : list line :=
  [isnt (IsEmpty 0); gives (Size 0) (RNat 3);
   gives (Lookup 0 1) (RVal 1); gives (Lookup 0 2) (RVal 2); gives (Lookup 0 3) (RVal 3)].

Example IsConstructibleFromInitializerList : test (do (NewList None range) :: three).
Proof. run_test. Qed.
Example IsConstructibleFromInitializerListWithCapacity : test
  [do (NewFrom 2 None range); isnt (IsEmpty 0); gives (Size 0) (RNat 2); isnt (Contains 0 1);
   gives (Lookup 0 2) (RVal 2); gives (Lookup 0 3) (RVal 3)].
Proof. run_test. Qed.
Example IsConstructibleFromRange : test (do (NewIters None range) :: three).
Proof. run_test. Qed.
Example IsConstructibleFromIterators : test (do (NewIters None range) :: three).
Proof. run_test. Qed.
Definition longer : list (nat * nat) := range ++ map (fun i => (10 + i, i)) (seq 0 128).
Example CapacityIsMaxOfInternalDefaultAndIteratorDistance : test
  [do (NewIters None range); gives (Capacity 0) (RNat 128);
   do (AssignMove 0 longer); gives (Capacity 0) (RNat (length longer));
   do (NewIters None longer); gives (Capacity 1) (RNat (length longer))].
Proof. run_test. Qed.

(** The counters of Searches.v are those of the mock functions. *)
Definition mocked (l : list (op nat nat)) : option (nat * nat) :=
  (fix go l (h : hworld nat nat) :=
    match l with
    | [] => Some (h_searches h, h_compares h)
    | o :: l => match h_exec (ex_env still) (fun _ => None) (fun _ => None) o h with Val _ h => go l h | _ => None end
    end) l (MkH 0 0 init_world).
Example UsesCustomHashFunction :
  mocked [New 128 None] = Some (0, 0) /\
  option_map fst (mocked [New 128 None; Contains 0 5]) = Some 1.
Proof. run_test. Qed.
Example UsesCustomKeyEqual :
  option_map snd (mocked [New 128 None]) = Some 0 /\
  option_map snd (mocked [New 128 None; Insert 0 5 1; Contains 0 5]) = Some 1.
Proof. run_test. Qed.

Example ContainsAfterInsertion : test (cache :: is (IsEmpty 0) ::
  upto 1 100 (fun i => [do (Insert 0 i i); gives (Size 0) (RNat i); is (Contains 0 i)]) ++
  [isnt (IsEmpty 0)]).
Proof. run_test. Qed.
Example ContainsAfteEmplacement : test (cache :: is (IsEmpty 0) ::
  upto 1 100 (fun i => [do (Emplace 0 i i); gives (Size 0) (RNat i); is (Contains 0 i)]) ++
  [isnt (IsEmpty 0)]).
Proof. run_test. Qed.
Example RemovesLRUElementWhenFull : test
  [cache; do (SetCapacity 0 2); gives (Capacity 0) (RNat 2); do (Emplace 0 1 1); do (Emplace 0 2 2);
   gives (Size 0) (RNat 2); is (Contains 0 1); is (Contains 0 2);
   do (Emplace 0 3 3); gives (Size 0) (RNat 2); is (Contains 0 2); is (Contains 0 3); isnt (Contains 0 1)].
Proof. run_test. Qed.
Example LookupReturnsTheRightValue : test (cache ::
  upto 1 10 (fun i => [do (Emplace 0 i i); gives (Size 0) (RNat i); gives (Lookup 0 i) (RVal i);
                       gives (Lookup 0 i) (RVal i)])).
Proof. run_test. Qed.
Example LookupOnlyThrowsWhenKeyNotFound : test
  [cache; do (Emplace 0 1 1); gives (Size 0) (RNat 1); gives (Lookup 0 1) (RVal 1);
   throws (Lookup 0 2) KeyNotFound; throws (Lookup 0 3) KeyNotFound;
   do (Emplace 0 2 2); gives (Lookup 0 2) (RVal 2)].
Proof. run_test. Qed.
Example SizeIsUpdatedProperly : test (cache :: gives (Size 0) (RNat 0) ::
  upto 1 10 (fun i => [do (Emplace 0 i i); gives (Size 0) (RNat i)]) ++
  flat_map (fun i => [gives (Size 0) (RNat i); do (Erase 0 i)]) (rev (seq 1 10)) ++
  [gives (Size 0) (RNat 0)]).
Proof. run_test. Qed.
Example SpaceLeftWorks : test (cache :: do (SetCapacity 0 10) :: gives (Size 0) (RNat 0) ::
  flat_map (fun i => [gives (SpaceLeft 0) (RZ (Z.of_nat i)); do (Emplace 0 i i)]) (rev (seq 1 10)) ++
  [gives (SpaceLeft 0) (RZ 0)]).
Proof. run_test. Qed.
Example IsEmptyWorks : test
  [cache; is (IsEmpty 0); do (Emplace 0 1 1); isnt (IsEmpty 0); do (Clear 0); is (IsEmpty 0)].
Proof. run_test. Qed.
Example IsFullWorks : test
  [cache; isnt (IsFull 0); do (SetCapacity 0 0); is (IsFull 0); do (SetCapacity 0 2); do (Emplace 0 1 1);
   isnt (IsFull 0); do (Emplace 0 2 1); is (IsFull 0); do (Clear 0); isnt (IsFull 0)].
Proof. run_test. Qed.
Example CapacityCanBeAdjusted : test (cache :: do (SetCapacity 0 10) :: gives (Capacity 0) (RNat 10) ::
  upto 0 10 (fun i => [do (Emplace 0 i i)]) ++
  [gives (Size 0) (RNat 10); do (Emplace 0 20 77); gives (Size 0) (RNat 10);
   do (SetCapacity 0 11); gives (Capacity 0) (RNat 11); do (Emplace 0 21 77); gives (Size 0) (RNat 11);
   do (SetCapacity 0 5); gives (Capacity 0) (RNat 5); gives (Size 0) (RNat 5);
   do (SetCapacity 0 0); gives (Capacity 0) (RNat 0); gives (Size 0) (RNat 0);
   do (SetCapacity 0 128); gives (Capacity 0) (RNat 128); gives (Size 0) (RNat 0)]).
Proof. run_test. Qed.
Example EraseErasesAndReturnsTrueWhenElementContained : test
  [cache; do (Emplace 0 1 1); is (Contains 0 1); is (Erase 0 1); isnt (Contains 0 1)].
Proof. run_test. Qed.
Example EraseReturnsFalseWhenElementNotContained : test [cache; isnt (Contains 0 1); isnt (Erase 0 1)].
Proof. run_test. Qed.
Example ClearRemovesAllElements : test
  [cache; is (IsEmpty 0); do (Emplace 0 1 1); isnt (IsEmpty 0); do (Clear 0); is (IsEmpty 0)].
Proof. run_test. Qed.
Example ShrinkAdjustsSizeWell : test
  [cache; do (Emplace 0 1 1); do (Emplace 0 2 2); do (Emplace 0 3 3); gives (Size 0) (RNat 3);
   do (Shrink 0 2); gives (Size 0) (RNat 2); isnt (Contains 0 1); is (Contains 0 2); is (Contains 0 3);
   do (Shrink 0 1); gives (Size 0) (RNat 1); isnt (Contains 0 1); isnt (Contains 0 2); is (Contains 0 3)].
Proof. run_test. Qed.
Example CanInsertIterators : test
  [cache; gives (InsertRange 0 range) (RNat 3); gives (Ordered 0) (REnts range);
   gives (InsertRange 0 [(1, 1); (4, 4)]) (RNat 1);
   gives (Ordered 0) (REnts [(2, 2); (3, 3); (1, 1); (4, 4)])].
Proof. run_test. Qed.
Example CanInsertRange : test [cache; do (InsertRange 0 range); gives (Ordered 0) (REnts range)].
Proof. run_test. Qed.
Example CanInsertList : test [cache; do (InsertRange 0 range); gives (Ordered 0) (REnts range)].
Proof. run_test. Qed.
Example ResultIsCorrectForInsert : test
  [cache; Do (IInsert 0 1 1) (Gives (JIns true 0)); Do (IBegin false 0) Done; Do (ISame 0 1) (Gives (JBool true));
   Do (IInsert 0 1 1) (Gives (JIns false 2)); Do (IBegin false 0) Done; Do (ISame 2 3) (Gives (JBool true))].
Proof. run_test. Qed.
Example ResultIsCorrectForEmplace : test
  [cache; Do (IEmplace 0 1 1) (Gives (JIns true 0)); Do (IBegin false 0) Done; Do (ISame 0 1) (Gives (JBool true));
   Do (IEmplace 0 1 1) (Gives (JIns false 2)); Do (IBegin false 0) Done; Do (ISame 2 3) (Gives (JBool true))].
Proof. run_test. Qed.
Example CapacityIsSameAfterCopy : test
  [cache; do (SetCapacity 0 100); do (Copy 0); gives (Capacity 0) (RNat 100); gives (Capacity 1) (RNat 100)].
Proof. run_test. Qed.
Example CapacityIsSameAfterMove : test
  [cache; do (SetCapacity 0 100); do (Move 0); gives (Capacity 1) (RNat 100)].
Proof. run_test. Qed.
(** The copy is of an empty cache. *)
Example ComparisonOperatorWorks : test
  [cache; is (Equal 0 0); do (Copy 0); is (Equal 0 1);
   do (Emplace 0 1 1); do (Emplace 1 1 1); is (Equal 0 1);
   do (Emplace 0 2 2); do (Emplace 1 2 2); is (Equal 0 1);
   do (Erase 0 2); isnt (Equal 0 1)].
Proof. run_test. Qed.
Example SwapWorks : test
  [cache; do (Copy 0); do (Emplace 0 1 1); do (Emplace 1 2 2); is (Contains 0 1); is (Contains 1 2);
   do (Swap 0 1); isnt (Contains 0 1); is (Contains 0 2); isnt (Contains 1 2); is (Contains 1 1)].
Proof. run_test. Qed.
Example SizeStaysZeroWhenCapacityZero : test
  [cache; do (SetCapacity 0 0); gives (Capacity 0) (RNat 0); gives (Size 0) (RNat 0);
   Do (IInsert 0 1 1) (Gives (JIns false 0)); gives (Capacity 0) (RNat 0); gives (Size 0) (RNat 0);
   Do (IEnd false 0) Done; Do (ISame 0 1) (Gives (JBool true));
   Do (IEmplace 0 2 2) (Gives (JIns false 2)); gives (Capacity 0) (RNat 0); gives (Size 0) (RNat 0);
   Do (IEnd false 0) Done; Do (ISame 2 3) (Gives (JBool true))].
Proof. run_test. Qed.
Example LookupsMoveElementsToFront : test
  [cache; do (SetCapacity 0 2); do (InsertRange 0 [(1, 1); (2, 2)]);
   Do (IFind 0 1) Done; Do (IToOrdered 0) Done; do (Emplace 0 3 3);
   is (Contains 0 1); isnt (Contains 0 2); is (Contains 0 3);
   Do (IEnd true 0) (Gives (JNew 2)); Do (IPrev 2) Done; Do (IKey 2) (Gives (JKey 3));
   gives (Front 0) (RKey 3); gives (Back 0) (RKey 1); gives (Lookup 0 1) (RVal 1);
   Do (IEnd true 0) (Gives (JNew 3)); Do (IPrev 3) Done; Do (IKey 3) (Gives (JKey 1));
   Do (IBegin true 0) (Gives (JNew 4)); Do (IKey 4) (Gives (JKey 3));
   gives (Front 0) (RKey 1); gives (Back 0) (RKey 3)].
Proof. run_test. Qed.

(** * callback-test.cpp *)
Definition hits_of (k : nat) (e : cbevent nat nat) : Z :=
  match e with EvHit _ k' _ => if Nat.eqb k k' then 1 else 0 | _ => 0 end%Z.
Definition misses_of (k : nat) (e : cbevent nat nat) : Z :=
  match e with EvMiss _ k' => if Nat.eqb k k' then 1 else 0 | _ => 0 end%Z.
Definition balance_of (k : nat) (e : cbevent nat nat) : Z :=
  match e with EvAccess _ k' f => if Nat.eqb k k' then if f then 1 else -1 else 0 | _ => 0 end%Z.
Definition counts (f : nat -> cbevent nat nat -> Z) (a b c : Z) : list line :=
  [Count (f 0) a; Count (f 1) b; Count (f 2) c].

Example HitCallbacksGetCalled : test (
  [cache; do (AddHit 0 9); do (Emplace 0 0 0); do (Emplace 0 1 1); do (Emplace 0 2 2)] ++
  is (Contains 0 0) :: counts hits_of 1 0 0 ++ do (Find 0 2) :: counts hits_of 1 0 1 ++
  do (Lookup 0 1) :: counts hits_of 1 1 1 ++ do (Lookup 0 0) :: counts hits_of 2 1 1 ++
  do (Contains 0 5) :: counts hits_of 2 1 1).
Proof. run_test. Qed.
Example MissCallbacksGetCalled : test (
  [cache; do (AddMiss 0 9); do (Emplace 0 0 0)] ++
  is (Contains 0 0) :: counts misses_of 0 0 0 ++ do (Find 0 2) :: counts misses_of 0 0 1 ++
  do (Find 0 1) :: counts misses_of 0 1 1 ++ do (Contains 0 1) :: counts misses_of 0 2 1).
Proof. run_test. Qed.
Example AccessCallbacksGetCalled : test (
  [cache; do (AddAccess 0 9); do (Emplace 0 0 0)] ++
  is (Contains 0 0) :: counts balance_of 1 0 0 ++ do (Find 0 2) :: counts balance_of 1 0 (-1) ++
  do (Find 0 1) :: counts balance_of 1 (-1) (-1) ++ do (Contains 0 1) :: counts balance_of 1 (-2) (-1) ++
  do (Find 0 0) :: counts balance_of 2 (-2) (-1)).
Proof. run_test. Qed.
Definition kinds (h m a : Z) : list line :=
  [Count (fun e => match e with EvHit _ _ _ => 1 | _ => 0 end%Z) h;
   Count (fun e => match e with EvMiss _ _ => 1 | _ => 0 end%Z) m;
   Count (fun e => match e with EvAccess _ _ _ => 1 | _ => 0 end%Z) a].
Example CallbacksAreNotCalledAfterBeingCleared : test (
  [cache; do (AddHit 0 7); do (AddMiss 0 8); do (AddAccess 0 9); do (Emplace 0 0 0);
   do (Contains 0 0); do (Find 0 1)] ++ kinds 1 1 2 ++
  [do (ClearCallbacks 0); do (Contains 0 0); do (Find 0 1); do (Find 0 2)] ++ kinds 1 1 2).
Proof. run_test. Qed.

(** * statistics-test.cpp; a Statistics object is made by monitor(), and registers
    through the cache (the hit_rate tests are those of C52) *)
Definition totals (a h m : Z) : line := gives (Totals 0) (RTotals a h m).
Example ConstructsWell : test
  [cache; do (MonitorNew 0 [1; 2; 3]); is (StatsIsMonitoring 0 1); is (StatsIsMonitoring 0 2);
   is (StatsIsMonitoring 0 3)].
Proof. run_test. Qed.
Example EmptyPreconditions : test
  [cache; do (MonitorNew 0 []); gives (StatsNumber 0) (RNat 0); isnt (StatsIsMonitoring 0 1);
   isnt (StatsIsMonitoring 0 2); totals 0 0 0].
Proof. run_test. Qed.
Example StatisticsMutatorCanRegisterHits : test
  [cache; do (Emplace 0 1 1); do (Emplace 0 2 2); do (MonitorNew 0 [1; 2; 3]);
   do (Contains 0 1); gives (StatsFor 0 1) (RKeyStats 1 0 1); totals 1 1 0;
   do (Contains 0 1); gives (StatsFor 0 1) (RKeyStats 2 0 2); totals 2 2 0;
   do (Contains 0 2); gives (StatsFor 0 1) (RKeyStats 2 0 2); gives (StatsFor 0 2) (RKeyStats 1 0 1);
   totals 3 3 0].
Proof. run_test. Qed.
Example StatisticsMutatorCanRegisterMisses : test
  [cache; do (MonitorNew 0 [1; 2; 3]);
   do (Contains 0 1); gives (StatsFor 0 1) (RKeyStats 0 1 1); totals 1 0 1;
   do (Contains 0 1); gives (StatsFor 0 1) (RKeyStats 0 2 2); totals 2 0 2;
   do (Contains 0 2); gives (StatsFor 0 1) (RKeyStats 0 2 2); gives (StatsFor 0 2) (RKeyStats 0 1 1);
   totals 3 0 3].
Proof. run_test. Qed.
Example CanDynamicallyMonitorAndUnmonitorKeys : test
  [cache; do (MonitorNew 0 []); gives (StatsNumber 0) (RNat 0);
   do (StatsMonitor 0 1); gives (StatsNumber 0) (RNat 1); is (StatsIsMonitoring 0 1); isnt (StatsIsMonitoring 0 2);
   do (StatsMonitor 0 2); gives (StatsNumber 0) (RNat 2); is (StatsIsMonitoring 0 1); is (StatsIsMonitoring 0 2);
   do (StatsUnmonitor 0 1); gives (StatsNumber 0) (RNat 1); isnt (StatsIsMonitoring 0 1); is (StatsIsMonitoring 0 2);
   do (StatsUnmonitorAll 0); gives (StatsNumber 0) (RNat 0); isnt (StatsIsMonitoring 0 1);
   isnt (StatsIsMonitoring 0 2)].
Proof. run_test. Qed.
Example ThrowsForUnmonitoredKey : test
  [cache; do (MonitorNew 0 []); throws (StatsFor 0 1) UnmonitoredKey; throws (StatsFor 0 2) UnmonitoredKey].
Proof. run_test. Qed.
Example CanShareStatistics : test
  [cache; cache; cache; do (Emplace 0 1 1); do (Emplace 1 1 1); do (MonitorNew 0 [1; 2; 3]);
   do (MonitorShared 1 0); do (MonitorShared 2 0);
   do (Contains 0 1); totals 1 1 0; gives (StatsFor 0 1) (RKeyStats 1 0 1);
   do (Contains 1 1); totals 2 2 0; gives (StatsFor 0 1) (RKeyStats 2 0 2);
   do (Contains 2 2); totals 3 2 1; gives (StatsFor 0 1) (RKeyStats 2 0 2);
   gives (StatsFor 0 2) (RKeyStats 0 1 1)].
Proof. run_test. Qed.
Example RequestForCacheStatisticsThrowsWhenNoneRegistered : test [cache; throws (Totals 0) NotMonitoring].
Proof. run_test. Qed.
(** Cache 0 holds the shared_ptr of the test. *)
Example CanRegisterLValueStatistics : test
  [cache; do (MonitorNew 0 []); cache; do (MonitorShared 1 0); is (IsMonitoring 1);
   do (Contains 1 1); totals 1 0 1; gives (Totals 1) (RTotals 1 0 1);
   do (Emplace 1 1 2); do (Contains 1 1); gives (Totals 1) (RTotals 2 1 1); totals 2 1 1].
Proof. run_test. Qed.
Example CanRegisterRValueStatistics : test
  [cache; do (MonitorNew 0 [1]); is (IsMonitoring 0); do (Contains 0 1); totals 1 0 1;
   do (Emplace 0 1 2); do (Contains 0 1); totals 2 1 1].
Proof. run_test. Qed.
Example CanConstructItsOwnStatistics : test
  [cache; do (MonitorNew 0 [1; 2; 3]); is (IsMonitoring 0); is (StatsIsMonitoring 0 1);
   is (StatsIsMonitoring 0 2); is (StatsIsMonitoring 0 3); do (Contains 0 1); totals 1 0 1;
   do (Emplace 0 1 2); do (Contains 0 1); totals 2 1 1].
Proof. run_test. Qed.
Example KnowsWhenItIsMonitoring : test
  [cache; isnt (IsMonitoring 0); do (MonitorNew 0 []); is (IsMonitoring 0); do (StopMonitoring 0);
   isnt (IsMonitoring 0)].
Proof. run_test. Qed.
Example StatisticsWorkWithCache : test
  [cache; do (MonitorNew 0 [1]); is (IsMonitoring 0); totals 0 0 0;
   do (Contains 0 1); totals 1 0 1; do (Emplace 0 1 1); totals 1 0 1; do (Contains 0 1); totals 2 1 1;
   do (Find 0 2); totals 3 1 2; do (Emplace 0 2 2); do (Find 0 2); totals 4 2 2;
   throws (Lookup 0 3) KeyNotFound; totals 5 2 3; do (Emplace 0 3 3); gives (Lookup 0 3) (RVal 3); totals 6 3 3;
   throws (Lookup 0 4) KeyNotFound; totals 7 3 4; do (Emplace 0 4 4); gives (Lookup 0 4) (RVal 4); totals 8 4 4].
Proof. run_test. Qed.
Example StopsMonitoringWhenAsked : test
  [cache; do (MonitorNew 0 [1]); cache; do (MonitorShared 1 0); do (Emplace 1 1 1);
   is (Contains 1 1); gives (StatsFor 1 1) (RKeyStats 1 0 1); do (StopMonitoring 1);
   is (Contains 1 1); gives (StatsFor 0 1) (RKeyStats 1 0 1)].
Proof. run_test. Qed.

(** * iterator-test.cpp *)
Definition same (i j : nat) : line := Do (ISame i j) (Gives (JBool true)).
Definition differ (i j : nat) : line := Do (ISame i j) (Gives (JBool false)).

Example UnorderedIteratorsAreCompatibleAsExpected : test
  [cache; do (Emplace 0 1 1); Do (IBegin false 0) Done; Do (ICopy 0) Done; Do (INull false) Done;
   Do (IAssign 2 1) (Gives JUnit); Do (IConstMove 0) Done; Do (IConst 1) Done; Do (INull false) Done;
   Do (IAssign 5 2) (Gives JUnit); same 5 0].
Proof. run_test. Qed.
Example OrderedIteratorsAreCompatibleAsExpected : test
  [cache; do (Emplace 0 1 1); Do (IBegin true 0) Done; Do (ICopy 0) Done; Do (INull true) Done;
   Do (IAssign 2 1) (Gives JUnit); Do (IConstMove 0) Done; Do (IConst 1) Done; Do (INull true) Done;
   Do (IAssign 5 2) (Gives JUnit); same 5 0].
Proof. run_test. Qed.
Example OrderedAndUnorderedAreComparable : test
  [cache; do (Emplace 0 1 1);
   Do (IBegin false 0) Done; Do (IBegin false 0) Done; Do (IBegin true 0) Done; Do (IBegin true 0) Done;
   Do (IEnd false 0) Done; Do (IEnd false 0) Done; Do (IEnd true 0) Done; Do (IEnd true 0) Done;
   same 0 1; same 2 3; same 4 5; same 6 7; same 0 2; same 2 0; same 4 6; same 6 4;
   do (Emplace 0 2 1);
   Do (IBegin true 0) (Gives (JNew 8)); Do (IFind 0 2) (Gives (JNew 9)); differ 8 9; differ 9 8].
Proof. run_test. Qed.
Example TestConversionFromUnorderedToOrdered : test
  [cache; do (Emplace 0 1 1); do (Emplace 0 2 2); do (Emplace 0 3 3);
   Do (IFind 0 1) (Gives (JNew 0)); Do (IKey 0) (Gives (JKey 1)); Do (IValue 0) (Gives (JVal 1));
   Do (IToOrdered 0) (Gives (JNew 1)); Do (IToOrdered 0) (Gives (JNew 2)); Do (IAssignMove 1 2) (Gives JUnit);
   Do (IKey 1) (Gives (JKey 1)); Do (IValue 1) (Gives (JVal 1));
   Do (IPrev 1) Done; Do (IKey 1) (Gives (JKey 3)); Do (IValue 1) (Gives (JVal 3));
   Do (IConst 0) (Gives (JNew 3)); Do (IAssign 3 0) (Gives JUnit);
   Do (IToOrderedMove 3) (Gives (JNew 4)); Do (IToOrderedMove 3) (Gives (JNew 5));
   Do (IAssignMove 4 5) (Gives JUnit);
   Do (IPrev 1) Done; Do (IAssign 4 1) (Gives JUnit); Do (IToOrdered 0) (Gives (JNew 6));
   Do (IAssignMove 4 6) (Gives JUnit);
   Do (IKey 1) (Gives (JKey 2)); Do (IValue 1) (Gives (JVal 2))].
Proof. run_test. Qed.
Example OrdereredIteratorsAreOrdered : test (cache ::
  upto 0 100 (fun i => [do (Emplace 0 i i)]) ++ Do (IBegin true 0) (Gives (JNew 0)) ::
  upto 0 100 (fun i => [Do (IValue 0) (Gives (JVal i)); Do (INext 0) Done])).
Proof. run_test. Qed.
Example OrderedIteratorsDoNotChangeTheOrderOfElements : test
  [cache; do (SetCapacity 0 2); do (InsertRange 0 [(1, 1)]); Do (IBegin true 0) (Gives (JNew 0));
   do (Emplace 0 2 2); Do (IRead 0) (Gives (JEnt 1 1));
   Do (INext 0) Done; Do (IRead 0) (Gives (JEnt 2 2)); Do (IPrev 0) Done; Do (IRead 0) (Gives (JEnt 1 1));
   do (Emplace 0 3 3); isnt (Contains 0 1); is (Contains 0 2); is (Contains 0 3)].
Proof. run_test. Qed.
Example UnorderedIteratorsDoNotChangeTheOrderOfElements : test
  [cache; do (SetCapacity 0 2); do (InsertRange 0 [(1, 1)]); Do (IBegin false 0) (Gives (JNew 0));
   do (Emplace 0 2 2); Do (IRead 0) (Gives (JEnt 1 1)); do (Emplace 0 3 3);
   isnt (Contains 0 1); is (Contains 0 2); is (Contains 0 3);
   gives (Back 0) (RKey 2); gives (Front 0) (RKey 3)].
Proof. run_test. Qed.
Example OrderedIteratorsThrowWhenAccessingExpiredElements : test
  [do (New 128 (Some 0%Z)); do (Emplace 0 1 1); Do (IBegin true 0) Done; Do (IEntry 0) (Throws KeyExpired)].
Proof. run_test. Qed.
Example UnorderedIteratorsThrowWhenAccessingExpiredElements : test
  [do (New 128 (Some 0%Z)); do (Emplace 0 1 1); Do (IBegin false 0) Done; Do (IEntry 0) (Throws KeyExpired)].
Proof. run_test. Qed.
Example IsValidReturnsTrueForValidIterators : test
  [cache; do (Emplace 0 1 1); do (Emplace 0 2 1); Do (IBegin true 0) Done;
   Do (IValid 0 0) (Gives (JBool true)); Do (INext 0) Done; Do (IValid 0 0) (Gives (JBool true));
   Do (IBegin false 0) Done;
   Do (IValid 0 1) (Gives (JBool true)); Do (INext 1) Done; Do (IValid 0 1) (Gives (JBool true))].
Proof. run_test. Qed.
Definition four : list line :=
  [Do (IBegin true 0) (Gives (JNew 0)); Do (IEnd true 0) (Gives (JNew 1));
   Do (IBegin false 0) (Gives (JNew 2)); Do (IEnd false 0) (Gives (JNew 3))].
Example IsValidReturnsFalseForInvalidIterators : test (cache :: do (New 128 (Some 0%Z)) :: four ++
  [Do (IValid 0 0) (Gives (JBool false)); Do (IValid 0 1) (Gives (JBool false));
   Do (IValid 0 2) (Gives (JBool false)); Do (IValid 0 3) (Gives (JBool false));
   do (Emplace 1 1 1); Do (IBegin true 0) (Gives (JNew 4)); Do (IBegin false 0) (Gives (JNew 5));
   Do (IValid 0 4) (Gives (JBool false)); Do (IValid 0 5) (Gives (JBool false))]).
Proof. run_test. Qed.
Example ThrowIfInvalidThrowsAsExpected : test (cache :: four ++
  [Guard true 0 0 (Some InvalidIterator); Guard true 0 1 (Some InvalidIterator);
   Guard false 0 2 (Some InvalidIterator); Guard false 0 3 (Some InvalidIterator);
   do (NewList (Some 0%Z) [(1, 1)]); gives (Size 1) (RNat 1);
   Do (IBegin true 1) (Gives (JNew 4)); Guard true 1 4 (Some KeyExpired);
   Do (IBegin false 1) (Gives (JNew 5)); Guard false 1 5 (Some KeyExpired)]).
Proof. run_test. Qed.
Definition begins : list line :=
  [Do (IBegin true 0) (Gives (JNew 0)); Do (IRead 0) (Gives (JEnt 1 1));
   Do (IBegin false 0) (Gives (JNew 1)); Do (IRead 1) (Gives (JEnt 1 1)); Sleep 1].
Example DereferencingNeverThrows : test (do (NewList (Some 1000%Z) [(1, 1)]) :: begins ++
  [Do (IBegin true 0) (Gives (JNew 2)); Do (IRead 2) (Gives (JEnt 1 1));
   Do (IBegin false 0) (Gives (JNew 3)); Do (IRead 3) (Gives (JEnt 1 1))]).
Proof. run_test. Qed.
Example CallingAccessThrowsForInvalidIterators : test (do (NewList (Some 1000%Z) [(1, 1)]) :: begins ++
  [Do (IBegin true 0) (Gives (JNew 2)); Do (IKey 2) (Throws KeyExpired);
   Do (IBegin false 0) (Gives (JNew 3)); Do (IKey 3) (Throws KeyExpired);
   Do (IBegin true 0) (Gives (JNew 4)); Do (IValue 4) (Throws KeyExpired);
   Do (IBegin false 0) (Gives (JNew 5)); Do (IValue 5) (Throws KeyExpired);
   Do (IEnd true 0) (Gives (JNew 6)); Do (IKey 6) (Throws InvalidIterator);
   Do (IEnd false 0) (Gives (JNew 7)); Do (IKey 7) (Throws InvalidIterator);
   Do (IEnd true 0) (Gives (JNew 8)); Do (IValue 8) (Throws InvalidIterator);
   Do (IEnd false 0) (Gives (JNew 9)); Do (IValue 9) (Throws InvalidIterator)]).
Proof. run_test. Qed.
(** key() and value() of unordered_end() have undefined behaviour in the standard's
    terms: entry() dereferences the iterator before the check (bu:181-188).  With
    [strict_env] it is reported as such. *)
Example CallingAccessOnUnorderedEndIsUndefined : exists st u,
  iexec (strict_env still) (IEnd false 0) (MkI (match run (strict_env still) [New 3 None] init_world with
    Finished _ w => w | _ => init_world end) []) = Val (JNew 0) st /\
  iexec (strict_env still) (IKey 0) st = Undef u.
Proof. eexists _, _. split; [vm_compute; reflexivity|vm_compute; reflexivity]. Qed.

(** * timed-cache-test.cpp *)
Example ContainsRespectsExpiration : test
  [do (New 128 (Some 2000%Z)); do (Insert 0 1 2); gives (Size 0) (RNat 1); is (Contains 0 1);
   gives (Lookup 0 1) (RVal 2); Sleep 1; is (Contains 0 1); Sleep 1; isnt (Contains 0 1)].
Proof. run_test. Qed.
Example KnowsWhenAllKeysHaveExpired : test
  [do (New 128 (Some 2000%Z)); is (AllExpired 0); do (AssignRange 0 [(1, 2); (2, 3)]); gives (Size 0) (RNat 2);
   isnt (AllExpired 0); Sleep 1; do (Insert 0 3 4); Sleep 1; isnt (AllExpired 0); isnt (Contains 0 1);
   isnt (Contains 0 2); is (Contains 0 3); Sleep 1; is (AllExpired 0); isnt (Contains 0 1);
   isnt (Contains 0 2); isnt (Contains 0 3)].
Proof. run_test. Qed.
Example CleanExpiredRemovesExpiredElements : test
  [do (NewFrom 128 (Some 2000%Z) [(1, 2); (2, 3)]); gives (Size 0) (RNat 2); isnt (AllExpired 0); Sleep 1;
   do (Insert 0 3 4); gives (Size 0) (RNat 3); Sleep 1; gives (Size 0) (RNat 3); do (ClearExpired 0);
   gives (Size 0) (RNat 1); isnt (Contains 0 1); isnt (Contains 0 2); is (Contains 0 3); Sleep 1;
   do (ClearExpired 0); isnt (Contains 0 3); gives (Size 0) (RNat 0); is (IsEmpty 0)].
Proof. run_test. Qed.
Example LookupThrowsWhenKeyExpired : test
  [do (NewFrom 128 (Some 2000%Z) [(1, 2)]); gives (Lookup 0 1) (RVal 2); Sleep 2; throws (Lookup 0 1) KeyExpired].
Proof. run_test. Qed.
Example HasExpiredReturnsFalseForNonContainedKeys : test
  [do (New 128 (Some 2000%Z)); isnt (HasExpired 0 1); isnt (HasExpired 0 2)].
Proof. run_test. Qed.
Example HasExpiredReturnsFalseForContainedButNotExpiredKeys : test
  [do (New 128 (Some 100000%Z)); do (Emplace 0 1 1); do (Emplace 0 2 2); isnt (HasExpired 0 1); isnt (HasExpired 0 2)].
Proof. run_test. Qed.
Example HasExpiredReturnsTrueForContainedAndExpiredKeys : test
  [do (New 128 (Some 2000%Z)); do (Emplace 0 1 1); Sleep 1; do (Emplace 0 2 2); isnt (HasExpired 0 1); Sleep 1;
   is (HasExpired 0 1); isnt (HasExpired 0 2); Sleep 3; is (HasExpired 0 1); is (HasExpired 0 2)].
Proof. run_test. Qed.
(** That the unordered iterator of "one" is the last one is the choice of the map
    (here: new nodes go first). *)
Example TimedLookupsMoveElementsToFront : test
  [do (New 128 (Some 1000000%Z)); do (SetCapacity 0 2); do (InsertRange 0 [(1, 1); (2, 2)]);
   Do (IFind 0 1) (Gives (JNew 0)); do (Emplace 0 3 3); is (Contains 0 1); isnt (Contains 0 2); is (Contains 0 3);
   Do (INext 0) Done; Do (IEnd false 0) (Gives (JNew 1)); same 0 1].
Proof. run_test. Qed.

(** * wrap-test.cpp: function 0 is the identity, function 1 counts its calls *)
Definition counting (f n k : nat) : fbody nat nat :=
  match f with 0 => Return k | _ => Return (S n) end.
Definition wrapped (l : list (wop nat)) : whist nat nat := wrun (ex_env still) counting 9 l init_wworld.
Definition answers (h : whist nat nat) : list (woutcome nat) :=
  match h with WFinished l _ | WUndefined l _ | WTerminated l _ => l end.
Example CanWrapMutableAndNonMutableLambdas :
  answers (wrapped [Wrap 0 0 None None; CallWrapped 0 0 5; Wrap 1 0 None None; CallWrapped 1 0 5]) =
  [WReturned (WNat 0); WReturned (WVal 5); WReturned (WNat 1); WReturned (WVal 5)].
Proof. run_test. Qed.
Example WrappingWorks :
  answers (wrapped [Wrap 0 1 None None; CallWrapped 0 0 69; CallWrapped 0 0 69; CallWrapped 0 0 42;
                    CallWrapped 0 0 42; CallWrapped 0 0 50]) =
  [WReturned (WNat 0); WReturned (WVal 1); WReturned (WVal 1); WReturned (WVal 2); WReturned (WVal 2);
   WReturned (WVal 3)].
Proof. run_test. Qed.
(** The capacity is a temporary, destroyed before the first call reads it through the
    reference kept by the closure (wrap.hpp:54-63): the test has undefined behaviour. *)
Example CanPassCapacityArgumentToWrap_is_undefined :
  wrapped [Wrap 0 1 None (Some (Temporary 1)); CallWrapped 0 0 1] =
  WUndefined [WReturned (WNat 0)] DanglingReference.
Proof. run_test. Qed.
Example CanPassCapacityArgumentToWrap_with_a_variable :
  answers (wrapped [Var 1; Wrap 0 1 None (Some (Lvalue 0)); CallWrapped 0 0 1; CallWrapped 0 0 1;
                    Wrap 0 1 None (Some (Temporary 0)); CallWrapped 0 0 1; CallWrapped 0 0 1]) =
  [WReturned (WNat 0); WReturned (WNat 0); WReturned (WVal 1); WReturned (WVal 1); WReturned (WNat 1);
   WReturned (WVal 1); WReturned (WVal 1)].
Proof. run_test. Qed.
(** The same for the duration. *)
Example CanPassTimeArgumentToTimedCacheWrap_is_undefined :
  wrapped [Wrap 0 1 (Some (Temporary 100000)) None; CallWrapped 0 0 1] =
  WUndefined [WReturned (WNat 0)] DanglingReference.
Proof. run_test. Qed.
Example CanPassTimeArgumentToTimedCacheWrap_with_a_variable :
  answers (wrapped [Var 100000; Wrap 0 1 (Some (Lvalue 0)) None; CallWrapped 0 0 1; CallWrapped 0 0 1;
                    TimedWrap 0 1 0 None; CallWrapped 0 0 1; CallWrapped 0 0 1]) =
  [WReturned (WNat 0); WReturned (WNat 0); WReturned (WVal 1); WReturned (WVal 1); WReturned (WNat 1);
   WReturned (WVal 1); WReturned (WVal 1)].
Proof. run_test. Qed.

(** * move-awareness-test.cpp: copies of whole keys and values; constructions from
    strings and pairs of numbers are [ByParts] *)
Definition tallied (a b : passed) (o : op nat nat) : option tally :=
  match t_exec (ex_env still) a b o (MkT (MkTally 0 0 0 0)
          (match run (ex_env still) [New 128 None] init_world with Finished _ w => w | _ => init_world end)) with
  | Val _ h => Some (t_tally h)
  | _ => None
  end.
Example DoesNotMoveForInsert : exists t, tallied ByParts ByParts (Insert 0 1 2) = Some t /\
  key_copies t = 1 /\ val_copies t = 1.
Proof. eexists. split; [vm_compute; reflexivity|run_test]. Qed.
Example ForwardsValuesWell : exists t, tallied ByParts ByParts (Emplace 0 1 2) = Some t /\
  key_copies t = 0 /\ val_copies t = 0.
Proof. eexists. split; [vm_compute; reflexivity|run_test]. Qed.
(** The range holds pairs of strings: keys and values are made in place. *)
Example MovesElementsOutOfRValueRanges : exists t, tallied ByParts ByParts (Emplace 0 1 2) = Some t /\
  key_copies t = 0 /\ val_copies t = 0.
Proof. eexists. split; [vm_compute; reflexivity|run_test]. Qed.
