(** Property theorems: filling, moving and resizing caches, and searches without
    success, in histories in which caches may be copied. *)
From Coq Require Import List Arith ZArith Bool.
Import ListNotations.
From Verif Require Import Monad Types Model Api EnvEx Spec ExBase SpecAny AnyMore AnyFill Props27.

(** C104.  Whatever calls a program has made, copies of caches included: inserting a range of different new keys
    stores as many of them as fit, the last ones as the most recently used, ... *)
Theorem C104_insert_range : forall (K V : Type) (E : env K V), good E ->
  forall w c l n m o, attained E w -> puts_range c m o -> coherent E c w l n -> distinct E m ->
  Forall (fun p => has E (fst p) l = false) m ->
  exists w', exec E o w = Val (RNat (if Nat.eqb n 0 then 0 else length m)) w' /\ coherent E c w' (newest n (l ++ m)) n /\
    forall d ld nd, d <> c -> coherent E d w ld nd -> coherent E d w' ld nd.
Proof. exact @any_fill. Qed.
Print Assumptions C104_insert_range.
(** ... assigning a range of different keys replaces what the cache had, ... *)
Theorem C104_assign_range : forall (K V : Type) (E : env K V), good E ->
  forall w c l n m o, attained E w -> assigns c m o -> coherent E c w l n -> distinct E m ->
  exists w', exec E o w = Val RUnit w' /\ coherent E c w' m (Nat.max n (length m)) /\
    forall d ld nd, d <> c -> coherent E d w ld nd -> coherent E d w' ld nd.
Proof. exact @any_assign. Qed.
Print Assumptions C104_assign_range.
(** ... a constructor makes a new cache with the elements given, ... *)
Theorem C104_construct : forall (K V : Type) (E : env K V), good E ->
  forall w t o cap m, attained E w -> builds t o cap m -> distinct E m ->
  exists d w', exec E o w = Val (RNat d) w' /\ alive w d = false /\ coherent E d w' (newest cap m) cap /\
    forall e le ne, coherent E e w le ne -> coherent E e w' le ne.
Proof. exact @any_build. Qed.
Print Assumptions C104_construct.
(** ... a moved cache has what the source had, which is left empty with the capacity that the uninitialised member
    happens to hold, ... *)
Theorem C104_move : forall (K V : Type) (E : env K V), good E ->
  forall w c l n j, attained E w -> coherent E c w l n -> junk E = Some j ->
  exists d w', exec E (Move c) w = Val (RNat d) w' /\ alive w d = false /\ coherent E d w' l n /\ coherent E c w' [] j /\
    forall e le ne, e <> c -> coherent E e w le ne -> coherent E e w' le ne.
Proof. exact @any_move. Qed.
Print Assumptions C104_move.
Theorem C104_move_assign : forall (K V : Type) (E : env K V), good E ->
  forall w c d l n m k, attained E w -> c <> d -> same_kind w c d = true -> coherent E c w l n -> coherent E d w m k ->
  exists w', exec E (MoveAssign c d) w = Val RUnit w' /\ coherent E c w' m k /\ coherent E d w' l n /\
    forall e le ne, e <> c -> e <> d -> coherent E e w le ne -> coherent E e w' le ne.
Proof. exact @any_move_assign. Qed.
Print Assumptions C104_move_assign.
(** ... a capacity that is large enough is set, and shrinking to such a size does nothing, ... *)
Theorem C104_capacity : forall (K V : Type) (E : env K V), good E ->
  forall w c l n m, attained E w -> coherent E c w l n -> length l <= m ->
  exists w', exec E (SetCapacity c m) w = Val RUnit w' /\ coherent E c w' l m /\
    forall d ld nd, d <> c -> coherent E d w ld nd -> coherent E d w' ld nd.
Proof. exact @any_capacity. Qed.
Print Assumptions C104_capacity.
Theorem C104_shrink : forall (K V : Type) (E : env K V), good E ->
  forall w c l n m, attained E w -> coherent E c w l n -> length l <= m -> exec E (Shrink c m) w = Val RUnit w.
Proof. exact @any_shrink. Qed.
Print Assumptions C104_shrink.
(** ... and find() of a key that is not there says so and changes no cache. *)
Theorem C104_find_absent : forall (K V : Type) (E : env K V), good E ->
  forall w c k l n, attained E w -> coherent E c w l n -> has E k l = false ->
  exists w', exec E (Find c k) w = Val (ROpt None) w' /\ forall d ld nd, coherent E d w ld nd -> coherent E d w' ld nd.
Proof. exact @any_find. Qed.
Print Assumptions C104_find_absent.

Definition some_range : list (nat * nat) := [(4, 40); (5, 50)].
Example C104_case : attained E0 copied3 /\ coherent E0 1 copied3 [(3, 30); (2, 20); (7, 70)] 3 /\
  coherent E0 2 copied3 [(3, 30); (2, 20); (7, 70); (8, 80)] 5 /\ same_kind copied3 1 2 = true /\ junk E0 = Some 7 /\
  distinct E0 some_range /\ Forall (fun p => has E0 (fst p) [(3, 30); (2, 20); (7, 70)] = false) some_range /\
  newest 3 ([(3, 30); (2, 20); (7, 70)] ++ some_range) = [(7, 70); (4, 40); (5, 50)] /\
  newest 3 some_range = some_range /\ builds None (NewMove 3 None some_range) 3 some_range /\
  has E0 9 [(3, 30); (2, 20); (7, 70)] = false /\ length [(3, 30); (2, 20); (7, 70)] <= 8.
Proof.
  split; [exact copied3_attained|]. do 2 (split; [apply copied3_coherent; vm_compute; reflexivity|]). do 2 (split; [reflexivity|]).
  split; [vm_compute; auto|]. split; [repeat constructor|]. do 2 (split; [reflexivity|]). split; [constructor|]. split; [reflexivity|].
  simpl. auto with arith.
Qed.
