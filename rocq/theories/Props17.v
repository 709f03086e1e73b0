(** Property theorems: memoised functions (the examples and the README). *)
From Coq Require Import List Arith ZArith Bool Permutation.
Import ListNotations.
From Verif Require Import Monad Types Model Api EnvEx Spec SpecStats SpecTimed ExBase Memo SpecMemo MemoProofs FibProofs.

(** As [ex_env], with values in Z. *)
Definition fib_env (clk : nat -> Z) : env nat Z :=
  MkEnv Nat.eqb Nat.eqb Z.eqb (fun l n => n :: l) (fun _ => false)
        clk (fun z => z) (Some 7) true (fun _ => false) quiet_cb.
Lemma fib_env_good clk : good (fib_env clk).
Proof.
  constructor; simpl.
  - apply Nat.eqb_refl.
  - apply Nat.eqb_sym.
  - intros a b c A B. apply Nat.eqb_eq in A, B. subst. apply Nat.eqb_refl.
  - reflexivity.
  - reflexivity.
  - reflexivity.
Qed.
Definition left_to_right (n : nat) : bool := true.
Definition right_to_left (n : nat) : bool := false.
Lemma emplaces : forall k v, puts 0 k v (@Emplace nat Z 0 k v). Proof. intros. constructor. Qed.

(** C80.  The memoised function behaves as the function, whatever the capacity and whatever
    correct values the cache has, and leaves only correct values behind.  This covers
    functions that call themselves and functions that throw. *)
Theorem C80_memoised : forall (K V : Type) (E : env K V), good E ->
  forall F, respectful F E -> forall put c, (forall k v, puts c k v (put k v)) ->
  forall w l k r, reachable E w -> timed w c = false -> contents E c w l -> correct F l -> means F k r ->
  exists d0, forall d, d0 <= d -> exists w' l', ends r (memo E F put d c k w) w' /\
    reachable E w' /\ contents E c w' l' /\ correct F l'.
Proof. exact @memo_cache. Qed.
Print Assumptions C80_memoised.
(** fibonacci(n) is the n-th number modulo 2^64. *)
Theorem C80_fibonacci : forall (E : env nat Z), good E -> plain_keys E ->
  forall left_first c put, (forall k v, puts c k v (put k v)) ->
  forall w l n, reachable E w -> timed w c = false -> contents E c w l -> correct (fibonacci left_first) l ->
  exists d0, forall d, d0 <= d -> exists w', memo E (fibonacci left_first) put d c n w = Val (Z.modulo (fib n) (2 ^ 64)) w'.
Proof. exact @fib_any. Qed.
Print Assumptions C80_fibonacci.
(** "The last number that fits into a 64 bit unsigned number" (statistics.cpp:74). *)
Theorem C80_last_that_fits : forall n, (fib n < 2 ^ 64)%Z <-> n <= 92.
Proof. exact @fib_fits. Qed.
Print Assumptions C80_last_that_fits.
Definition some_fibs := world_after (fib_env still) [New 2 None; Insert 0 7 21%Z; Insert 0 3 3%Z].
Example C80_case : good (fib_env still) /\ plain_keys (fib_env still) /\ reachable (fib_env still) some_fibs /\
  respectful (fibonacci left_to_right) (fib_env still) /\
  timed some_fibs 0 = false /\ contents (fib_env still) 0 some_fibs [(7, 21%Z); (3, 3%Z)] /\
  correct (fibonacci left_to_right) [(7, 21%Z); (3, 3%Z)] /\
  means (fibonacci left_to_right) 9 (inl 55%Z) /\
  (exists w', memo (fib_env still) (fibonacci left_to_right) (Emplace 0) 10 0 9 some_fibs = Val 55%Z w') /\
  (let F := server (fun k => if Nat.eqb k 4 then inr 404 else inl (Z.of_nat k)) in
   means F 4 (inr 404) /\ means F 3 (inl 3%Z) /\
   exists w', memo (fib_env still) F (Insert 0) 10 0 4 some_fibs = Exc (UserExn 404) w').
Proof.
  split; [apply fib_env_good|]. split; [intros a b; reflexivity|]. split; [reached|].
  split; [apply fib_respectful; intros a b; reflexivity|].
  split; [vm_compute; reflexivity|]. split; [vm_compute; reflexivity|].
  split; [intros k v [X|[X|[]]]; inversion X; subst;
    [exact (means_fib left_to_right 7)|exact (means_fib left_to_right 3)]|].
  split; [exact (means_fib left_to_right 9)|]. split; [eexists; vm_compute; reflexivity|].
  split; [eapply means_computed; [reflexivity|constructor]|].
  split; [eapply means_computed; [reflexivity|constructor]|]. eexists. vm_compute. reflexivity.
Qed.

(** C81.  The same for timed caches.  False: the element may expire between contains() and
    lookup(), which then throws.  (fibonacci(4), a fresh cache, time to live 2, the clock
    one tick further with each reading.) *)
Definition fresh_timed := world_after (fib_env ticking) [New 128 (Some 2%Z)].
Theorem C81_expires_refuted : exists (E : env nat Z) w k v,
  good E /\ reachable E w /\ contents E 0 w [] /\ means (fibonacci left_to_right) k (inl v) /\
  forall d, 5 <= d -> exists w', memo E (fibonacci left_to_right) (Emplace 0) d 0 k w = Exc KeyExpired w'.
Proof.
  exists (fib_env ticking), fresh_timed, 4, 5%Z. split; [apply fib_env_good|]. split; [reached|].
  split; [vm_compute; reflexivity|]. split; [exact (means_fib left_to_right 4)|].
  intros d D. do 5 (destruct d as [|d]; [exfalso; inversion D; repeat match goal with H : _ <= _ |- _ => inversion H; clear H end|]).
  eexists. vm_compute. reflexivity.
Qed.
Print Assumptions C81_expires_refuted.
(** The result is right or KeyExpired is thrown; the cache has correct values in both cases. *)
Theorem C81_or_expired_partial : forall (K V : Type) (E : env K V), good E ->
  forall F, respectful F E -> forall put c, (forall k v, puts c k v (put k v)) ->
  forall w l k r, reachable E w -> contents E c w l -> correct F l -> means F k r ->
  exists d0, forall d, d0 <= d -> exists w' l',
    (ends r (memo E F put d c k w) w' \/ memo E F put d c k w = Exc KeyExpired w') /\
    reachable E w' /\ contents E c w' l' /\ correct F l'.
Proof. exact @memo_any. Qed.
Print Assumptions C81_or_expired_partial.
(** If no two readings of the clock are further apart than the time to live, a cache that
    was empty gives the right result. *)
Theorem C81_lasting_partial : forall (K V : Type) (E : env K V), good E ->
  forall F, respectful F E -> forall put c, (forall k v, puts c k v (put k v)) ->
  forall w t k r, reachable E w -> contents E c w [] -> ttl_of c w (Some t) ->
  (forall i j, young E t (clock E i) (clock E j)) -> means F k r ->
  exists d0, forall d, d0 <= d -> exists w' l', ends r (memo E F put d c k w) w' /\
    reachable E w' /\ contents E c w' l' /\ correct F l'.
Proof. exact @memo_lasting. Qed.
Print Assumptions C81_lasting_partial.
Definition lasting_clock (n : nat) : Z := if Nat.ltb n 5 then 0%Z else 2%Z.
Example C81_case : good (fib_env lasting_clock) /\
  (let w := world_after (fib_env lasting_clock) [New 128 (Some 2%Z)] in
   reachable (fib_env lasting_clock) w /\ contents (fib_env lasting_clock) 0 w [] /\ ttl_of 0 w (Some 2%Z) /\
   (forall i j, young (fib_env lasting_clock) 2 (clock (fib_env lasting_clock) i) (clock (fib_env lasting_clock) j)) /\
   exists w', memo (fib_env lasting_clock) (fibonacci left_to_right) (Emplace 0) 10 0 9 w = Val 55%Z w').
Proof.
  split; [apply fib_env_good|]. split; [reached|]. split; [vm_compute; reflexivity|].
  split; [eexists; split; [vm_compute; reflexivity|vm_compute; reflexivity]|].
  split; [|eexists; vm_compute; reflexivity].
  intros i j. unfold young. simpl. unfold lasting_clock.
  destruct (Nat.ltb i 5), (Nat.ltb j 5); vm_compute; discriminate.
Qed.

(** C82.  "We'll always have n - 1 misses" (statistics.cpp:62), "a capacity of 2 is
    sufficient (and ideal)" (statistics.cpp:48).  C++ does not say which operand of + is
    evaluated first.  False if it is the left one: fibonacci(5) then has 5 misses. *)
Definition fresh_two := world_after (fib_env still) [New 2 None; MonitorNew 0 []].
Lemma fresh_two_monitored : monitored (fib_env still) 2 0 fresh_two.
Proof.
  split; [reached|]. split; [vm_compute; reflexivity|]. split; [vm_compute; reflexivity|].
  split; vm_compute; reflexivity.
Qed.
Theorem C82_capacity_two_refuted : exists (E : env nat Z) w w',
  good E /\ plain_keys E /\ monitored E 2 0 w /\
  memo E (fibonacci left_to_right) (Emplace 0) 10 0 5 w = Val 8%Z w' /\ monitor_shows E 0 w' 4 5.
Proof.
  exists (fib_env still), fresh_two. eexists. split; [apply fib_env_good|]. split; [intros a b; reflexivity|].
  split; [exact fresh_two_monitored|]. split; [vm_compute; reflexivity|vm_compute; reflexivity].
Qed.
Print Assumptions C82_capacity_two_refuted.
(** Left operand first, capacity 2: the misses are more than n - 1 from n = 5 on. *)
Theorem C82_left_two_partial : forall (E : env nat Z), good E -> plain_keys E ->
  forall left_first c put, (forall k v, puts c k v (put k v)) ->
  forall w n, monitored E 2 c w -> (forall i, left_first i = true) ->
  fib_outcome E left_first put c w n (2 * left_hits n) (left_misses n) /\ (5 <= n -> n <= left_misses n).
Proof. exact @fib_left_two. Qed.
Print Assumptions C82_left_two_partial.
(** Capacity 0, or capacity 1 and the left operand first: nothing is saved. *)
Theorem C82_no_room_partial : forall (E : env nat Z), good E -> plain_keys E ->
  forall left_first c put, (forall k v, puts c k v (put k v)) ->
  forall cap w n, monitored E cap c w -> cap = 0 \/ cap = 1 /\ (forall i, left_first i = true) ->
  fib_outcome E left_first put c w n 0 (Z.to_nat (fib n) - 1).
Proof. exact @fib_no_room. Qed.
Print Assumptions C82_no_room_partial.
(** Right operand first: 2 is enough. *)
Theorem C82_right_two_partial : forall (E : env nat Z), good E -> plain_keys E ->
  forall left_first c put, (forall k v, puts c k v (put k v)) ->
  forall cap w n, monitored E cap c w -> (forall i, left_first i = false) -> 2 <= cap ->
  fib_outcome E left_first put c w n (2 * (n - 3)) (n - 1).
Proof. exact @fib_right_two. Qed.
Print Assumptions C82_right_two_partial.
(** Any order, even a different one in each call: 3 is enough.  (Each hit counts twice:
    contains() and operator[].) *)
Theorem C82_three_partial : forall (E : env nat Z), good E -> plain_keys E ->
  forall left_first c put, (forall k v, puts c k v (put k v)) ->
  forall cap w n, monitored E cap c w -> 3 <= cap ->
  fib_outcome E left_first put c w n (2 * (n - 3)) (n - 1).
Proof. exact @fib_from_three. Qed.
Print Assumptions C82_three_partial.
Example C82_case : good (fib_env still) /\ plain_keys (fib_env still) /\ monitored (fib_env still) 2 0 fresh_two /\
  (forall k v, puts 0 k v (@Emplace nat Z 0 k v)) /\
  (exists w', memo (fib_env still) (fibonacci right_to_left) (Emplace 0) 10 0 9 fresh_two = Val 55%Z w' /\
     monitor_shows (fib_env still) 0 w' 12 8) /\
  (exists w', memo (fib_env still) (fibonacci left_to_right) (Emplace 0) 10 0 9 fresh_two = Val 55%Z w' /\
     monitor_shows (fib_env still) 0 w' (2 * 9) 24) /\ left_hits 9 = 9 /\ left_misses 9 = 24 /\
  (let w := world_after (fib_env still) [New 1 None; MonitorNew 0 []] in
   monitored (fib_env still) 1 0 w /\
   exists w', memo (fib_env still) (fibonacci left_to_right) (Emplace 0) 10 0 7 w = Val 21%Z w' /\
     monitor_shows (fib_env still) 0 w' 0 20) /\
  (let w := world_after (fib_env still) [New 3 None; MonitorNew 0 []] in
   monitored (fib_env still) 3 0 w /\
   exists w', memo (fib_env still) (fibonacci (fun n => Nat.even n)) (Emplace 0) 10 0 9 w = Val 55%Z w' /\
     monitor_shows (fib_env still) 0 w' 12 8).
Proof.
  split; [apply fib_env_good|]. split; [intros a b; reflexivity|]. split; [exact fresh_two_monitored|].
  split; [exact emplaces|]. split; [eexists; split; [vm_compute; reflexivity|vm_compute; reflexivity]|].
  split; [eexists; split; [vm_compute; reflexivity|vm_compute; reflexivity]|].
  split; [vm_compute; reflexivity|]. split; [vm_compute; reflexivity|].
  split; (split; [|eexists; split; [vm_compute; reflexivity|vm_compute; reflexivity]]).
  1: split; [reached|]; split; [vm_compute; reflexivity|]; split; [vm_compute; reflexivity|]; split; vm_compute; reflexivity.
  split; [reached|]. split; [vm_compute; reflexivity|]. split; [vm_compute; reflexivity|].
  split; vm_compute; reflexivity.
Qed.
