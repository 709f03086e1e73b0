(** Specification vocabulary for memoised functions. *)
From Coq Require Import List Arith ZArith Bool.
Import ListNotations.
From Verif Require Import Monad Types Model Api Spec SpecStats SpecTimed Memo.
Set Implicit Arguments.

Section SpecMemo.
Context {K V : Type}.
Variable F : K -> V + recipe K V.

(** What the function, without any cache, gives: a value or an exception. *)
Inductive means : K -> V + nat -> Prop :=
| means_base k v : F k = inl v -> means k (inl v)
| means_computed k b r : F k = inr b -> yields b r -> means k r
with yields : recipe K V -> V + nat -> Prop :=
| yields_give v : yields (Give v) (inl v)
| yields_fail n : yields (Fail n) (inr n)
| yields_need k go_on v r : means k (inl v) -> yields (go_on v) r -> yields (Need k go_on) r
| yields_need_fail k go_on n : means k (inr n) -> yields (Need k go_on) (inr n).

Variable E : env K V.

(** The function does the same for equal keys. *)
Definition respectful : Prop := forall a b, key_equal E a b = true -> F a = F b.

(** The elements are values of the function. *)
Definition correct (l : list (K * V)) : Prop := forall k v, In (k, v) l -> means k (inl v).

(** How the call of a memoised function ends. *)
Definition ends (r : V + nat) (x : res (world K V) V) (w' : world K V) : Prop :=
  match r with
  | inl v => x = Val v w'
  | inr n => x = Exc (UserExn n) w'
  end.

End SpecMemo.

(** The Fibonacci numbers of the examples (1, 1, 2, 3, ...). *)
Fixpoint fib_pair (n : nat) : Z * Z :=
  match n with
  | O => (1, 1)%Z
  | S n => let '(a, b) := fib_pair n in (b, (a + b)%Z)
  end.
Definition fib (n : nat) : Z := fst (fib_pair n).

(** The misses and hits of fibonacci(n), left operand first, in a fresh cache of
    capacity 2 (each hit is a call of contains and one of operator[]).  Each
    number but the first four is found missing along with the one two below it,
    and what led to the number four below is computed again. *)
Fixpoint left_misses (n : nat) : nat :=
  match n with
  | O | 1 => 0
  | 2 => 1
  | 3 => 2
  | 4 => 3
  | S (S (S (S m)) as p) => left_misses p + left_misses m + 2
  end.
Fixpoint left_hits (n : nat) : nat :=
  match n with
  | O | 1 | 2 | 3 => 0
  | 4 => 1
  | S (S (S (S m)) as p) => left_hits p + left_hits m + 1
  end.

(** KeyEqual is equality of numbers. *)
Definition plain_keys {V} (E : env nat V) : Prop := forall a b, key_equal E a b = Nat.eqb a b.

(** The fresh cache and monitor of statistics.cpp:49-50, of capacity [cap]:
    the world, the cache. *)
Definition monitored {V} (E : env nat V) (cap : nat) (c : nat) (w : world nat V) : Prop :=
  reachable E w /\ timed w c = false /\ contents E c w [] /\ capacity_is E c w cap /\
  totals_are E c w (0, 0, 0)%Z.

(** After the call, [total_hits()] and [total_misses()] are these. *)
Definition monitor_shows {V} (E : env nat V) (c : nat) (w : world nat V) (hits misses : nat) : Prop :=
  totals_are E c w (size_t (Z.of_nat (hits + misses)), size_t (Z.of_nat hits), size_t (Z.of_nat misses)).

(** Calling the function for [n] gives the n-th number modulo 2^64, after which
    the statistics show these. *)
Definition fib_outcome (E : env nat Z) (left_first : nat -> bool) (put : nat -> Z -> op nat Z) (c : nat)
    (w : world nat Z) (n hits misses : nat) : Prop :=
  exists d0, forall d, d0 <= d -> exists w',
    memo E (fibonacci left_first) put d c n w = Val (Z.modulo (fib n) (2 ^ 64)) w' /\ monitor_shows E c w' hits misses.
