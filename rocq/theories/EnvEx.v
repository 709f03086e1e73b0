(** Concrete environments used by the examples (and nothing else). *)
From Coq Require Import List Arith ZArith Bool.
Import ListNotations.
From Verif Require Import Monad Types Model Api.

(** A callback that only records that it was called. *)
Definition quiet_cb {K V} (ev : cbevent K V) : M (world K V) unit :=
  modify (with_log (fun l => l ++ [ev])).

(** Keys and values are numbers; new map nodes go first; no rehash; the n-th
    clock reading is [clk n]; nothing fails. *)
Definition ex_env (clk : nat -> Z) : env nat nat :=
  MkEnv Nat.eqb Nat.eqb Nat.eqb (fun l n => n :: l) (fun _ => false)
        clk (fun z => z) (Some 7) true (fun _ => false) quiet_cb.

(** The clock stands still / advances one tick per reading. *)
Definition still : nat -> Z := fun _ => 0%Z.
Definition ticking : nat -> Z := Z.of_nat.

(** Keys that are equal modulo 10: KeyEqual is coarser than operator==. *)
Definition mod_env (clk : nat -> Z) : env nat nat :=
  MkEnv (fun a b => Nat.eqb (a mod 10) (b mod 10)) Nat.eqb Nat.eqb (fun l n => n :: l) (fun _ => false)
        clk (fun z => z) (Some 7) true (fun _ => false) quiet_cb.

(** As [ex_env], but reading an uninitialised variable and dereferencing a
    past-the-end iterator are undefined. *)
Definition strict_env (clk : nat -> Z) : env nat nat :=
  MkEnv Nat.eqb Nat.eqb Nat.eqb (fun l n => n :: l) (fun _ => false)
        clk (fun z => z) None false (fun _ => false) quiet_cb.

(** As [ex_env], but every insertion makes the hash table grow. *)
Definition rehash_env (clk : nat -> Z) : env nat nat :=
  MkEnv Nat.eqb Nat.eqb Nat.eqb (fun l n => l ++ [n]) (fun _ => true)
        clk (fun z => z) (Some 7) true (fun _ => false) quiet_cb.
