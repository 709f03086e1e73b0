(** Specification vocabulary for searches: ranges, copies, comparison, timed caches. *)
From Coq Require Import List Arith ZArith Bool.
Import ListNotations.
From Verif Require Import Monad Types Model Api Spec Searches SpecSearches.
Set Implicit Arguments.

Section SpecMoreSearches.
Context {K V : Type}.
Variable E : env K V.
Variables st ct : nat -> option nat.
Notation hworld := (hworld K V).

(** The calls that insert the elements of a range one by one. *)
Inductive singly (c : nat) (l : list (K * V)) : op K V -> (K * V -> op K V) -> Prop :=
| singly_insert : singly c l (InsertRange c l) (fun p => Insert c (fst p) (snd p))
| singly_emplace : singly c l (InsertMove c l) (fun p => Emplace c (fst p) (snd p)).
(** Making these calls one after another until one throws, and counting the new keys. *)
Fixpoint each (f : K * V -> op K V) (l : list (K * V)) (n : nat) (h : hworld) : res hworld (out K V) :=
  match l with
  | [] => Val (RNat n) h
  | p :: l =>
      match h_exec E st ct (f p) h with
      | Val (RIns b _) h => each f l (if b then S n else n) h
      | r => r
      end
  end.

(** A search made during the call threw, which ended the program. *)
Definition ended_searching {A} (h : hworld) (r : res hworld A) : Prop :=
  exists i n, st i = Some n /\ h_searches h <= i /\ r = Term (UserExn n).
(** Calls out of which no exception of a search comes. *)
Inductive sealed : op K V -> Prop :=
| sealed_assign c d : sealed (CopyAssign c d)
| sealed_expired c k : sealed (HasExpired c k)
| sealed_equal c d : sealed (Equal c d).

(** How many searches a call makes in a cache with the elements [l]. *)
Inductive also_makes (c : nat) (l : list (K * V)) : op K V -> nat -> Prop :=
| makes_expired k : also_makes c l (HasExpired c k) 1
| makes_all : l <> [] -> also_makes c l (AllExpired c) 1
| makes_all_empty : l = [] -> also_makes c l (AllExpired c) 0
| makes_equal_self : also_makes c l (Equal c c) 0
| makes_assign_self : also_makes c l (CopyAssign c c) 0.

(** How many keys of the range [l] are new, when they are inserted one by one into a cache with
    the elements [l0]. *)
Definition new_keys (l : list (K * V)) (cap : nat) (l0 : list (K * V)) : nat := fst (lputs E l (Lru cap (rev l0))).
(** One search for each element, another for each new key, and a third for each eviction. *)
Definition range_searches (l : list (K * V)) (cap : nat) (l0 : list (K * V)) : nat :=
  if Nat.eqb cap 0 then 0 else length l + new_keys l cap l0 + (length l0 + new_keys l cap l0 - cap).
(** Copying [n] elements: one search for each, and another if the hash values are not kept. *)
Definition copy_searches (keeps : bool) (n : nat) : nat := if keeps then n else n + n.
(** clear_expired, called in [w0] when the elements were [l], has removed the first of those it would. *)
Definition part_cleared (c : nat) (l : list (K * V)) (w0 w : world K V) : Prop :=
  exists m n w1, exec E (ClearExpired c) w0 = Val (RNat n) w1 /\ m <= n /\ contents E c w (skipn m l).

(** Every cache is there as before, with the same elements and capacity, and no other. *)
Definition as_before (w w' : world K V) : Prop :=
  (forall c, alive w' c = alive w c) /\
  (forall c l, contents E c w l -> contents E c w' l) /\
  (forall c n, capacity_is E c w n -> capacity_is E c w' n).

End SpecMoreSearches.
