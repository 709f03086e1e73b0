(** Property theorems: LastAccessed objects in the hands of a client. *)
From Coq Require Import List Arith Bool.
Import ListNotations.
From Verif Require Import Monad LastObj SpecLast LastProofs LastMore.

(** KeyEqual object 0 is ==, object 1 compares modulo 10, object 2 throws. *)
Definition lequal (e : nat) (a b : nat) : option bool :=
  match e with
  | 0 => Some (Nat.eqb a b)
  | 1 => Some (Nat.eqb (Nat.modulo a 10) (Nat.modulo b 10))
  | _ => None
  end.
(** Three elements, as in tests/last-accessed-test.cpp, the keys const; two objects. *)
Definition three : list (lop nat nat) :=
  [LNewKey 1 true; LNewInfo 10; LNewKey 2 true; LNewInfo 20; LNewKey 13 false; LNewInfo 30; LOf 0 0 0; LNew 1].
Definition ltrace (l : list (lop nat nat)) : option (list (lret nat nat)) := option_map fst (lrun lequal l init_lstate).
Definition lpart (l : list (lop nat nat)) : lstate nat nat :=
  match lrun lequal l init_lstate with Some (_, st) => st | None => init_lstate end.

(** C102.  What a step of a program does is what its history foretells: an object refers to the key and information
    it was given last, directly or through other objects, and shows their present state. *)
Theorem C102_foretold : forall (K I : Type) (equal : nat -> K -> K -> option bool) l outs st q,
  lrun equal l (@init_lstate K I) = Some (outs, st) -> ends (lexec equal q st) = foretold equal (rev l) q.
Proof. exact @last_foretold. Qed.
Print Assumptions C102_foretold.
(** In particular, as long as it is not given anything else, it shows what it was given, ... *)
Theorem C102_given : forall (K I : Type) (equal : nat -> K -> K -> option bool) l q m outs st x a b r,
  lrun equal (l ++ q :: m) (@init_lstate K I) = Some (outs, st) -> nth_error outs (length l) = Some r -> gives x a b q r ->
  existsb (concerns x) m = false ->
  ends (lexec equal (LValid x) st) = Tells (LBool true) /\
  ends (lexec equal (LKey x) st) = ends (lexec equal (LReadKey a) st) /\
  ends (lexec equal (LInfo x) st) = ends (lexec equal (LReadInfo b) st).
Proof. exact @last_given. Qed.
Print Assumptions C102_given.
(** ... it is invalid after invalidate(), equal to no key, and cannot be read, ... *)
Theorem C102_invalid : forall (K I : Type) (equal : nat -> K -> K -> option bool) l m outs st x,
  lrun equal (l ++ LInvalidate x :: m) (@init_lstate K I) = Some (outs, st) -> existsb (concerns x) m = false ->
  ends (lexec equal (LValid x) st) = Tells (LBool false) /\
  (forall k, ends (lexec equal (LEq x k) st) = Tells (LBool false)) /\
  (forall k, ends (lexec equal (LNe x k) st) = Tells (LBool true)) /\
  ends (lexec equal (LKey x) st) = Breaks /\ ends (lexec equal (LInfo x) st) = Breaks.
Proof. exact @last_invalid. Qed.
Print Assumptions C102_invalid.
(** ... and a copy answers every question like the original. *)
Theorem C102_copy : forall (K I : Type) (equal : nat -> K -> K -> option bool) l m outs st x y q q',
  lrun equal (l ++ LCopy x :: m) (@init_lstate K I) = Some (outs, st) -> nth_error outs (length l) = Some (LNum y) ->
  existsb (concerns x) m = false -> existsb (concerns y) m = false -> asks x q q' y ->
  ends (lexec equal q st) = ends (lexec equal q' st).
Proof. exact @last_copy. Qed.
Print Assumptions C102_copy.
(** Steps in between that do not concern object 0, though they write through another object; object 2 is a copy of
    object 1. *)
Definition between : list (lop nat nat) := [LGive 1 (IAt 1 1); LSetInfo 1 77; LCopy 1; LInvalidate 1; LDelKey 0].
Example C102_case :
  ltrace (three ++ LGive 0 (IAt 1 1) :: between) =
    Some [LNum 0; LNum 0; LNum 1; LNum 1; LNum 2; LNum 2; LNum 0; LNum 1; LUnit; LUnit; LUnit; LNum 2; LUnit; LUnit] /\
  existsb (concerns 0) between = false /\ gives 0 1 1 (LGive 0 (IAt 1 1)) (@LUnit nat nat) /\
  ends (lexec lequal (LInfo 0) (lpart (three ++ LGive 0 (IAt 1 1) :: between))) = Tells (LInfoIs 77) /\
  ends (lexec lequal (LInfo 2) (lpart (three ++ LGive 0 (IAt 1 1) :: between))) = Tells (LInfoIs 77) /\
  ends (lexec lequal (LValid 1) (lpart (three ++ LGive 0 (IAt 1 1) :: between))) = Tells (LBool false) /\
  ends (lexec lequal (LSetKey 0 5) (lpart (three ++ LGive 0 (IAt 1 1) :: between))) = Breaks /\
  ends (lexec lequal (LKey 0) (lpart (three ++ between))) = Breaks /\
  asks 2 (LEq 2 12) (@LEq nat nat 0 12) 0.
Proof. repeat split; try (vm_compute; reflexivity); constructor. Qed.

(** C103.  Objects can be compared with keys and iterators in both orders: comparison with a key is KeyEqual of the key
    and the present key of the object; ... *)
Theorem C103_key_partial : forall (K I : Type) (equal : nat -> K -> K -> option bool) l q m outs st x e k k',
  lrun equal (l ++ q :: m) (@init_lstate K I) = Some (outs, st) -> nth_error outs (length l) = Some (LNum x) -> makes_with e q ->
  existsb (exchanges x) m = false -> ends (lexec equal (LKey x) st) = Tells (LKeyIs k') ->
  ends (lexec equal (LEq x k) st) = says (equal e k k').
Proof. exact @last_equal. Qed.
Print Assumptions C103_key_partial.
(** ... with an iterator to an element, comparison with its key; ... *)
Theorem C103_iterator_partial : forall (K I : Type) (equal : nat -> K -> K -> option bool) l outs st x a b k,
  lrun equal l (@init_lstate K I) = Some (outs, st) -> ends (lexec equal (LReadKey a) st) = Tells (LKeyIs k) ->
  ends (lexec equal (LEqIt x (IAt a b)) st) = ends (lexec equal (LEq x k) st) /\
  ends (lexec equal (LNeIt x (IAt a b)) st) = ends (lexec equal (LNe x k) st).
Proof. exact @last_iter. Qed.
Print Assumptions C103_iterator_partial.
(** ... and != is the opposite of ==. *)
Theorem C103_not_partial : forall (K I : Type) (equal : nat -> K -> K -> option bool) l outs st x k,
  lrun equal l (@init_lstate K I) = Some (outs, st) ->
  ends (lexec equal (LNe x k) st) = opposite (ends (lexec equal (LEq x k) st)).
Proof. exact @last_not. Qed.
Print Assumptions C103_not_partial.
(** But the comparison with an end iterator is undefined, for every object in every state, an invalid one included, ... *)
Theorem C103_end_refuted : forall (K I : Type) (equal : nat -> K -> K -> option bool) l outs st x,
  lrun equal l (@init_lstate K I) = Some (outs, st) ->
  ends (lexec equal (LEqIt x IEnd) st) = Breaks /\ ends (lexec equal (LNeIt x IEnd) st) = Breaks.
Proof. exact @last_end. Qed.
Print Assumptions C103_end_refuted.
(** ... and a KeyEqual that throws ends the program. *)
Theorem C103_throw_refuted : exists (l : list (lop nat nat)) outs st,
  lrun lequal l init_lstate = Some (outs, st) /\ ends (lexec lequal (LEq 0 7) st) = Aborts.
Proof.
  exists [LNewKey 1 true; LNewInfo 10; LFrom (IAt 0 0) 2]. do 2 eexists. split; [vm_compute; reflexivity|].
  vm_compute. reflexivity.
Qed.
Print Assumptions C103_throw_refuted.
Example C103_case :
  ltrace (three ++ [LGive 1 (IAt 2 2); LEq 1 3; LNe 1 4; LEqIt 1 (IAt 1 1); LEqIt 0 (IAt 0 0); LSetKey 1 4; LEq 1 4]) =
    Some [LNum 0; LNum 0; LNum 1; LNum 1; LNum 2; LNum 2; LNum 0; LNum 1; LUnit; LBool true; LBool true; LBool false; LBool true;
          LUnit; LBool true] /\
  makes_with 1 (@LNew nat nat 1) /\ existsb (exchanges 1) [@LGive nat nat 1 (IAt 2 2); LSetKey 1 4] = false /\
  ends (lexec lequal (LEqIt 1 IEnd) (lpart (three ++ [LInvalidate 1]))) = Breaks.
Proof. repeat split; try (vm_compute; reflexivity). constructor. Qed.
