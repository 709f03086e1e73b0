(** Model of LastAccessed objects in the hands of a client, as in
    tests/last-accessed-test.cpp: internal/last-accessed.hpp (la).  ([Model.v] has the
    one object of a cache, reduced to an optional element.)

    Keys and informations are objects of the client, with addresses in the order of
    creation; an iterator is the end or refers to a key and an information.
    Simplifications: what a program does with variables that do not exist is given no
    meaning (undefined behaviour); a LastAccessed object is not destroyed; iterator()
    and value() (la:204-219) are parts of information(); copying a KeyEqual does not
    throw. *)
From Coq Require Import List Arith Bool.
Import ListNotations.
From Verif Require Import Monad.
Local Open Scope cpp_scope.
Set Implicit Arguments.

Section LastObj.
Context {K I : Type}.
(** What the KeyEqual object [e] says of two keys ([None]: it throws). *)
Variable equal : nat -> K -> K -> option bool.

(** The members (la:245-257); [None] is the null pointer. *)
Record last_accessed : Type := MkLast {
  la_key : option nat;
  la_info : option nat;
  la_valid : bool;
  la_equal : nat
}.

(** A key may be const, as the keys of a map are. *)
Record lstate : Type := MkLst {
  l_keys : list (option (K * bool));
  l_infos : list (option I);
  l_objs : list last_accessed
}.
Definition init_lstate : lstate := MkLst [] [] [].
Notation LM := (M lstate).

Inductive iter : Type := IEnd | IAt (a b : nat).

(** [x], [y] number LastAccessed objects, [a] keys, [b] informations, [e] KeyEqual
    objects. *)
Inductive lop : Type :=
| LNewKey (k : K) (const : bool)         (* an element, or a variable *)
| LNewInfo (i : I)
| LDelKey (a : nat)
| LDelInfo (b : nat)
| LReadKey (a : nat)                     (* by the client itself *)
| LReadInfo (b : nat)
| LPutInfo (b : nat) (i : I)
| LNew (e : nat)                         (* LastAccessed x(e) *)
| LOf (a b e : nat)                      (* LastAccessed x(key, information, e) *)
| LFrom (it : iter) (e : nat)            (* LastAccessed x(it, e) *)
| LCopy (x : nat)                        (* LastAccessed y(x) *)
| LAssign (x y : nat)                    (* x = y *)
| LGive (x : nat) (it : iter)            (* x = it *)
| LSwap (x y : nat)                      (* std::swap(x, y) *)
| LInvalidate (x : nat)
| LValid (x : nat)                       (* x.is_valid(), bool(x) *)
| LKey (x : nat)                         (* x.key() *)
| LInfo (x : nat)                        (* x.information() *)
| LSetKey (x : nat) (k : K)              (* x.key() = k *)
| LSetInfo (x : nat) (i : I)             (* x.information() = i *)
| LEq (x : nat) (k : K)                  (* x == k, k == x *)
| LNe (x : nat) (k : K)
| LEqIt (x : nat) (it : iter)            (* x == it, it == x *)
| LNeIt (x : nat) (it : iter).

Inductive lret : Type :=
| LUnit | LNum (n : nat) | LBool (b : bool) | LKeyIs (k : K) | LInfoIs (i : I).

Fixpoint put {A} (l : list A) (n : nat) (a : A) : list A :=
  match l, n with
  | [], _ => []
  | _ :: t, 0 => a :: t
  | b :: t, S n => b :: put t n a
  end.

(** ** The client's own objects *)
Definition read_key (a : nat) : LM K := fun st =>
  match nth a (l_keys st) None with Some (k, _) => Val k st | None => Undef DanglingReference end.
Definition read_info (b : nat) : LM I := fun st =>
  match nth b (l_infos st) None with Some i => Val i st | None => Undef DanglingReference end.
Definition put_key (a : nat) (v : option (K * bool)) : LM unit :=
  modify (fun st => MkLst (put (l_keys st) a v) (l_infos st) (l_objs st)).
Definition put_info (b : nat) (v : option I) : LM unit :=
  modify (fun st => MkLst (l_keys st) (put (l_infos st) b v) (l_objs st)).
Definition write_key (a : nat) (k : K) : LM unit := fun st =>
  match nth a (l_keys st) None with
  | Some (_, true) => Undef ConstObject
  | Some (_, false) => put_key a (Some (k, false)) st
  | None => Undef DanglingReference
  end.
Definition write_info (b : nat) (i : I) : LM unit := read_info b;;; put_info b (Some i).
(** iterator->first and iterator->second, as references. *)
Definition target (it : iter) : LM (nat * nat) :=
  match it with
  | IEnd => undef PastTheEnd
  | IAt a b => read_key a;;; read_info b;;; ret (a, b)
  end.

(** ** The class *)
Definition get_obj (x : nat) : LM last_accessed := fun st =>
  match nth_error (l_objs st) x with Some o => Val o st | None => Undef DeadObject end.
Definition put_obj (x : nat) (o : last_accessed) : LM unit :=
  modify (fun st => MkLst (l_keys st) (l_infos st) (put (l_objs st) x o)).
Definition new_obj (o : last_accessed) : LM lret := fun st =>
  Val (LNum (length (l_objs st))) (MkLst (l_keys st) (l_infos st) (l_objs st ++ [o])).

(** la:71-76 *)
Definition la_default (e : nat) : LM lret := new_obj (MkLast None None false e).
(** la:83-90 *)
Definition la_construct (a b e : nat) : LM lret := new_obj (MkLast (Some a) (Some b) true e).
(** la:97-101 *)
Definition la_from (it : iter) (e : nat) : LM lret :=
  '(a, b) <- target it;; la_construct a b e.
(** la:108-115: the KeyEqual stays *)
Definition la_give (x : nat) (it : iter) : LM unit :=
  o <- get_obj x;; '(a, b) <- target it;; put_obj x (MkLast (Some a) (Some b) true (la_equal o)).
(** the implicit copy constructor and assignment: an lvalue of the class itself prefers
    them to the templates la:97 and la:109 *)
Definition la_copy (x : nat) : LM lret := o <- get_obj x;; new_obj o.
Definition la_assign (x y : nat) : LM unit := get_obj x;;; o <- get_obj y;; put_obj x o.
(** std::swap, for bc:576 *)
Definition la_swap (x y : nat) : LM unit :=
  t <- get_obj x;; o <- get_obj y;; put_obj x o;;; put_obj y t.
(** la:233-237 *)
Definition la_invalidate (x : nat) : LM unit :=
  o <- get_obj x;; put_obj x (MkLast None None false (la_equal o)).
(** la:222-230 *)
Definition la_is_valid (x : nat) : LM bool := o <- get_obj x;; ret (la_valid o).

Definition deref (p : option nat) : LM nat :=
  match p with Some a => ret a | None => undef NullPointer end.
(** la:178-188 key() *)
Definition la_the_key (x : nat) : LM nat :=
  o <- get_obj x;; if la_valid o then deref (la_key o) else undef AssertFailed.
(** la:190-201 information() *)
Definition la_the_info (x : nat) : LM nat :=
  o <- get_obj x;; if la_valid o then deref (la_info o) else undef AssertFailed.

(** la:124-134 operator== with a key *)
Definition la_eq (x : nat) (k : K) : LM bool := noexcept (
  o <- get_obj x;;
  if negb (la_valid o) then ret false
  else a <- la_the_key x;; k' <- read_key a;;
       match equal (la_equal o) k k' with Some b => ret b | None => throw (UserExn 0) end).
(** la:142-154 operator== with an iterator *)
Definition la_eq_it (x : nat) (it : iter) : LM bool := noexcept (
  get_obj x;;;
  match it with
  | IEnd => undef PastTheEnd
  | IAt a _ => k <- read_key a;; la_eq x k
  end).
(** la:162-173 operator!= *)
Definition la_ne (x : nat) (k : K) : LM bool := noexcept (b <- la_eq x k;; ret (negb b)).
Definition la_ne_it (x : nat) (it : iter) : LM bool := noexcept (b <- la_eq_it x it;; ret (negb b)).

Definition unit_of (m : LM unit) : LM lret := m;;; ret LUnit.
Definition bool_of (m : LM bool) : LM lret := b <- m;; ret (LBool b).

Definition lexec (q : lop) : LM lret :=
  match q with
  | LNewKey k c => fun st => Val (LNum (length (l_keys st))) (MkLst (l_keys st ++ [Some (k, c)]) (l_infos st) (l_objs st))
  | LNewInfo i => fun st => Val (LNum (length (l_infos st))) (MkLst (l_keys st) (l_infos st ++ [Some i]) (l_objs st))
  | LDelKey a => unit_of (read_key a;;; put_key a None)
  | LDelInfo b => unit_of (read_info b;;; put_info b None)
  | LReadKey a => k <- read_key a;; ret (LKeyIs k)
  | LReadInfo b => i <- read_info b;; ret (LInfoIs i)
  | LPutInfo b i => unit_of (write_info b i)
  | LNew e => la_default e
  | LOf a b e => read_key a;;; read_info b;;; la_construct a b e
  | LFrom it e => la_from it e
  | LCopy x => la_copy x
  | LAssign x y => unit_of (la_assign x y)
  | LGive x it => unit_of (la_give x it)
  | LSwap x y => unit_of (la_swap x y)
  | LInvalidate x => unit_of (la_invalidate x)
  | LValid x => bool_of (la_is_valid x)
  | LKey x => a <- la_the_key x;; k <- read_key a;; ret (LKeyIs k)
  | LInfo x => b <- la_the_info x;; i <- read_info b;; ret (LInfoIs i)
  | LSetKey x k => unit_of (a <- la_the_key x;; write_key a k)
  | LSetInfo x i => unit_of (b <- la_the_info x;; write_info b i)
  | LEq x k => bool_of (la_eq x k)
  | LNe x k => bool_of (la_ne x k)
  | LEqIt x it => bool_of (la_eq_it x it)
  | LNeIt x it => bool_of (la_ne_it x it)
  end.

(** A program that has gone well so far: what its steps returned, and the state. *)
Fixpoint lrun (l : list lop) (st : lstate) : option (list lret * lstate) :=
  match l with
  | [] => Some ([], st)
  | q :: t =>
      match lexec q st with
      | Val r st' => option_map (fun p => (r :: fst p, snd p)) (lrun t st')
      | _ => None
      end
  end.
End LastObj.
Arguments lop : clear implicits.
Arguments lret : clear implicits.
Arguments lstate : clear implicits.
