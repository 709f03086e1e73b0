(** Outcomes and the state/exception/undefined-behaviour monad in which the C++
    code of goldsborough/lru-cache is transcribed.  Nothing in this file models
    a particular function; it is the notation in which the model is written. *)

From Coq Require Import List.
Import ListNotations.
Set Implicit Arguments.

(** The exceptions of /repo/include/lru/error.hpp:32-92, plus the two kinds of
    exception that may come from outside the library: allocation (or element
    copy) failure, and an exception thrown by a user callback. *)
Inductive exn : Type :=
| KeyNotFound                 (* error.hpp:32-41 *)
| KeyExpired                  (* error.hpp:44-53 *)
| EmptyCache                  (* error.hpp:56-61 *)
| InvalidIteratorConversion   (* error.hpp:65-70 *)
| InvalidIterator             (* error.hpp:73-77 *)
| UnmonitoredKey              (* error.hpp:80-84 *)
| NotMonitoring               (* error.hpp:88-92 *)
| NoValue                     (* std::runtime_error, internal/optional.hpp:157,168 *)
| BadAlloc                    (* std::bad_alloc / throwing element copy *)
| UserExn (n : nat).          (* thrown by a user callback *)

(** Why an execution left the defined part of C++. *)
Inductive ub : Type :=
| DeadObject            (* use of a cache outside its lifetime *)
| DanglingNode          (* pointer, reference or iterator to an erased map node *)
| DanglingListNode      (* list iterator to an erased list node *)
| ForeignListIterator   (* std::list::splice/erase given an iterator of another list *)
| ForeignMapIterator    (* unordered_map::erase given an iterator of another map *)
| SingularIterator      (* value-initialised iterator used *)
| PastTheEnd            (* dereference / increment of an end iterator, decrement of begin *)
| EmptyContainer        (* front()/back() of an empty std::list *)
| RehashedIterator      (* unordered_map iterator used after a rehash *)
| VectorInvalidated     (* std::vector changed while a range-for iterates it *)
| Indeterminate         (* read of an uninitialised scalar *)
| AssertFailed          (* an assert() of the code is false *)
| NullPointer           (* member access through a null shared_ptr, call of a null function pointer *)
| MixedFunctions        (* comparison of unordered_maps whose function objects differ *)
| DanglingReference     (* reference to a destroyed temporary or local *)
| ConstObject           (* assignment to an object that is const *)
| FuelExhausted.        (* artefact of the model: a loop bound was too small *)

(** The result of running a piece of C++ code from a state [S]. *)
Inductive res (S A : Type) : Type :=
| Val (a : A) (s : S)      (* normal return *)
| Exc (e : exn) (s : S)    (* a C++ exception propagates *)
| Undef (u : ub)           (* undefined behaviour was reached *)
| Term (e : exn).          (* std::terminate: exception left a noexcept function *)

Arguments Val {S A}.
Arguments Exc {S A}.
Arguments Undef {S A}.
Arguments Term {S A}.

Definition M (S A : Type) : Type := S -> res S A.

Definition ret {S A} (a : A) : M S A := fun s => Val a s.
Definition bind {S A B} (m : M S A) (k : A -> M S B) : M S B := fun s =>
  match m s with
  | Val a s' => k a s'
  | Exc e s' => Exc e s'
  | Undef u => Undef u
  | Term e => Term e
  end.
Definition throw {S A} (e : exn) : M S A := fun s => Exc e s.
Definition undef {S A} (u : ub) : M S A := fun _ => Undef u.
Definition gets {S A} (f : S -> A) : M S A := fun s => Val (f s) s.
Definition modify {S} (f : S -> S) : M S unit := fun s => Val tt (f s).

(** A C++ function declared noexcept: an escaping exception calls
    std::terminate. *)
Definition noexcept {S A} (m : M S A) : M S A := fun s =>
  match m s with
  | Exc e _ => Term e
  | r => r
  end.

Declare Scope cpp_scope.
Delimit Scope cpp_scope with cpp.
Notation "x <- m ;; k" := (bind m (fun x => k))
  (at level 61, m at next level, right associativity) : cpp_scope.
Notation "' p <- m ;; k" := (bind m (fun x => let p := x in k))
  (at level 61, p pattern, m at next level, right associativity) : cpp_scope.
Notation "m ;;; k" := (bind m (fun _ => k))
  (at level 61, right associativity) : cpp_scope.

(** A left-to-right loop over a list, accumulating a result (range-for). *)
Fixpoint foldM {S A B} (f : B -> A -> M S B) (l : list A) (b : B) : M S B :=
  match l with
  | [] => ret b
  | x :: t => bind (f b x) (fun b' => foldM f t b')
  end.
