(** Model of /repo/include/lru/internal/optional.hpp (opt): the library's own
    Optional, used where std::optional is unavailable.

    The variables of a program are Optionals; each holds a std::unique_ptr, that is a
    null pointer or the address of a cell of the heap.  Temporaries (the by-value
    parameter of operator=, an object whose constructor runs) are variables too; they
    are created last and destroyed first, so they are the last of the table.

    Simplifications: Optional<U> for different U share one type T of elements, and
    converting an element is the function [oe_conv]; std::make_unique<T>(args) is one
    step that may throw (the allocation or the element's constructor; in both cases
    nothing stays allocated); destructors of elements have no effect. *)
From Coq Require Import List Bool.
Import ListNotations.
From Verif Require Import Monad Types Model.
Local Open Scope cpp_scope.
Set Implicit Arguments.

Section Optional.
Context {T : Type}.

(** What the surroundings decide: which fallible steps throw, how an element is
    converted to another element type, what moving from an element leaves of it. *)
Record oenv : Type := MkOenv {
  oe_fails : nat -> bool;
  oe_conv : T -> T;
  oe_moved : T -> T
}.

(** A std::unique_ptr (opt:200): null, or the address of a heap cell. *)
Notation uptr := (option nat).

Record oworld : Type := MkOworld {
  ow_heap : list (option T);          (* cells; emptied when deleted *)
  ow_vars : list (option uptr);       (* Optionals; emptied when destroyed *)
  ow_steps : nat                      (* fallible steps made *)
}.
Definition ow_init : oworld := MkOworld [] [] 0.

Variable E : oenv.
Notation OM := (M oworld).

(** An allocation or a copy of an element. *)
Definition o_fallible : OM unit := fun w =>
  let w' := MkOworld (ow_heap w) (ow_vars w) (S (ow_steps w)) in
  if oe_fails E (ow_steps w) then Exc BadAlloc w' else Val tt w'.

(** The pointer held by a live Optional; using a destroyed one is undefined. *)
Definition o_get (i : nat) : OM uptr := fun w =>
  match slot (ow_vars w) i with
  | Some p => Val p w
  | None => Undef DeadObject
  end.
Definition o_put (i : nat) (p : option uptr) : OM unit :=
  modify (fun w => MkOworld (ow_heap w) (upd (ow_vars w) i p) (ow_steps w)).

(** Reading and writing the object at an address. *)
Definition o_load (a : nat) : OM T := fun w =>
  match slot (ow_heap w) a with
  | Some x => Val x w
  | None => Undef DanglingNode
  end.
Definition o_store (a : nat) (x : option T) : OM unit :=
  modify (fun w => MkOworld (upd (ow_heap w) a x) (ow_vars w) (ow_steps w)).

(** delete; of a null pointer it does nothing, of a deleted cell it is undefined. *)
Definition o_delete (p : uptr) : OM unit :=
  match p with
  | None => ret tt
  | Some a => o_load a;;; o_store a None
  end.

(** std::make_unique<T>(x) *)
Definition make_unique (x : T) : OM nat :=
  o_fallible;;;
  fun w => Val (length (ow_heap w))
               (MkOworld (ow_heap w ++ [Some x]) (ow_vars w) (ow_steps w)).

(** unique_ptr::operator=(unique_ptr&&) and unique_ptr::reset: the new pointer is
    stored, then the old object deleted. *)
Definition ptr_assign (i : nat) (p : uptr) : OM unit :=
  old <- o_get i;;
  o_put i (Some p);;;
  o_delete old.

(** opt:58 Optional() *)
Definition o_new : OM nat := fun w =>
  Val (length (ow_vars w)) (MkOworld (ow_heap w) (ow_vars w ++ [Some None]) (ow_steps w)).

(** The end of the life of the youngest Optional: ~unique_ptr. *)
Definition o_pop : OM unit := fun w =>
  match slot (ow_vars w) (length (ow_vars w) - 1) with
  | Some p => o_delete p (MkOworld (ow_heap w) (removelast (ow_vars w)) (ow_steps w))
  | None => Undef DeadObject
  end.

(** A constructor with body [body]: if it throws, the members built are destroyed. *)
Definition constructing (body : nat -> OM unit) : OM nat :=
  i <- o_new;;
  fun w => match body i w with
           | Val _ w' => Val i w'
           | Exc e w' => (o_pop;;; throw e) w'
           | Undef u => Undef u
           | Term e => Term e
           end.

(** opt:119-126 has_value(), operator bool *)
Definition o_has (i : nat) : OM bool :=
  p <- o_get i;; ret (match p with None => false | Some _ => true end).

(** opt:130-150 operator->, operator*: the address; undefined if null. *)
Definition o_addr (i : nat) : OM nat :=
  p <- o_get i;;
  match p with
  | None => undef NullPointer
  | Some a => ret a
  end.
Definition o_star (i : nat) : OM T := a <- o_addr i;; o_load a.

(** opt:191-193 emplace; [arg] reads the argument, which may refer into this very
    Optional: make_unique has read it before the old object is deleted. *)
Definition o_emplace (i : nat) (arg : OM T) : OM unit :=
  o_get i;;;
  x <- arg;;
  a <- make_unique x;;
  ptr_assign i (Some a).

(** opt:63-65.  (Here and in the other constructors: the argument must be alive before
    the new object is, so it is not the new object itself.  Likewise a member function
    is called on a live object.) *)
Definition o_copy (j : nat) : OM nat :=
  o_get j;;;
  constructing (fun i => b <- o_has j;; if b then o_emplace i (o_star j) else ret tt).

(** opt:70-74 *)
Definition o_convert (j : nat) : OM nat :=
  o_get j;;;
  constructing (fun i => b <- o_has j;;
    if b then o_emplace i (x <- o_star j;; ret (oe_conv E x)) else ret tt).

(** opt:106-116 *)
Definition o_swap (i j : nat) : OM unit :=
  p <- o_get i;;
  q <- o_get j;;
  o_put i (Some q);;;
  o_put j (Some p).

(** opt:79-81 *)
Definition o_move (j : nat) : OM nat :=
  o_get j;;;
  noexcept (constructing (fun i => o_swap i j)).

(** opt:86-92: the other Optional keeps its element, moved from. *)
Definition o_convert_move (j : nat) : OM nat :=
  o_get j;;;
  noexcept (constructing (fun i => b <- o_has j;;
    if b then
      a <- o_addr j;;
      x <- o_load a;;
      a' <- make_unique (oe_conv E x);;
      o_store a (Some (oe_moved E x));;;
      ptr_assign i (Some a')
    else ret tt)).

(** opt:98-101; the caller constructs the parameter by [mk] and destroys it
    afterwards. *)
Definition o_assign (i : nat) (mk : OM nat) : OM unit :=
  o_get i;;;
  t <- mk;;
  noexcept (o_swap i t);;;
  o_pop.

(** opt:154-172 value() *)
Definition o_value (i : nat) : OM T :=
  b <- o_has i;;
  if b then o_star i else throw NoValue.

(** opt:177-180: the result is a new T *)
Definition o_value_or (i : nat) (d : T) : OM T :=
  b <- o_has i;;
  if b then x <- o_star i;; o_fallible;;; ret x else o_fallible;;; ret (oe_conv E d).

(** opt:183-185 *)
Definition o_reset (i : nat) : OM unit := noexcept (ptr_assign i None).

(** *opt = x, an assignment through the reference of opt:148-150 *)
Definition o_write (i : nat) (x : T) : OM unit :=
  a <- o_addr i;;
  o_load a;;;
  o_fallible;;;
  o_store a (Some x).

(** ~Optional *)
Definition o_destroy (i : nat) : OM unit :=
  p <- o_get i;;
  o_put i None;;;
  o_delete p.

(** What a program may do with Optionals. *)
Inductive oop : Type :=
| ODefault                    (* Optional<T> x; *)
| OCopy (j : nat)             (* Optional<T> x(j); *)
| OConvert (j : nat)          (* Optional<T> x(j); j an Optional<U> *)
| OMove (j : nat)             (* Optional<T> x(std::move(j)); *)
| OConvertMove (j : nat)      (* Optional<T> x(std::move(j)); j an Optional<U> *)
| OAssign (i j : nat)         (* i = j; *)
| OAssignMove (i j : nat)     (* i = std::move(j); *)
| OAssignConvert (i j : nat)  (* i = j; j an Optional<U> *)
| OAssignConvertMove (i j : nat)
| OSwap (i j : nat)           (* i.swap(j); swap(i, j); *)
| OHas (i : nat)              (* i.has_value() *)
| ODeref (i : nat)            (* *i, read *)
| OWrite (i : nat) (x : T)    (* *i = x; *)
| OValue (i : nat)            (* i.value(), read *)
| OValueOr (i : nat) (d : T)  (* i.value_or(d) *)
| OReset (i : nat)            (* i.reset(); *)
| OEmplace (i : nat) (x : T)  (* i.emplace(x); *)
| OEmplaceFrom (i j : nat)    (* i.emplace( *j); *)
| ODestroy (i : nat).         (* the end of i's scope *)

Inductive oret : Type :=
| OUnit
| OVar (i : nat)
| OBool (b : bool)
| OElem (x : T).

Definition o_exec (o : oop) : OM oret :=
  match o with
  | ODefault => i <- o_new;; ret (OVar i)
  | OCopy j => i <- o_copy j;; ret (OVar i)
  | OConvert j => i <- o_convert j;; ret (OVar i)
  | OMove j => i <- o_move j;; ret (OVar i)
  | OConvertMove j => i <- o_convert_move j;; ret (OVar i)
  | OAssign i j => o_assign i (o_copy j);;; ret OUnit
  | OAssignMove i j => o_assign i (o_move j);;; ret OUnit
  | OAssignConvert i j => o_assign i (o_convert j);;; ret OUnit
  | OAssignConvertMove i j => o_assign i (o_convert_move j);;; ret OUnit
  | OSwap i j => o_swap i j;;; ret OUnit
  | OHas i => b <- o_has i;; ret (OBool b)
  | ODeref i => x <- o_star i;; ret (OElem x)
  | OWrite i x => o_write i x;;; ret OUnit
  | OValue i => x <- o_value i;; ret (OElem x)
  | OValueOr i d => x <- o_value_or i d;; ret (OElem x)
  | OReset i => o_reset i;;; ret OUnit
  | OEmplace i x => o_emplace i (ret x);;; ret OUnit
  | OEmplaceFrom i j => o_emplace i (o_star j);;; ret OUnit
  | ODestroy i => o_destroy i;;; ret OUnit
  end.

(** A whole program; a thrown exception is caught and the program goes on. *)
Fixpoint o_run (l : list oop) (w : oworld) : option oworld :=
  match l with
  | [] => Some w
  | o :: t => match o_exec o w with
              | Val _ w' | Exc _ w' => o_run t w'
              | _ => None
              end
  end.

End Optional.
Arguments oenv : clear implicits.
Arguments oworld : clear implicits.
Arguments oop : clear implicits.
Arguments oret : clear implicits.
