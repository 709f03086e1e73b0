(** Model of the entries that iterators keep, as objects: programs that hold references
    to an iterator's entry (auto& e = *it) or copies of it (auto e = *it).
    base-iterator.hpp (bi), base-ordered-iterator.hpp (bo), base-unordered-iterator.hpp
    (bu), optional.hpp (op), entry.hpp (en).

    An iterator owns its entry through a unique_ptr (op:54-201); [IterObj.v] says which
    iterator has an entry after a step, this file which object that is.
    Simplifications: those of [IterObj.v], except that the end of an iterator's lifetime is
    a step; references obtained from entry() are those obtained from operator* after the
    check (bu:181-188, bo:278-281) and left out; an entry is used by reading key and value
    and by writing the value. *)
From Coq Require Import List Arith Bool.
Import ListNotations.
From Verif Require Import Monad Types Model Api IterObj.
Local Open Scope cpp_scope.
Set Implicit Arguments.

Section EntryRefs.
Context {K V : Type}.
Notation world := (world K V).
Notation istate := (istate K V).
Notation istep := (istep K V).
Notation iout := (iout K V).
Variable E : env K V.

(** What a program does; [i] is the number of an iterator variable, [r] of an Entry&
    variable, [e] of an Entry variable, in the order of creation. *)
Inductive estep : Type :=
| EDo (s : istep)                        (* a step on iterators and caches *)
| EEnd (i : nat)                         (* the lifetime of iterator i ends (bi:156) *)
| ERef (i : nat)                         (* auto& r = *i *)
| ECopy (r : nat)                        (* auto e = r *)
| ERead (r : nat)                        (* r.key(), r.value() *)
| EWrite (r : nat) (v : V)               (* r.value() = v *)
| EReadCopy (e : nat)                    (* e.key(), e.value() *)
| EWriteCopy (e : nat) (v : V).          (* e.value() = v *)

Inductive eout : Type :=
| FStep (o : iout)
| FNew (n : nat)
| FEnt (k : K) (v : V)
| FUnit
| FIll.                                  (* no such variable *)

(** [x_own]: the entry object each iterator variable owns; [x_objs]: the entry objects,
    each with the element whose key and value its two references (en:125-129) refer to,
    or [None] once it is destroyed; [x_refs]: the objects the Entry& variables refer to;
    [x_copies]: the elements the Entry variables refer to. *)
Record xstate : Type := MkX {
  x_st : istate;
  x_ended : list nat;
  x_own : list (option nat);
  x_objs : list (option mptr);
  x_refs : list nat;
  x_copies : list mptr
}.
Definition init_xstate : xstate := MkX init_istate [] [] [] [] [].
Notation XM := (M xstate).

Definition entry_of (v : ivar) : option mptr :=
  match v with VU it => ui_entry it | VO it => oi_entry it | VNull _ => None end.
Definition ordered_at (i : nat) (vs : list ivar) : bool :=
  match nth_error vs i with Some v => ordered_var v | None => false end.

(** Which iterator owns an object after a step that gave [o] ([None]: it threw): moving
    an iterator hands over the unique_ptr (bi:112 with op:79-81, bi:115 with op:98-101,
    bo:123-130 with op:98-101), swapping exchanges them (bi:158-174, op:106-108).  A conversion
    to a const iterator makes an object of another type (op:88-92) and the old one ends
    with the parameter it was moved to (bc:214-217, 303-305).  If the conversion to an
    ordered iterator throws, the object ends with the parameter (bc:248-250).  [vs]: the
    variables before the step. *)
Definition handed (s : istep) (o : option iout) (vs : list ivar) (own : list (option nat)) : list (option nat) :=
  let at_ i := nth i own None in
  match s, o with
  | (IMove i | IToOrderedMove i), Some (JNew _) => set_nth i None own ++ [at_ i]
  | IToOrderedMove i, None => set_nth i None own
  | IAssignMove i j, Some JUnit =>
      if negb (Nat.eqb i j) && ordered_at j vs then set_nth j None (set_nth i (at_ j) own) else own
  | ISwap i j, Some JUnit => set_nth j (at_ i) (set_nth i (at_ j) own)
  | _, Some (JNew _ | JIns _ _) => own ++ [None]
  | _, _ => own
  end.

(** An iterator that has an entry now and owned no object before made a new one (op:190-193);
    one that has no entry any more gave up its object (op:183-185). *)
Fixpoint fill (vs : list ivar) (own : list (option nat)) (objs : list (option mptr))
    : list (option nat) * list (option mptr) :=
  match vs with
  | [] => ([], objs)
  | v :: t =>
      match entry_of v with
      | None => let f := fill t (tl own) objs in (None :: fst f, snd f)
      | Some p =>
          match hd None own with
          | Some n => let f := fill t (tl own) objs in (Some n :: fst f, snd f)
          | None => let f := fill t (tl own) (objs ++ [Some p]) in (Some (length objs) :: fst f, snd f)
          end
      end
  end.
(** Objects nobody owns are destroyed: [n] is the number of the first one in the list. *)
Definition owned (n : nat) (own : list (option nat)) : bool :=
  existsb (fun o => match o with Some m => Nat.eqb n m | None => false end) own.
Fixpoint sweep (n : nat) (own : list (option nat)) (objs : list (option mptr)) : list (option mptr) :=
  match objs with
  | [] => []
  | o :: t => (if owned n own then o else None) :: sweep (S n) own t
  end.
Definition settle (own : list (option nat)) (st' : istate) (x : xstate) : xstate :=
  let f := fill (i_vars st') own (x_objs x) in
  MkX st' (x_ended x) (fst f) (sweep 0 (fst f) (snd f)) (x_refs x) (x_copies x).

(** The iterator variables a step uses. *)
Definition mentions (s : istep) : list nat :=
  match s with
  | ICopy i | IMove i | IConst i | IConstMove i | IToOrdered i | IToOrderedMove i
  | INext i | IPrev i | IPostNext i | IPostPrev i | IRead i | IWrite i _ | IEntry i | IKey i | IValue i
  | IErase _ i | IValid _ i => [i]
  | IAssign i j | IAssignMove i j | ISwap i j | ISame i j => [i; j]
  | _ => []
  end.
Definition gone (i : nat) (ended : list nat) : bool := existsb (Nat.eqb i) ended.

(** A step on the caches. *)
Definition on_caches {A} (m : M world A) (f : A -> eout) : XM eout := fun x =>
  match m (i_world (x_st x)) with
  | Val a w => Val (f a) (MkX (MkI w (i_vars (x_st x))) (x_ended x) (x_own x) (x_objs x) (x_refs x) (x_copies x))
  | Exc e w => Exc e (MkX (MkI w (i_vars (x_st x))) (x_ended x) (x_own x) (x_objs x) (x_refs x) (x_copies x))
  | Undef u => Undef u
  | Term e => Term e
  end.

(** The element an Entry& refers to. *)
Definition through (r : nat) (f : mptr -> XM eout) : XM eout := fun x =>
  match nth_error (x_refs x) r with
  | None => Val FIll x
  | Some n =>
      match nth n (x_objs x) None with
      | Some p => f p x
      | None => Undef DanglingReference
      end
  end.

Definition e_exec (s : estep) : XM eout := fun x =>
  match s with
  | EDo s =>
      if existsb (fun i => gone i (x_ended x)) (mentions s) then Undef DanglingReference
      else match iexec E s (x_st x) with
           | Val o st' => Val (FStep o) (settle (handed s (Some o) (i_vars (x_st x)) (x_own x)) st' x)
           | Exc e st' => Exc e (settle (handed s None (i_vars (x_st x)) (x_own x)) st' x)
           | Undef u => Undef u
           | Term e => Term e
           end
  | EEnd i =>
      if gone i (x_ended x) then Undef DanglingReference
      else match nth_error (i_vars (x_st x)) i with
           | None => Val FIll x
           | Some v =>
               let st' := MkI (i_world (x_st x)) (set_nth i (VNull (ordered_var v)) (i_vars (x_st x))) in
               let x' := settle (x_own x) st' x in
               Val FUnit (MkX st' (i :: x_ended x) (x_own x') (x_objs x') (x_refs x') (x_copies x'))
           end
  | ERef i =>
      if gone i (x_ended x) then Undef DanglingReference
      else match nth_error (i_vars (x_st x)) i with
           | None => Val FIll x
           | Some v =>
               match i_deref E i v (x_st x) with
               | Val _ st' =>
                   let x' := settle (x_own x) st' x in
                   match nth i (x_own x') None with
                   | Some n => Val (FNew (length (x_refs x')))
                       (MkX st' (x_ended x') (x_own x') (x_objs x') (x_refs x' ++ [n]) (x_copies x'))
                   | None => Val FIll x'
                   end
               | Exc e st' => Exc e (settle (x_own x) st' x)
               | Undef u => Undef u
               | Term e => Term e
               end
           end
  | ECopy r => through r (fun p x =>
      Val (FNew (length (x_copies x))) (MkX (x_st x) (x_ended x) (x_own x) (x_objs x) (x_refs x) (x_copies x ++ [p]))) x
  | ERead r => through r (fun p => on_caches (read_entry p) (fun e => FEnt (fst e) (snd e))) x
  | EWrite r v => through r (fun p => on_caches (update_node p (fun n => MkNode (n_key n) v (n_ord n) (n_time n))) (fun _ => FUnit)) x
  | EReadCopy e =>
      match nth_error (x_copies x) e with
      | Some p => on_caches (read_entry p) (fun e => FEnt (fst e) (snd e)) x
      | None => Val FIll x
      end
  | EWriteCopy e v =>
      match nth_error (x_copies x) e with
      | Some p => on_caches (update_node p (fun n => MkNode (n_key n) v (n_ord n) (n_time n))) (fun _ => FUnit) x
      | None => Val FIll x
      end
  end.

End EntryRefs.
Arguments estep : clear implicits.
Arguments eout : clear implicits.
Arguments xstate : clear implicits.
