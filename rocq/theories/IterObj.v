(** Model of iterators as objects: programs that keep iterators in variables, copy,
    move, assign, swap, convert, advance, dereference and compare them, and call the
    cache in between.  base-iterator.hpp (bi), base-ordered-iterator.hpp (bo),
    base-unordered-iterator.hpp (bu), base-cache.hpp (bc).

    Simplifications: const and non-const iterators share one type (a conversion between
    them is a step of its own); destroying an iterator has no effect and is left out;
    the allocation of a cached entry does not fail. *)
From Coq Require Import List Arith Bool.
Import ListNotations.
From Verif Require Import Monad Types Model Api.
Local Open Scope cpp_scope.
Set Implicit Arguments.

(** An iterator variable; [VNull] is default-constructed (bi:71-72): its cache pointer
    is null and its underlying iterator singular. *)
Inductive ivar : Type := VU (it : uiter) | VO (it : oiter) | VNull (ordered : bool).

Section IterObj.
Context {K V : Type}.
Notation world := (world K V).

(** What a program does with its iterator variables; [i], [j] are their numbers in the
    order of creation. *)
Inductive istep : Type :=
| ICall (o : op K V)                     (* a call of the interface without iterators *)
| IBegin (ordered : bool) (c : nat)      (* auto i = c.ordered_begin(); c.begin() *)
| IEnd (ordered : bool) (c : nat)        (* auto i = c.ordered_end(); c.end() *)
| IFind (c : nat) (k : K)                (* auto i = c.find(k) *)
| IInsert (c : nat) (k : K) (v : V)      (* auto i = c.insert(k, v).iterator() *)
| IEmplace (c : nat) (k : K) (v : V)     (* auto i = c.emplace(k, v).iterator() *)
| INull (ordered : bool)                 (* Iterator i; *)
| ICopy (i : nat)                        (* auto j = i *)
| IMove (i : nat)                        (* auto j = std::move(i) *)
| IConst (i : nat)                       (* ConstIterator j = i *)
| IConstMove (i : nat)                   (* ConstIterator j = std::move(i) *)
| IToOrdered (i : nat)                   (* OrderedIterator j(i) *)
| IToOrderedMove (i : nat)               (* OrderedIterator j(std::move(i)) *)
| IAssign (i j : nat)                    (* i = j *)
| IAssignMove (i j : nat)                (* i = std::move(j) *)
| ISwap (i j : nat)                      (* i.swap(j); swap(i, j) *)
| INext (i : nat)                        (* ++i *)
| IPrev (i : nat)                        (* --i *)
| IPostNext (i : nat)                    (* auto j = i++ *)
| IPostPrev (i : nat)                    (* auto j = i-- *)
| IRead (i : nat)                        (* i->key(), i->value() *)
| IWrite (i : nat) (v : V)               (* i->value() = v *)
| IEntry (i : nat)                       (* i.entry().key(), i.entry().value() *)
| IKey (i : nat)                         (* i.key() *)
| IValue (i : nat)                       (* i.value() *)
| ISame (i j : nat)                      (* i == j *)
| IErase (c i : nat)                     (* c.erase(i) *)
| IValid (c i : nat).                    (* c.is_valid(i) *)

Inductive iout : Type :=
| JCall (r : out K V)
| JNew (i : nat)                         (* the number of the new variable *)
| JIns (b : bool) (i : nat)
| JUnit
| JEnt (k : K) (v : V)
| JKey (k : K)
| JVal (v : V)
| JBool (b : bool)
| JIll.                                  (* does not compile, or no such variable or cache *)

Record istate : Type := MkI { i_world : world; i_vars : list ivar }.
Definition init_istate : istate := MkI init_world [].

Variable E : env K V.
Notation IM := (M istate).

(** A step on the caches. *)
Definition lift {A} (m : M world A) : IM A := fun st =>
  match m (i_world st) with
  | Val a w => Val a (MkI w (i_vars st))
  | Exc e w => Exc e (MkI w (i_vars st))
  | Undef u => Undef u
  | Term e => Term e
  end.

Fixpoint set_nth {A} (i : nat) (a : A) (l : list A) : list A :=
  match l, i with
  | [], _ => []
  | _ :: t, O => a :: t
  | x :: t, S i => x :: set_nth i a t
  end.

Definition put_var (i : nat) (v : ivar) : IM unit :=
  modify (fun st => MkI (i_world st) (set_nth i v (i_vars st))).
Definition new_var (v : ivar) : IM nat := fun st =>
  Val (length (i_vars st)) (MkI (i_world st) (i_vars st ++ [v])).
Definition with_var (i : nat) (f : ivar -> IM iout) : IM iout := fun st =>
  match nth_error (i_vars st) i with
  | Some v => f v st
  | None => Val JIll st
  end.
Definition with_alive (c : nat) (m : IM iout) : IM iout := fun st =>
  if alive (i_world st) c then m st else Val JIll st.

Definition ordered_var (v : ivar) : bool :=
  match v with VU _ => false | VO _ => true | VNull b => b end.

(** bi:88-93: a copy does not take the cached entry along.  What is left of an iterator
    after it was moved from (bi:112) is the same: the underlying iterator and the cache
    pointer are copied, the entry is taken. *)
Definition bare (v : ivar) : ivar :=
  match v with
  | VU it => VU (MkU (ui_cache it) (ui_pos it) None)
  | VO it => VO (MkO (oi_cache it) (oi_pos it) None)
  | VNull b => VNull b
  end.

(** operator++ (bu:148-152, bo:236-240) and operator-- (bo:257-261) *)
Definition i_next (v : ivar) : M world ivar :=
  match v with
  | VU it => it' <- u_next it;; ret (VU it')
  | VO it => it' <- o_next it;; ret (VO it')
  | VNull _ => undef SingularIterator
  end.
Definition i_prev (v : ivar) : M world ivar :=
  match v with
  | VO it => it' <- o_prev it;; ret (VO it')
  | _ => undef SingularIterator
  end.

(** operator* and operator-> (bi:178-185, bu:169-175, bo:272-274): the element referred
    to; variable [i] keeps the entry. *)
Definition i_deref (i : nat) (v : ivar) : IM mptr :=
  match v with
  | VU it => '(p, it') <- lift (u_deref it);; put_var i (VU it');;; ret p
  | VO it => '(p, it') <- lift (o_deref E it);; put_var i (VO it');;; ret p
  | VNull _ => undef SingularIterator
  end.

(** entry(): bu:181-188 looks up the entry before the check, bo:278-281 after it.  The
    entry of a past-the-end unordered iterator is read by nobody after the exception. *)
Definition i_entry (i : nat) (v : ivar) : IM mptr :=
  match v with
  | VU it =>
      match ui_entry it, ui_pos it with
      | None, UEnd _ => lift (u_entry E it)
      | _, _ =>
          '(p, it') <- lift (u_deref it);; put_var i (VU it');;;
          lift (throw_if_invalid_u E (ui_cache it) it');;; ret p
      end
  | VO it =>
      lift (throw_if_invalid_o E (oi_cache it) it);;;
      '(p, it') <- lift (o_deref E it);; put_var i (VO it');;; ret p
  | VNull _ => undef NullPointer
  end.

(** key(): bu:194-196 reads the entry, bo:291-295 the list *)
Definition i_key (i : nat) (v : ivar) : IM K :=
  match v with
  | VU it => p <- i_entry i v;; n <- lift (deref p);; ret (n_key n)
  | VO it => lift (o_key E it)
  | VNull _ => undef NullPointer
  end.

(** == (bu:126-129, bo:151-153, bo:171-203) *)
Definition i_same (a b : ivar) : M world bool :=
  match a, b with
  | VU a, VU b => ret (u_eq a b)
  | VO a, VO b => ret (o_eq a b)
  | VO a, VU b | VU b, VO a => ou_eq a b
  | VNull x, VNull y => if Bool.eqb x y then undef SingularIterator else undef NullPointer
  | VNull false, VU _ | VU _, VNull false | VNull true, VO _ | VO _, VNull true => undef SingularIterator
  | _, _ => ret false
  end.

(** erase and is_valid (bc:731-743, bc:1118-1139) *)
Definition i_erase (c : nat) (v : ivar) : M world unit :=
  match v with
  | VU it => erase_u E c it
  | VO it => erase_o E c it
  | VNull _ => undef SingularIterator
  end.
Definition i_valid (c : nat) (v : ivar) : M world bool :=
  match v with
  | VU it => is_valid_u E c it
  | VO it => is_valid_o E c it
  | VNull _ => undef SingularIterator
  end.

Definition iexec (s : istep) : IM iout :=
  match s with
  | ICall o => r <- lift (exec E o);; ret (JCall r)
  | IBegin true c => with_alive c (it <- lift (ordered_begin c);; n <- new_var (VO it);; ret (JNew n))
  | IBegin false c => with_alive c (it <- lift (unordered_begin c);; n <- new_var (VU it);; ret (JNew n))
  | IEnd true c => with_alive c (n <- new_var (VO (ordered_end c));; ret (JNew n))
  | IEnd false c => with_alive c (n <- new_var (VU (unordered_end c));; ret (JNew n))
  | IFind c k => with_alive c (it <- lift (find E c k);; n <- new_var (VU it);; ret (JNew n))
  | IInsert c k v =>
      with_alive c (r <- lift (insert E c k v);; n <- new_var (VU (snd r));; ret (JIns (fst r) n))
  | IEmplace c k v =>
      with_alive c (r <- lift (emplace E c k v);; n <- new_var (VU (snd r));; ret (JIns (fst r) n))
  | INull b => n <- new_var (VNull b);; ret (JNew n)
  (* bi:88-93 *)
  | ICopy i => with_var i (fun v => n <- new_var (bare v);; ret (JNew n))
  (* bi:112 *)
  | IMove i => with_var i (fun v => n <- new_var v;; put_var i (bare v);;; ret (JNew n))
  (* bc:214-217, 303-305: the parameter is taken by value, so it is a copy ... *)
  | IConst i => with_var i (fun v => n <- new_var (bare v);; ret (JNew n))
  (* ... or moved into the parameter, and the generalized constructors bi:127-133,
     bi:147-150 take its entry *)
  | IConstMove i => with_var i (fun v => n <- new_var v;; put_var i (bare v);;; ret (JNew n))
  (* bc:248-250, bo:123-130 from a copy *)
  | IToOrdered i => with_var i (fun v =>
      match bare v with
      | VU it => o <- lift (o_from_u_move it);; n <- new_var (VO o);; ret (JNew n)
      | VNull false => undef NullPointer
      | _ => ret JIll
      end)
  (* the same from the moved iterator *)
  | IToOrderedMove i => with_var i (fun v =>
      match v with
      | VU it => put_var i (bare v);;; o <- lift (o_from_u_move it);; n <- new_var (VO o);; ret (JNew n)
      | VNull false => undef NullPointer
      | _ => ret JIll
      end)
  (* bi:102-109 *)
  | IAssign i j => with_var i (fun v => with_var j (fun v' =>
      if negb (Bool.eqb (ordered_var v) (ordered_var v')) then ret JIll
      else if Nat.eqb i j then ret JUnit
      else put_var i (bare v');;; ret JUnit))
  (* bo:144 and bi:115 move; bu:101-109: unordered iterators have no move assignment,
     the copy assignment is the better match *)
  | IAssignMove i j => with_var i (fun v => with_var j (fun v' =>
      if negb (Bool.eqb (ordered_var v) (ordered_var v')) then ret JIll
      else if Nat.eqb i j then ret JUnit
      else if ordered_var v' then put_var i v';;; put_var j (bare v');;; ret JUnit
      else put_var i (bare v');;; ret JUnit))
  (* bi:158-174 *)
  | ISwap i j => with_var i (fun v => with_var j (fun v' =>
      if negb (Bool.eqb (ordered_var v) (ordered_var v')) then ret JIll
      else put_var i v';;; put_var j v;;; ret JUnit))
  | INext i => with_var i (fun v => v' <- lift (i_next v);; put_var i v';;; ret JUnit)
  | IPrev i => with_var i (fun v =>
      if ordered_var v then v' <- lift (i_prev v);; put_var i v';;; ret JUnit else ret JIll)
  (* bu:160-164, bo:248-252, bo:266-270 *)
  | IPostNext i => with_var i (fun v =>
      n <- new_var (bare v);; v' <- lift (i_next v);; put_var i v';;; ret (JNew n))
  | IPostPrev i => with_var i (fun v =>
      if ordered_var v
      then n <- new_var (bare v);; v' <- lift (i_prev v);; put_var i v';;; ret (JNew n)
      else ret JIll)
  | IRead i => with_var i (fun v =>
      p <- i_deref i v;; e <- lift (read_entry p);; ret (JEnt (fst e) (snd e)))
  | IWrite i x => with_var i (fun v =>
      p <- i_deref i v;;
      lift (update_node p (fun n => MkNode (n_key n) x (n_ord n) (n_time n)));;; ret JUnit)
  | IEntry i => with_var i (fun v =>
      p <- i_entry i v;; e <- lift (read_entry p);; ret (JEnt (fst e) (snd e)))
  | IKey i => with_var i (fun v => k <- i_key i v;; ret (JKey k))
  (* bu:202-204, bo:285-287 *)
  | IValue i => with_var i (fun v => p <- i_entry i v;; n <- lift (deref p);; ret (JVal (n_val n)))
  | ISame i j => with_var i (fun v => with_var j (fun v' => b <- lift (i_same v v');; ret (JBool b)))
  | IErase c i => with_alive c (with_var i (fun v => lift (i_erase c v);;; ret JUnit))
  | IValid c i => with_alive c (with_var i (fun v => b <- lift (i_valid c v);; ret (JBool b)))
  end.

End IterObj.
Arguments istep : clear implicits.
Arguments iout : clear implicits.
Arguments istate : clear implicits.
