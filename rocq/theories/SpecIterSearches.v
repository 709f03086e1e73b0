(** Specification vocabulary for the searches made through iterators. *)
From Coq Require Import List Arith ZArith Bool.
Import ListNotations.
From Verif Require Import Monad Types Model Api IterObj Spec SpecTimed SpecIter SpecCursor IterSearches.
Set Implicit Arguments.

Section SpecIterSearches.
Context {K V : Type}.
Variable E : env K V.
Notation world := (world K V).

(** Which iterator variables have been dereferenced where they stand: a copy has not,
    an iterator that was moved has taken this along, ++ and -- end it.  [cs]: the cursors
    before the step, [r]: what the step gave. *)
Definition heat (s : istep K V) (cs : list (@cursor K)) (r : @ires K V) (hs : list bool) : list bool :=
  let hot i := nth i hs false in
  let ordered i := match nth_error cs i with Some cu => cu_ord cu | None => false end in
  let at_key i := match nth_error cs i with
                  | Some cu => match cu_mark cu with AtKey _ => true | _ => false end
                  | None => false
                  end in
  match s, r with
  | (IBegin _ _ | IEnd _ _ | IFind _ _ | IInsert _ _ _ | IEmplace _ _ _ | INull _
     | ICopy _ | IConst _ | IToOrdered _), IGives _ => hs ++ [false]
  | (IMove i | IConstMove i | IToOrderedMove i), IGives _ => set_nth i false hs ++ [hot i]
  | IToOrderedMove i, IThrows _ => set_nth i false hs
  | IAssign i j, _ => if Nat.eqb i j then hs else set_nth i false hs
  | IAssignMove i j, _ =>
      if Nat.eqb i j then hs
      else if ordered j then set_nth j false (set_nth i (hot j) hs)
      else set_nth i false hs
  | ISwap i j, _ => set_nth j (hot i) (set_nth i (hot j) hs)
  | (INext i | IPrev i), _ => set_nth i false hs
  | (IPostNext i | IPostPrev i), _ => set_nth i false hs ++ [false]
  | (IRead i | IWrite i _), _ => set_nth i true hs
  (* entry() of an unordered iterator dereferences it before the check, that of an
     ordered one after it *)
  | (IEntry i | IValue i), _ =>
      if at_key i && (negb (ordered i) || match r with IGives _ => true | IThrows _ => false end)
      then set_nth i true hs else hs
  | IKey i, _ => if at_key i && negb (ordered i) then set_nth i true hs else hs
  | _, _ => hs
  end.

(** A program from the start (as [iplays]), with what was dereferenced. *)
Inductive iwarms : istate K V -> list (@cursor K) -> list bool -> Prop :=
| warms_init : iwarms init_istate [] []
| warms_step st cs hs s r st' cs' : iwarms st cs hs -> iallowed E s (i_world st) cs ->
    idone E s st r st' -> ipromise E s (i_world st) cs r (i_world st') cs' -> iwarms st' cs' (heat s cs r hs).

Definition timed (c : nat) (w : world) : bool :=
  match slot (w_caches w) c with
  | Some x => match c_ttl x with Some _ => true | None => false end
  | None => false
  end.

(** The cache of an ordered iterator that stands at an element. *)
Definition element (cs : list (@cursor K)) (i : nat) : option nat :=
  match nth_error cs i with
  | Some cu => match cu_ord cu, cu_mark cu with true, AtKey _ => Some (cu_cache cu) | _, _ => None end
  | None => None
  end.

(** The number of searches of a step.  Ordered iterators only: one where the element is
    dereferenced for the first time; in a TimedCache two for each check of validity. *)
Definition check (w : world) (c : nat) : nat := if timed c w then 2 else 0.
Definition fee (s : istep K V) (w : world) (cs : list (@cursor K)) (hs : list bool) (r : @ires K V) : nat :=
  let first i := if nth i hs false then 0 else 1 in
  match s with
  | IRead i | IWrite i _ => match element cs i with Some _ => first i | None => 0 end
  | IKey i | IValid _ i => match element cs i with Some c => check w c | None => 0 end
  | IEntry i | IValue i =>
      match element cs i, r with
      | Some c, IGives _ => check w c + first i
      | Some c, IThrows _ => check w c
      | None, _ => 0
      end
  | IErase _ i =>
      match element cs i, r with
      | Some c, IGives _ => check w c + 1
      | Some c, IThrows _ => check w c
      | None, _ => 0
      end
  | _ => 0
  end.

(** If search number [k] of the step throws, the program ends. *)
Definition fatal (s : istep K V) (w : world) (cs : list (@cursor K)) (k : nat) : bool :=
  match s with
  | IRead _ | IWrite _ _ | IValid _ _ => true
  | IKey i | IEntry i | IValue i | IErase _ i =>
      match element cs i with Some c => Nat.ltb k (check w c) | None => false end
  | _ => false
  end.

(** The counted program. *)
Definition jgives (throws : nat -> option nat) (s : istep K V) (h : jstate K V) (r : @ires K V) (h' : jstate K V) : Prop :=
  match r with
  | IGives x => j_exec E throws s h = Val x h'
  | IThrows e => j_exec E throws s h = Exc e h'
  end.

(** Conversion from an unordered iterator, copying, moving, swapping, ++, --, begin(),
    end() and comparison. *)
Definition steady (s : istep K V) : bool :=
  match s with
  | IBegin _ _ | IEnd _ _ | INull _ | ICopy _ | IMove _ | IConst _ | IConstMove _ | IToOrdered _ | IToOrderedMove _
  | IAssign _ _ | IAssignMove _ _ | ISwap _ _ | INext _ | IPrev _ | IPostNext _ | IPostPrev _ | ISame _ _ => true
  | _ => false
  end.
(** Steps that use the element iterator [i] stands at, its value included; the first two
    do not ask whether it has expired. *)
Definition uses (i : nat) (s : istep K V) : bool :=
  match s with
  | IRead j | IWrite j _ | IEntry j | IValue j => Nat.eqb i j
  | _ => false
  end.
Definition unchecked (s : istep K V) : bool :=
  match s with IRead _ | IWrite _ _ => true | _ => false end.

(** Steps that neither move iterator [i] nor give it another value. *)
Definition leaves (i : nat) (s : istep K V) : bool :=
  match s with
  | INext j | IPrev j | IPostNext j | IPostPrev j | IMove j | IConstMove j | IToOrderedMove j
  | IAssign j _ => negb (Nat.eqb i j)
  | IAssignMove j j' | ISwap j j' => negb (Nat.eqb i j) && negb (Nat.eqb i j')
  | _ => true
  end.
(** The program goes on with such steps. *)
Inductive meanwhile (i : nat) (st : istate K V) (cs : list (@cursor K)) : istate K V -> list (@cursor K) -> Prop :=
| mean_none : meanwhile i st cs st cs
| mean_step st1 cs1 s r st2 cs2 : meanwhile i st cs st1 cs1 -> leaves i s = true ->
    iallowed E s (i_world st1) cs1 -> idone E s st1 r st2 ->
    ipromise E s (i_world st1) cs1 r (i_world st2) cs2 -> meanwhile i st cs st2 cs2.

End SpecIterSearches.
