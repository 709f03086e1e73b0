(** Specification vocabulary for function objects (FunObj.v). *)
From Coq Require Import List Arith ZArith Bool.
Import ListNotations.
From Verif Require Import Monad Types Model Api Spec FunObj.
Set Implicit Arguments.

Section SpecFunObj.
Context {K V : Type}.
Notation key := (nat * K)%type.
Notation fstate := (fstate K V).
Variable E : env key V.
Variable callable : nat -> bool.
(** What the equality of each number answers. *)
Variable feq : nat -> K -> K -> bool.

(** Keys are compared with the object they carry. *)
Definition compares_by : Prop := forall i j a b,
  key_equal E (i, a) (j, b) = (Nat.eqb i j && feq i a b)%bool.

(** The client's notes: which objects each cache has, from the programs' text and the numbers
    of new caches alone.  A constructor gives its arguments (by default 0); a copy takes those of
    the original; swap, move construction and move assignment exchange, a new cache having 0
    before. *)
Definition enter (c i : nat) (t : nat -> nat) : nat -> nat := fun x => if Nat.eqb x c then i else t x.
Definition ledger (p : fop K V) (r : outcome K V) (t : nat -> nat) : nat -> nat :=
  match p, r with
  | FNew i _, Returned (RNat e) => enter e i t
  | FDirect _, Returned (RNat e) => enter e 0 t
  | FCall (New _ _), Returned (RNat e) | FCall (NewFrom _ _ _), Returned (RNat e)
  | FCall (NewIters _ _), Returned (RNat e) | FCall (NewMove _ _ _), Returned (RNat e)
  | FCall (NewRvalue _ _), Returned (RNat e) | FCall (NewList _ _), Returned (RNat e) => enter e 0 t
  | FCall (Copy d), Returned (RNat e) => enter e (t d) t
  | FCall (CopyAssign c d), Returned RUnit => enter c (t d) t
  | FCall (Move d), Returned (RNat e) => enter d 0 (enter e (t d) t)
  | FCall (MoveAssign c d), Returned RUnit | FCall (Swap c d), Returned RUnit =>
      enter c (t d) (enter d (t c) t)
  | _, _ => t
  end.

(** Steps other than the copy constructor and copy assignment between two different objects. *)
Definition f_copy_free (p : fop K V) : bool :=
  match p with FNew _ o | FCall o => copy_free o | _ => true end.

(** States reached by a program without copies, with the client's notes. *)
Inductive f_after : fstate -> (nat -> nat) -> Prop :=
| fa_init : f_after (@init_fstate K V) (fun _ => 0)
| fa_return st t p r st' : f_after st t -> f_copy_free p = true ->
    fexec E callable p st = Val r st' -> f_after st' (ledger p (Returned r) t)
| fa_throw st t p e st' : f_after st t -> f_copy_free p = true ->
    fexec E callable p st = Exc e st' -> f_after st' (ledger p (Threw e) t).

(** What the client sees. *)
Definition f_contents (c : nat) (st : fstate) (l : list (K * V)) : Prop :=
  fexec E callable (FCall (Ordered c)) st = Val (REnts l) st.
Definition f_capacity (c : nat) (st : fstate) (n : nat) : Prop :=
  fexec E callable (FCall (Capacity c)) st = Val (RNat n) st.
Definition f_objects (c : nat) (st : fstate) (i : nat) : Prop :=
  fexec E callable (FObjects c) st = Val (RNat i) st.
Definition f_alive (st : fstate) (c : nat) : bool := alive (f_world st) c.
Definition f_timed (st : fstate) (c : nat) : bool := timed (f_world st) c.

(** A step with its outcome. *)
Definition f_call (p : fop K V) (st : fstate) (r : outcome K V) (st' : fstate) : Prop :=
  match r with
  | Returned x => fexec E callable p st = Val x st'
  | Threw e => fexec E callable p st = Exc e st'
  end.
(** The caches a step names. *)
Definition f_mentions (p : fop K V) : list nat :=
  match p with FNew _ o | FCall o => mentions o | FDirect d | FObjects d => [d] end.
(** The objects a step works with: those given to a constructor, those of the (first) cache called,
    0 if the step names neither. *)
Definition works_with (p : fop K V) (t : nat -> nat) : nat :=
  match p with
  | FNew i _ => i
  | FCall o => match mentions o with c :: _ => t c | [] => 0 end
  | FDirect _ => 0
  | FObjects c => t c
  end.
(** Cache [c] of [st] is what [d] is in [st'], with its objects. *)
Definition f_same (c : nat) (st : fstate) (d : nat) (st' : fstate) : Prop :=
  (forall l, f_contents c st l -> f_contents d st' l) /\
  (forall n, f_capacity c st n -> f_capacity d st' n) /\
  (forall i, f_objects c st i -> f_objects d st' i).

End SpecFunObj.
