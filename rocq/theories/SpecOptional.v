(** What an optional value is, without pointers: a program's variables are a list of
    values, each variable destroyed, empty, or holding an element. *)
From Coq Require Import List Bool.
Import ListNotations.
From Verif Require Import Monad Model Optional.
Set Implicit Arguments.

Section SpecOptional.
Context {T : Type}.

(** [None]: no such variable (any more); [Some None]: empty; [Some (Some x)]: holds x. *)
Definition ovalues : Type := list (option (option T)).

Inductive oresult : Type :=
| Gives (r : oret T) (a : ovalues)
| Raises (e : exn)
| Wrong.

Variable E : oenv T.

Definition with_value (a : ovalues) (i : nat) (k : option T -> oresult) : oresult :=
  match nth i a None with
  | Some v => k v
  | None => Wrong
  end.

(** The effect of each operation. *)
Definition o_spec (o : oop T) (a : ovalues) : oresult :=
  let create v a := Gives (OVar (length a)) (a ++ [Some v]) in
  match o with
  | ODefault => create None a
  | OCopy j => with_value a j (fun v => create v a)
  | OConvert j => with_value a j (fun v => create (option_map (oe_conv E) v) a)
  | OMove j => with_value a j (fun v => create v (upd a j (Some None)))
  | OConvertMove j => with_value a j (fun v =>
      create (option_map (oe_conv E) v) (upd a j (Some (option_map (oe_moved E) v))))
  | OAssign i j => with_value a i (fun _ => with_value a j (fun v =>
      Gives OUnit (upd a i (Some v))))
  | OAssignMove i j => with_value a i (fun _ => with_value a j (fun v =>
      Gives OUnit (upd (upd a j (Some None)) i (Some v))))
  | OAssignConvert i j => with_value a i (fun _ => with_value a j (fun v =>
      Gives OUnit (upd a i (Some (option_map (oe_conv E) v)))))
  | OAssignConvertMove i j => with_value a i (fun _ => with_value a j (fun v =>
      Gives OUnit (upd (upd a j (Some (option_map (oe_moved E) v))) i
                       (Some (option_map (oe_conv E) v)))))
  | OSwap i j => with_value a i (fun u => with_value a j (fun v =>
      Gives OUnit (upd (upd a i (Some v)) j (Some u))))
  | OHas i => with_value a i (fun v => Gives (OBool (match v with Some _ => true | None => false end)) a)
  | ODeref i => with_value a i (fun v =>
      match v with Some x => Gives (OElem x) a | None => Wrong end)
  | OWrite i x => with_value a i (fun v =>
      match v with Some _ => Gives OUnit (upd a i (Some (Some x))) | None => Wrong end)
  | OValue i => with_value a i (fun v =>
      match v with Some x => Gives (OElem x) a | None => Raises NoValue end)
  | OValueOr i d => with_value a i (fun v =>
      Gives (OElem (match v with Some x => x | None => oe_conv E d end)) a)
  | OReset i => with_value a i (fun _ => Gives OUnit (upd a i (Some None)))
  | OEmplace i x => with_value a i (fun _ => Gives OUnit (upd a i (Some (Some x))))
  | OEmplaceFrom i j => with_value a i (fun _ => with_value a j (fun v =>
      match v with Some x => Gives OUnit (upd a i (Some (Some x))) | None => Wrong end))
  | ODestroy i => with_value a i (fun _ => Gives OUnit (upd a i None))
  end.

(** The values a program can see in a world: has_value() and operator* of every
    variable. *)
Definition o_sees (w : oworld T) (a : ovalues) : Prop :=
  length (ow_vars w) = length a /\
  forall i, match nth i a None with
            | None => nth i (ow_vars w) None = None
            | Some None => o_exec E (OHas i) w = Val (OBool false) w
            | Some (Some x) => o_exec E (OHas i) w = Val (OBool true) w /\
                               o_exec E (ODeref i) w = Val (OElem x) w
            end.

(** The number of cells allocated and not deleted; of variables that hold an element. *)
Definition allocated (w : oworld T) : nat :=
  length (filter (fun x => match x with Some _ => true | None => false end) (ow_heap w)).
Definition engaged (a : ovalues) : nat :=
  length (filter (fun x => match x with Some (Some _) => true | _ => false end) a).

(** A conversion from an Optional<U>&&: the constructor of opt:86-92, noexcept. *)
Definition converting_move (o : oop T) : bool :=
  match o with
  | OConvertMove _ | OAssignConvertMove _ _ => true
  | _ => false
  end.

(** Operations that neither allocate nor copy an element. *)
Definition o_cheap (o : oop T) : bool :=
  match o with
  | ODefault | OMove _ | OAssignMove _ _ | OSwap _ _ | OHas _ | ODeref _ | OValue _
  | OReset _ | ODestroy _ => true
  | _ => false
  end.

(** A whole program; an exception leaves every variable as it was. *)
Fixpoint o_values (l : list (oop T)) (a : ovalues) : option ovalues :=
  match l with
  | [] => Some a
  | o :: t => match o_spec o a with
              | Gives _ a' => o_values t a'
              | Raises _ => o_values t a
              | Wrong => None
              end
  end.

End SpecOptional.
Arguments ovalues : clear implicits.
