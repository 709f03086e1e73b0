(** Vocabulary for the theorems about LastAccessed objects (C102, C103): what a client
    can work out from the steps its program has made, newest first. *)
From Coq Require Import List Arith Bool.
Import ListNotations.
From Verif Require Import Monad LastObj.
Set Implicit Arguments.

Section SpecLast.
Context {K I : Type}.
Variable equal : nat -> K -> K -> option bool.
Notation lop := (lop K I).
Notation lret := (lret K I).

(** How many keys, informations and LastAccessed objects have been made. *)
Definition counts (f : lop -> bool) (h : list lop) : nat := length (filter f h).
Definition keys_made : list lop -> nat := counts (fun q => match q with LNewKey _ _ => true | _ => false end).
Definition infos_made : list lop -> nat := counts (fun q => match q with LNewInfo _ => true | _ => false end).
Definition objs_made : list lop -> nat :=
  counts (fun q => match q with LNew _ | LOf _ _ _ | LFrom _ _ | LCopy _ => true | _ => false end).

(** The key and the information that object [x] was given last, directly or through
    other objects. *)
Fixpoint given (h : list lop) (x : nat) : option (nat * nat) :=
  match h with
  | [] => None
  | q :: h =>
    match q with
    | LOf a b _ | LFrom (IAt a b) _ => if Nat.eqb x (objs_made h) then Some (a, b) else given h x
    | LCopy y => if Nat.eqb x (objs_made h) then given h y else given h x
    | LGive y (IAt a b) => if Nat.eqb x y then Some (a, b) else given h x
    | LAssign y z => if Nat.eqb x y then given h z else given h x
    | LSwap y z => if Nat.eqb x y then given h z else if Nat.eqb x z then given h y else given h x
    | LInvalidate y => if Nat.eqb x y then None else given h x
    | _ => given h x
    end
  end.

(** The KeyEqual it has. *)
Fixpoint compares_with (h : list lop) (x : nat) : nat :=
  match h with
  | [] => 0
  | q :: h =>
    match q with
    | LNew e | LOf _ _ e | LFrom _ e => if Nat.eqb x (objs_made h) then e else compares_with h x
    | LCopy y => if Nat.eqb x (objs_made h) then compares_with h y else compares_with h x
    | LAssign y z => if Nat.eqb x y then compares_with h z else compares_with h x
    | LSwap y z => if Nat.eqb x y then compares_with h z else if Nat.eqb x z then compares_with h y else compares_with h x
    | _ => compares_with h x
    end
  end.

(** The current state of a key (and whether it is const) and of an information:
    [None] when there is none. *)
Fixpoint key_now (h : list lop) (a : nat) : option (K * bool) :=
  match h with
  | [] => None
  | q :: h =>
    match q with
    | LNewKey k c => if Nat.eqb a (keys_made h) then Some (k, c) else key_now h a
    | LDelKey a' => if Nat.eqb a a' then None else key_now h a
    | LSetKey x k =>
        match given h x with
        | Some (a', _) => if Nat.eqb a a' then Some (k, false) else key_now h a
        | None => key_now h a
        end
    | _ => key_now h a
    end
  end.
Fixpoint info_now (h : list lop) (b : nat) : option I :=
  match h with
  | [] => None
  | q :: h =>
    match q with
    | LNewInfo i => if Nat.eqb b (infos_made h) then Some i else info_now h b
    | LDelInfo b' => if Nat.eqb b b' then None else info_now h b
    | LPutInfo b' i => if Nat.eqb b b' then Some i else info_now h b
    | LSetInfo x i =>
        match given h x with
        | Some (_, b') => if Nat.eqb b b' then Some i else info_now h b
        | None => info_now h b
        end
    | _ => info_now h b
    end
  end.

(** How a step ends: it returns, has undefined behaviour, or terminates the program. *)
Inductive tale : Type := Tells (r : lret) | Breaks | Aborts.
Definition ends {S} (r : res S lret) : tale :=
  match r with Val a _ => Tells a | Exc _ _ => Aborts | Undef _ => Breaks | Term _ => Aborts end.

Definition opposite (t : tale) : tale := match t with Tells (LBool b) => Tells (LBool (negb b)) | t => t end.
Definition says (o : option bool) : tale := match o with Some b => Tells (LBool b) | None => Aborts end.
Definition whether (c : bool) (t : tale) : tale := if c then t else Breaks.
Definition is {A} (o : option A) : bool := match o with Some _ => true | None => false end.
Definition exist_key h a : bool := is (key_now h a).
Definition exist_info h b : bool := is (info_now h b).
Definition exist_obj h x : bool := Nat.ltb x (objs_made h).
Definition good_iter h it : bool :=
  match it with IAt a b => exist_key h a && exist_info h b | IEnd => false end.

(** Comparison of object [x] with key [k]; [sign] turns == into !=. *)
Definition versus (sign : bool) h x k : tale :=
  match given h x with
  | None => Tells (LBool (xorb sign false))
  | Some (a, _) =>
      match key_now h a with
      | Some (k', _) => says (option_map (xorb sign) (equal (compares_with h x) k k'))
      | None => Breaks
      end
  end.
Definition versus_iter (sign : bool) h x it : tale :=
  match it with
  | IAt a _ => match key_now h a with Some (k, _) => versus sign h x k | None => Breaks end
  | IEnd => Breaks
  end.

(** What the next step will do. *)
Definition foretold (h : list lop) (q : lop) : tale :=
  match q with
  | LNewKey _ _ => Tells (LNum (keys_made h))
  | LNewInfo _ => Tells (LNum (infos_made h))
  | LDelKey a => whether (exist_key h a) (Tells LUnit)
  | LDelInfo b | LPutInfo b _ => whether (exist_info h b) (Tells LUnit)
  | LReadKey a => match key_now h a with Some (k, _) => Tells (LKeyIs k) | None => Breaks end
  | LReadInfo b => match info_now h b with Some i => Tells (LInfoIs i) | None => Breaks end
  | LNew _ => Tells (LNum (objs_made h))
  | LOf a b _ => whether (exist_key h a && exist_info h b) (Tells (LNum (objs_made h)))
  | LFrom it _ => whether (good_iter h it) (Tells (LNum (objs_made h)))
  | LCopy x => whether (exist_obj h x) (Tells (LNum (objs_made h)))
  | LAssign x y | LSwap x y => whether (exist_obj h x && exist_obj h y) (Tells LUnit)
  | LGive x it => whether (exist_obj h x && good_iter h it) (Tells LUnit)
  | LInvalidate x => whether (exist_obj h x) (Tells LUnit)
  | LValid x => whether (exist_obj h x) (Tells (LBool (is (given h x))))
  | LKey x =>
      match given h x with
      | Some (a, _) => match key_now h a with Some (k, _) => Tells (LKeyIs k) | None => Breaks end
      | None => Breaks
      end
  | LInfo x =>
      match given h x with
      | Some (_, b) => match info_now h b with Some i => Tells (LInfoIs i) | None => Breaks end
      | None => Breaks
      end
  | LSetKey x _ =>
      match given h x with
      | Some (a, _) => match key_now h a with Some (_, false) => Tells LUnit | _ => Breaks end
      | None => Breaks
      end
  | LSetInfo x _ =>
      match given h x with
      | Some (_, b) => whether (exist_info h b) (Tells LUnit)
      | None => Breaks
      end
  | LEq x k => whether (exist_obj h x) (versus false h x k)
  | LNe x k => whether (exist_obj h x) (versus true h x k)
  | LEqIt x it => whether (exist_obj h x) (versus_iter false h x it)
  | LNeIt x it => whether (exist_obj h x) (versus_iter true h x it)
  end.

(** The step gives object [x] something (or takes it away). *)
Definition concerns (x : nat) (q : lop) : bool :=
  match q with
  | LGive y _ | LAssign y _ | LInvalidate y => Nat.eqb x y
  | LSwap y z => Nat.eqb x y || Nat.eqb x z
  | _ => false
  end.
(** It gives [x] another KeyEqual. *)
Definition exchanges (x : nat) (q : lop) : bool :=
  match q with
  | LAssign y _ => Nat.eqb x y
  | LSwap y z => Nat.eqb x y || Nat.eqb x z
  | _ => false
  end.
(** It makes an object with KeyEqual [e]. *)
Inductive makes_with (e : nat) : lop -> Prop :=
| mw_new : makes_with e (LNew e)
| mw_of a b : makes_with e (LOf a b e)
| mw_from it : makes_with e (LFrom it e).
(** It gives object [x] key [a] and information [b]. *)
Inductive gives (x a b : nat) : lop -> lret -> Prop :=
| gv_of e : gives x a b (LOf a b e) (LNum x)
| gv_from e : gives x a b (LFrom (IAt a b) e) (LNum x)
| gv_assign : gives x a b (LGive x (IAt a b)) LUnit.
(** Questions to object [x]. *)
Inductive asks (x : nat) : lop -> lop -> nat -> Prop :=
| as_valid y : asks x (LValid x) (LValid y) y
| as_key y : asks x (LKey x) (LKey y) y
| as_info y : asks x (LInfo x) (LInfo y) y
| as_eq y k : asks x (LEq x k) (LEq y k) y
| as_ne y k : asks x (LNe x k) (LNe y k) y
| as_eq_it y it : asks x (LEqIt x it) (LEqIt y it) y
| as_ne_it y it : asks x (LNeIt x it) (LNeIt y it) y.
End SpecLast.
