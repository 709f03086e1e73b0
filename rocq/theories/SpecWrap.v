(** Specification vocabulary for wrapped functions. *)
From Coq Require Import List Arith ZArith Bool.
Import ListNotations.
From Verif Require Import Monad Types Model Api Spec SpecStats SpecTimed Wrap.
Set Implicit Arguments.

Section SpecWrap.
Context {K V : Type}.

(** What a function does for given arguments: return a value or throw. *)
Definition answer : Type := (V + exn)%type.
Definition answered (r : answer) : woutcome V :=
  match r with inl v => WReturned (WVal v) | inr e => WThrew e end.

(** If calls of the wrapped function [i] with arguments [k] do [val i k], then
    this body does [r]. *)
Inductive settles (val : nat -> K -> answer) : fbody K V -> answer -> Prop :=
| settles_return v : settles val (Return v) (inl v)
| settles_raise n : settles val (Raise n) (inr (UserExn n))
| settles_ask i cat k go_on v r :
    val i k = inl v -> settles val (go_on v) r -> settles val (Ask i cat k go_on) r
| settles_ask_raise i cat k go_on e :
    val i k = inr e -> settles val (Ask i cat k go_on) (inr e).

(** Functions that call no wrapped function. *)
Definition plain_function (b : fbody K V) : bool :=
  match b with Ask _ _ _ _ => false | _ => true end.

Variable E : env K V.
Variable F : nat -> nat -> K -> fbody K V.
Variable depth : nat.

Definition wreachable (w : wworld K V) : Prop :=
  exists ops outs, wrun E F depth ops init_wworld = WFinished outs w.

(** The closure object [i]. *)
Definition closure (w : wworld K V) (i : nat) (o : wobj) : Prop := nth_error (ww_objs w) i = Some o.
(** Two closures have the same type. *)
Definition same_type (o o' : wobj) : Prop :=
  wo_type o = wo_type o' /\ is_some (wo_ttl o) = is_some (wo_ttl o') /\ is_some (wo_cap o) = is_some (wo_cap o').

(** The cache that calls of closure [o] with arguments of category [cat] use, if
    there has been one. *)
Definition cache_of (w : wworld K V) (o : wobj) (cat : nat) (c : nat) : Prop :=
  find_static (static_of o cat) (ww_statics w) = Some c.

(** A call of a wrapped function that returns. *)
Definition returns (i cat : nat) (k : K) (w : wworld K V) (v : V) (w' : wworld K V) : Prop :=
  wexec E F depth (CallWrapped i cat k) w = Val (WVal v) w'.

(** The original functions were not called in between. *)
Definition not_called (w w' : wworld K V) : Prop := ww_calls w' = ww_calls w.

(** In between, calls of closures that use the same cache had arguments equal
    to [k] or to one of [others]. *)
Definition used_only (o : wobj) (cat : nat) (k : K) (others : list K) (w w' : wworld K V) : Prop :=
  exists l, ww_asked w' = l ++ ww_asked w /\
    forall k', In (static_of o cat, k') l -> exists j, In j (k :: others) /\ key_equal E j k' = true.

(** The value [v] was returned by a function wrapped by a closure of the type of
    [o], called with arguments equal to [k]. *)
Definition computed (w : wworld K V) (o : wobj) (k : K) (v : V) : Prop :=
  exists f k' j o', In (f, k', v) (ww_results w) /\ key_equal E k k' = true /\
    closure w j o' /\ same_type o' o /\ wo_fun o' = f.

(** Programs that keep the arguments of wrap alive. *)
Definition lasting (o : wop K) : bool :=
  match o with
  | EndVar _ | TimedWrap _ _ _ _ | Wrap _ _ (Some (Temporary _)) _ | Wrap _ _ _ (Some (Temporary _)) => false
  | _ => true
  end.

(** What the references of closure [o] refer to now. *)
Definition refers (w : wworld K V) (x : option nat) (z : option Z) : Prop :=
  match x, z with
  | None, None => True
  | Some x, Some z => slot (ww_vars w) x = Some z
  | _, _ => False
  end.
Definition capacity_arg (n : option Z) : nat := match n with None => 128 | Some n => Z.to_nat n end.

End SpecWrap.
Arguments answer : clear implicits.
