(** Model of /repo/include/lru/wrap.hpp: LRU::wrap and LRU::timed_wrap.

    [K] stands for the argument tuples, [V] for the return values.  One type of each
    suffices: functions with different argument or return types have different
    function types, hence different caches.

    Not modelled: threads (the initialisation of a static is guarded), the
    destruction of the static caches at program exit, and wrapped functions that
    create further wrapped functions while they run.  [construct_from_tuple]
    (utility.hpp:48-69) returns the cache by value; as every compiler does (and
    C++17 demands) the copies are elided, so the static is the object
    constructed. *)

From Coq Require Import List Arith ZArith Bool.
Import ListNotations.
From Verif Require Import Monad Types Model Api.
Set Implicit Arguments.
Local Open Scope cpp_scope.

Section Wrap.
Context {K V : Type}.

(** What an original function does for given arguments: it may call wrapped
    functions (recursive calls through the wrapper, for instance), and in the end
    returns or throws. *)
Inductive fbody : Type :=
| Return (v : V)
| Raise (n : nat)
| Ask (i cat : nat) (k : K) (go_on : V -> fbody).

(** wrap.hpp:51-54: the closure object.  [wo_type] stands for the type of the
    function.  [cache_args] is a tuple of references
    (std::forward_as_tuple), here of variable numbers: the time to live
    ([None]: CacheType is Cache, otherwise TimedCache) and the capacity ([None]:
    not given). *)
Record wobj : Type := MkWrapped {
  wo_type : nat;
  wo_fun : nat;
  wo_ttl : option nat;
  wo_cap : option nat
}.

(** wrap.hpp:54, 62-64: [static auto cache] is a variable of the function-call
    operator, which is a template over the types and value categories of the
    arguments ([auto&&...]).  There is one such variable for each closure type
    (function type, CacheType, Args) and each combination of argument types and
    value categories [cat] (an lvalue argument deduces T&, an rvalue T); it
    is shared by all closure objects of the type. *)
Definition static : Type := (nat * bool * bool * nat)%type.
Definition is_some {A} (x : option A) : bool := match x with Some _ => true | None => false end.
Definition static_of (o : wobj) (cat : nat) : static :=
  (wo_type o, is_some (wo_ttl o), is_some (wo_cap o), cat).
Definition static_eqb (s t : static) : bool :=
  let '(a, b, c, d) := s in let '(a', b', c', d') := t in
  Nat.eqb a a' && Bool.eqb b b' && Bool.eqb c c' && Nat.eqb d d'.

(** The state: the caches, the statics that have been initialised, the
    closure objects, the variables of the program ([None]: lifetime ended).
    The rest is for specifications only: the calls of wrapped functions (by
    static cache), the calls of original functions that returned, with their
    results, both latest first; and the number of calls of original
    functions. *)
Record wworld : Type := MkWW {
  ww_world : world K V;
  ww_statics : list (static * nat);
  ww_objs : list wobj;
  ww_vars : list (option Z);
  ww_asked : list (static * K);
  ww_results : list (nat * K * V);
  ww_calls : nat
}.
Definition init_wworld : wworld := MkWW init_world [] [] [] [] [] 0.

Variable E : env K V.
(** The original functions; the second argument is the number of calls of
    original functions made before. *)
Variable F : nat -> nat -> K -> fbody.

Notation M := (M wworld).

Definition set_world (x : world K V) (w : wworld) : wworld :=
  MkWW x (ww_statics w) (ww_objs w) (ww_vars w) (ww_asked w) (ww_results w) (ww_calls w).
Definition lift {A} (m : Monad.M (world K V) A) : M A := fun w =>
  match m (ww_world w) with
  | Val a x => Val a (set_world x w)
  | Exc e x => Exc e (set_world x w)
  | Undef u => Undef u
  | Term e => Term e
  end.

Definition get_obj (i : nat) : M wobj := fun w =>
  match nth_error (ww_objs w) i with Some o => Val o w | None => Undef DeadObject end.
Definition new_obj (o : wobj) : M nat := fun w =>
  Val (length (ww_objs w))
      (MkWW (ww_world w) (ww_statics w) (ww_objs w ++ [o]) (ww_vars w) (ww_asked w) (ww_results w) (ww_calls w)).
Definition new_var (z : Z) : M nat := fun w =>
  Val (length (ww_vars w))
      (MkWW (ww_world w) (ww_statics w) (ww_objs w) (ww_vars w ++ [Some z]) (ww_asked w) (ww_results w) (ww_calls w)).
Definition put_var (x : nat) (z : option Z) : M unit :=
  modify (fun w => MkWW (ww_world w) (ww_statics w) (ww_objs w) (upd (ww_vars w) x z) (ww_asked w) (ww_results w) (ww_calls w)).
Definition read_ref (x : nat) : M Z := fun w =>
  match slot (ww_vars w) x with Some z => Val z w | None => Undef DanglingReference end.

Fixpoint find_static (s : static) (l : list (static * nat)) : option nat :=
  match l with
  | [] => None
  | (t, c) :: l => if static_eqb s t then Some c else find_static s l
  end.
Definition get_static (s : static) : M (option nat) := gets (fun w => find_static s (ww_statics w)).
Definition put_static (s : static) (c : nat) : M unit :=
  modify (fun w => MkWW (ww_world w) ((s, c) :: ww_statics w) (ww_objs w) (ww_vars w) (ww_asked w) (ww_results w) (ww_calls w)).

Definition note_asked (s : static) (k : K) : M unit :=
  modify (fun w => MkWW (ww_world w) (ww_statics w) (ww_objs w) (ww_vars w) ((s, k) :: ww_asked w) (ww_results w) (ww_calls w)).
Definition note_result (f : nat) (k : K) (v : V) : M unit :=
  modify (fun w => MkWW (ww_world w) (ww_statics w) (ww_objs w) (ww_vars w) (ww_asked w) ((f, k, v) :: ww_results w) (ww_calls w)).
Definition count_call : M nat := fun w =>
  Val (ww_calls w)
      (MkWW (ww_world w) (ww_statics w) (ww_objs w) (ww_vars w) (ww_asked w) (ww_results w) (S (ww_calls w))).

(** definitions.hpp:36, cache.hpp:81, timed-cache.hpp:90: the default capacity *)
Definition default_capacity : nat := 128.

(** wrap.hpp:62-64, utility.hpp:48-60: the first time, the cache is constructed
    from what the references refer to now. *)
Definition the_cache (o : wobj) (cat : nat) : M nat :=
  s <- get_static (static_of o cat);;
  match s with
  | Some c => ret c
  | None =>
      ttl <- match wo_ttl o with
             | None => ret None
             | Some x => d <- read_ref x;; ret (Some d)
             end;;
      cap <- match wo_cap o with
             | None => ret default_capacity
             | Some x => n <- read_ref x;; ret (Z.to_nat n)
             end;;
      c <- lift (new_cache cap ttl);;
      put_static (static_of o cat) c;;;
      ret c
  end.

(** Running an original function, given how to call wrapped functions. *)
Fixpoint run_body (ask : nat -> nat -> K -> M V) (b : fbody) : M V :=
  match b with
  | Return v => ret v
  | Raise n => throw (UserExn n)
  | Ask i cat k go_on => v <- ask i cat k;; run_body ask (go_on v)
  end.

(** wrap.hpp:54-78: the function-call operator.  [depth] bounds the nesting of
    calls of wrapped functions; exceeding it is reported as [FuelExhausted]. *)
Fixpoint call_wrapped (depth : nat) (i cat : nat) (k : K) : M V :=
  match depth with
  | O => undef FuelExhausted
  | S depth =>
      o <- get_obj i;;
      note_asked (static_of o cat) k;;;
      c <- the_cache o cat;;
      it <- lift (find E c k);;
      if negb (u_eq it (unordered_end c)) then
        lift ('(p, _) <- u_deref it;; n <- deref p;; ret (n_val n))
      else
        n <- count_call;;
        v <- run_body (call_wrapped depth) (F (wo_fun o) n k);;
        note_result (wo_fun o) k v;;;
        lift (emplace E c k v);;;
        ret v
  end.

(** Arguments of wrap: a variable, or a temporary that lives until the end of
    the full-expression. *)
Inductive warg : Type := Lvalue (x : nat) | Temporary (z : Z).
Definition materialise (a : warg) : M nat :=
  match a with Lvalue x => ret x | Temporary z => new_var z end.
Definition end_of_expression (a : warg) (x : nat) : M unit :=
  match a with Lvalue _ => ret tt | Temporary _ => put_var x None end.
Definition materialise_opt (a : option warg) : M (option nat) :=
  match a with None => ret None | Some a => x <- materialise a;; ret (Some x) end.
Definition end_opt (a : option warg) (x : option nat) : M unit :=
  match a, x with Some a, Some x => end_of_expression a x | _, _ => ret tt end.

(** wrap.hpp:47-79 wrap: the closure holds references to the arguments *)
Definition wrap (ty f : nat) (ttl cap : option nat) : M nat :=
  new_obj (MkWrapped ty f ttl cap).

(** wrap.hpp:91-95 timed_wrap: [duration] is a parameter by value, hence a local
    variable of timed_wrap; wrap takes a reference to it. *)
Definition timed_wrap (ty f : nat) (duration : Z) (cap : option nat) : M nat :=
  d <- new_var duration;;
  i <- wrap ty f (Some d) cap;;
  put_var d None;;;
  ret i.

(** ** Programs *)
Inductive wop : Type :=
| Var (z : Z)                                       (* a new variable *)
| SetVar (x : nat) (z : Z)
| EndVar (x : nat)                                  (* its lifetime ends *)
| Wrap (ty f : nat) (ttl cap : option warg)         (* LRU::wrap<F, Cache or TimedCache>(f, ttl, cap) *)
| TimedWrap (ty f : nat) (d : Z) (cap : option warg)  (* LRU::timed_wrap(f, d, cap) *)
| CopyWrapped (i : nat)                             (* the closure is copied *)
| CallWrapped (i cat : nat) (k : K).                (* arguments of types and value categories [cat] *)

Inductive wout : Type := WIll | WUnit | WNat (n : nat) | WVal (v : V).

(** Calls that a C++ program can make: variables and closures exist. *)
Definition var_alive (w : wworld) (x : nat) : bool := is_some (slot (ww_vars w) x).
Definition arg_alive (w : wworld) (a : option warg) : bool :=
  match a with Some (Lvalue x) => var_alive w x | _ => true end.
Definition wop_well_formed (w : wworld) (o : wop) : bool :=
  match o with
  | Var _ => true
  | SetVar x _ | EndVar x => var_alive w x
  | Wrap _ _ ttl cap => arg_alive w ttl && arg_alive w cap
  | TimedWrap _ _ _ cap => arg_alive w cap
  | CopyWrapped i | CallWrapped i _ _ => Nat.ltb i (length (ww_objs w))
  end.

Variable depth : nat.

Definition wbody (o : wop) : M wout :=
  match o with
  | Var z => x <- new_var z;; ret (WNat x)
  | SetVar x z => put_var x (Some z);;; ret WUnit
  | EndVar x => put_var x None;;; ret WUnit
  | Wrap ty f ttl cap =>
      t <- materialise_opt ttl;; n <- materialise_opt cap;;
      i <- wrap ty f t n;;
      end_opt cap n;;; end_opt ttl t;;; ret (WNat i)
  | TimedWrap ty f d cap =>
      n <- materialise_opt cap;;
      i <- timed_wrap ty f d n;;
      end_opt cap n;;; ret (WNat i)
  | CopyWrapped i => o <- get_obj i;; j <- new_obj o;; ret (WNat j)
  | CallWrapped i cat k => v <- call_wrapped depth i cat k;; ret (WVal v)
  end.

Definition wexec (o : wop) : M wout := fun w =>
  if wop_well_formed w o then wbody o w else Val WIll w.

Inductive woutcome : Type := WReturned (r : wout) | WThrew (e : exn).
Inductive whist : Type :=
| WFinished (outs : list woutcome) (w : wworld)
| WUndefined (outs : list woutcome) (u : ub)
| WTerminated (outs : list woutcome) (e : exn).
Definition wpush (o : woutcome) (h : whist) : whist :=
  match h with
  | WFinished l w => WFinished (o :: l) w
  | WUndefined l u => WUndefined (o :: l) u
  | WTerminated l e => WTerminated (o :: l) e
  end.
Fixpoint wrun (l : list wop) (w : wworld) : whist :=
  match l with
  | [] => WFinished [] w
  | o :: t =>
      match wexec o w with
      | Val r w' => wpush (WReturned r) (wrun t w')
      | Exc e w' => wpush (WThrew e) (wrun t w')
      | Undef u => WUndefined [] u
      | Term e => WTerminated [] e
      end
  end.

End Wrap.

Arguments fbody : clear implicits.
Arguments wworld : clear implicits.
Arguments wop : clear implicits.
Arguments wout : clear implicits.
Arguments woutcome : clear implicits.
Arguments whist : clear implicits.
