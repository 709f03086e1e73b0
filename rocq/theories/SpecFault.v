(** Vocabulary for failing allocations and for callbacks that do more than record
    that they were called. *)
From Coq Require Import List Arith ZArith Bool Permutation.
Import ListNotations.
From Verif Require Import Monad Types Model Api Spec.
Set Implicit Arguments.

(** As [good], without the assumptions that allocations succeed and that
    callbacks do nothing. *)
Record fair {K V} (E : env K V) : Prop := {
  fair_refl : forall k, key_equal E k k = true;
  fair_sym : forall a b, key_equal E a b = key_equal E b a;
  fair_trans : forall a b c, key_equal E a b = true -> key_equal E b c = true -> key_equal E a c = true;
  fair_place : forall l n, Permutation (place E l n) (n :: l)
}.

(** The same environment with other allocation failures / other callbacks. *)
Definition with_fails {K V} (f : nat -> bool) (E : env K V) : env K V :=
  MkEnv (key_equal E) (key_eqop E) (val_eqop E) (place E) (rehash E) (clock E) (dcast E) (junk E)
        (lenient_end E) f (cb E).
Definition with_cb {K V} (g : cbevent K V -> M (world K V) unit) (E : env K V) : env K V :=
  MkEnv (key_equal E) (key_eqop E) (val_eqop E) (place E) (rehash E) (clock E) (dcast E) (junk E)
        (lenient_end E) (fails E) g.

(** Callbacks that are recorded, and may throw, but do nothing else. *)
Definition only_throws {K V} (E : env K V) : Prop :=
  forall ev w, let w' := with_log (fun l => l ++ [ev]) w in
    cb E ev w = Val tt w' \/ exists n, cb E ev w = Exc (UserExn n) w'.

Section SpecFault.
Context {K V : Type}.

Notation world := (world K V).
Notation env := (env K V).

(** The ordered traversal of the cache shows as many elements as size(). *)
Definition complete (E : env) (c : nat) (w : world) : Prop :=
  exists l, contents E c w l /\ size_is E c w (length l).

(** Worlds a program can reach without copying caches, if the caches named in
    calls that ran out of memory were complete afterwards. *)
Inductive survives (E : env) : world -> Prop :=
| survives_init : survives E init_world
| survives_call w o r w' : survives E w -> copy_free o = true -> call E o w r w' ->
    (r = Threw BadAlloc -> forall c, In c (mentions o) -> complete E c w') -> survives E w'.

(** The outcomes that are undefined, or terminate the program, without any
    failure: find(k).entry() of an absent key, reading the uninitialised capacity
    of a moved-from cache, front() and back() of an empty cache. *)
Definition defined (E : env) (o : op K V) (w : world) : Prop :=
  match exec E o w with
  | Val _ _ | Exc _ _ => True
  | Undef u => (u = PastTheEnd /\ lenient_end E = false /\ exists c k, o = FindEntry c k) \/
               (u = Indeterminate /\ junk E = None /\ exists c, o = Move c)
  | Term e => e = EmptyCache /\ exists c, (o = Front c \/ o = Back c) /\ size_is E c w 0
  end.

(** ** Callbacks that throw *)

(** Callbacks are recorded; [t], given the event and the events so far, says
    which exception the callback then throws, if any. *)
Definition throwing (t : cbevent K V -> list (cbevent K V) -> option nat) (E : env) : env :=
  with_cb (fun ev w =>
    let w' := with_log (fun l => l ++ [ev]) w in
    match t ev (w_log w') with None => Val tt w' | Some n => Exc (UserExn n) w' end) E.

(** None of the callbacks called for [evs], after those for [log], throws. *)
Definition lets_pass (t : cbevent K V -> list (cbevent K V) -> option nat) (log evs : list (cbevent K V)) : Prop :=
  forall evs1 ev evs2, evs = evs1 ++ ev :: evs2 -> t ev (log ++ evs1 ++ [ev]) = None.

(** What an event says: the key, and whether it was found. *)
Definition about (ev : cbevent K V) : K * bool :=
  match ev with EvHit _ k _ => (k, true) | EvMiss _ k => (k, false) | EvAccess _ k b => (k, b) end.

(** ** What a callback does *)

(** Calls, the next depending on the outcomes of the previous ones; at the end it
    may throw. *)
Inductive prog : Type :=
| Stop (e : option nat)
| Then (o : op K V) (next : outcome K V -> prog).

Fixpoint follow_prog (E : env) (p : prog) : M world unit := fun w =>
  match p with
  | Stop None => Val tt w
  | Stop (Some n) => Exc (UserExn n) w
  | Then o next =>
      match exec E o w with
      | Val r w' => follow_prog E (next (Returned r)) w'
      | Exc e w' => follow_prog E (next (Threw e)) w'
      | Undef u => Undef u
      | Term e => Term e
      end
  end.

(** Callbacks that follow [script] (given the event and the events so far); the
    calls they make call callbacks in turn, down to depth [n], below which
    callbacks are only recorded.  A program whose callbacks are not nested more
    than [n] deep behaves the same for all larger numbers. *)
Fixpoint scripted (n : nat) (script : cbevent K V -> list (cbevent K V) -> prog) (E : env) : env :=
  with_cb (fun ev w =>
    let w1 := with_log (fun l => l ++ [ev]) w in
    match n with
    | O => Val tt w1
    | S n => follow_prog (scripted n script E) (script ev (w_log w1)) w1
    end) E.

(** All calls of the program satisfy [P]. *)
Inductive calls_only (P : op K V -> bool) : prog -> Prop :=
| calls_stop e : calls_only P (Stop e)
| calls_then o next : P o = true -> (forall r, calls_only P (next r)) -> calls_only P (Then o next).

End SpecFault.
Arguments prog : clear implicits.

(** Calls that neither insert elements into existing caches nor remove any, do
    not touch callbacks, and do not destroy, assign or swap caches. *)
Definition gentle {K V} (o : op K V) : bool :=
  match o with
  | New _ _ | NewFrom _ _ _ | NewIters _ _ | NewMove _ _ _ | NewRvalue _ _ | NewList _ _
  | Find _ _ | Contains _ _ | Lookup _ _ | Write _ _ _
  | Size _ | Capacity _ | SpaceLeft _ | IsEmpty _ | IsFull _ | HasExpired _ _ | AllExpired _ | Equal _ _
  | Ordered _ | Backward _ | Unordered _ | EntryAt _ _ | ValidAt _ _
  | MonitorNew _ _ | MonitorShared _ _ | StopMonitoring _ | IsMonitoring _ | Totals _ | StatsFor _ _
  | StatsMonitor _ _ | StatsUnmonitor _ _ | StatsUnmonitorAll _ | StatsResetKey _ _
  | StatsIsMonitoring _ _ | StatsNumber _ => true
  | _ => false
  end.
