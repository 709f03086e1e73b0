(** Model of the statistics objects a client holds: programs with variables of type
    shared_ptr<Statistics<Key>>, Statistics<Key>& and const KeyStatistics&.
    statistics.hpp (st), statistics-mutator.hpp (sm), key-statistics.hpp,
    base-cache.hpp (bc) 1229-1311.

    A cache keeps a shared_ptr (sm:144, bc:1574), so an object lives as long as some
    cache or some pointer variable has it; the objects themselves and their numbers are
    those of [Model.v].
    Simplifications: a reference that shared_stats() returns (bc:1304-1311) is used at
    once, to copy, assign, move from or exchange the pointer; hit_rate and miss_rate
    (st:119-126) are in [HitRate.v]; the map of a moved-from Statistics is empty, and
    assigning an object to itself does nothing, as in libstdc++; an allocation that fails
    is not modelled here. *)
From Coq Require Import List Arith ZArith Bool.
Import ListNotations.
From Verif Require Import Monad Types Model Api.
Local Open Scope cpp_scope.
Set Implicit Arguments.

Section StatObj.
Context {K V : Type}.
Notation world := (world K V).
Variable E : env K V.

(** How a program names a statistics object: c.stats(), *p, r. *)
Inductive handle : Type := HCache (c : nat) | HPtr (p : nat) | HRef (r : nat).

(** What it does with the object (st:104-231). *)
Inductive act : Type :=
| ATotals                                (* total_accesses(), total_hits(), total_misses() *)
| AFor (k : K)                           (* hits_for, misses_for, accesses_for, stats_for, operator[] *)
| AHas (k : K)                           (* is_monitoring(k) *)
| ANumber                                (* number_of_monitored_keys() *)
| AAny                                   (* is_monitoring_keys() *)
| AMonitor (k : K)
| AUnmonitor (k : K)
| AUnmonitorAll
| AReset (k : K).                        (* reset_key(k) *)

(** [c] is the number of a cache, [p], [r], [j] of a pointer, a Statistics& and a
    KeyStatistics& variable, in the order of creation. *)
Inductive qop : Type :=
| QCall (o : op K V)                     (* a call on caches *)
| QMake (ks : list K)                    (* auto p = make_shared<Statistics<Key>>(keys...) *)
| QShare (p : nat)                       (* auto p' = p *)
| QTake (c : nat)                        (* auto p = c.shared_stats() *)
| QAttach (c p : nat)                    (* c.monitor(p), c.shared_stats() = p *)
| QGive (c p : nat)                      (* c.monitor(std::move(p)) *)
| QSteal (c d : nat)                     (* c.monitor(std::move(d.shared_stats())) *)
| QSwap (c d : nat)                      (* swap(c.shared_stats(), d.shared_stats()) *)
| QDrop (p : nat)                        (* p.reset() *)
| QRef (h : handle)                      (* auto& r = h *)
| QUse (h : handle) (a : act)
| QCopy (h : handle)                     (* auto p = make_shared<Statistics<Key>>(h) *)
| QMove (h : handle)                     (* auto p = make_shared<Statistics<Key>>(std::move(h)) *)
| QAssign (h g : handle)                 (* h = g *)
| QKeyRef (h : handle) (k : K)           (* auto& j = h.stats_for(k) *)
| QKeyRead (j : nat).                    (* j.hits, j.misses, j.accesses() *)

(** [QObj]: the address of the object a new pointer or reference has (null: [None]). *)
Inductive qout : Type :=
| QO (r : out K V)
| QObj (s : option nat)
| QIll.                                  (* no such variable or cache, or not a program *)

Record qstate : Type := MkQ {
  q_world : world;
  q_ptrs : list (option nat);
  q_refs : list nat;
  (** object and key; [None]: the element of the map is gone *)
  q_keys : list (option (nat * K))
}.
Definition init_qstate : qstate := MkQ (@init_world K V) [] [] [].
Notation QM := (M qstate).

Definition in_world {A} (m : M world A) : QM A := fun st =>
  match m (q_world st) with
  | Val a w => Val a (MkQ w (q_ptrs st) (q_refs st) (q_keys st))
  | Exc e w => Exc e (MkQ w (q_ptrs st) (q_refs st) (q_keys st))
  | Undef u => Undef u
  | Term e => Term e
  end.
Definition set_ptrs (f : list (option nat) -> list (option nat)) : QM unit :=
  modify (fun st => MkQ (q_world st) (f (q_ptrs st)) (q_refs st) (q_keys st)).
Definition set_refs (f : list nat -> list nat) : QM unit :=
  modify (fun st => MkQ (q_world st) (q_ptrs st) (f (q_refs st)) (q_keys st)).
Definition set_keys (f : list (option (nat * K)) -> list (option (nat * K))) : QM unit :=
  modify (fun st => MkQ (q_world st) (q_ptrs st) (q_refs st) (f (q_keys st))).

(** Some shared_ptr has the object. *)
Definition is_at (s : nat) (x : option nat) : bool :=
  match x with Some s' => Nat.eqb s s' | None => false end.
Definition owned (st : qstate) (s : nat) : bool :=
  existsb (is_at s) (q_ptrs st) ||
  existsb (fun x => match x with Some c => is_at s (c_stats c) | None => false end) (w_caches (q_world st)).
Definition living (s : nat) : QM nat := fun st =>
  if owned st s then Val s st else Undef DanglingReference.

(** bc:1286-1301 stats(); operator* of a shared_ptr; a reference. *)
Definition object (h : handle) : QM nat :=
  match h with
  | HCache c => in_world (stats c)
  | HPtr p => x <- gets (fun st => nth p (q_ptrs st) None);;
              match x with Some s => ret s | None => undef NullPointer end
  | HRef r => s <- gets (fun st => nth r (q_refs st) 0);; living s
  end.
Definition shared (c : nat) : QM (option nat) := in_world (x <- get_cache c;; ret (c_stats x)).

(** bc:1243-1254 monitor(shared_ptr), bc:1273-1275 (sm:138-140): an assignment of the
    cache's pointer, which may be null. *)
Definition plug (c : nat) (x : option nat) : QM (out K V) :=
  in_world (exec E (match x with Some s => MonitorShared c s | None => StopMonitoring c end)).

(** The results of st:104-231 and the object afterwards ([None]: throws UnmonitoredKey). *)
Definition act_on (a : act) (x : statistics K) : option (out K V * statistics K) :=
  match a with
  | ATotals => Some (RTotals (total_accesses x) (total_hits x) (total_misses x), x)
  | AFor k => option_map (fun h => (RKeyStats (fst h) (snd h) (accesses_of h), x)) (stats_for E x k)
  | AHas k => Some (RBool (stats_is_monitoring E x k), x)
  | ANumber => Some (RNat (number_of_monitored_keys x), x)
  | AAny => Some (RBool (negb (Nat.eqb (number_of_monitored_keys x) 0)), x)
  | AMonitor k => Some (RUnit, stats_monitor E k x)
  | AUnmonitor k => option_map (pair RUnit) (stats_unmonitor E k x)
  | AUnmonitorAll => Some (RUnit, stats_unmonitor_all x)
  | AReset k => option_map (pair RUnit) (stats_reset_key E k x)
  end.

(** References to elements of _key_map (st:246) that an action erases: st:182-194. *)
Definition forget (s : nat) (gone : K -> bool) (l : list (option (nat * K))) : list (option (nat * K)) :=
  map (fun x => match x with
                | Some (s', k) => if Nat.eqb s s' && gone k then None else x
                | None => None
                end) l.
Definition gone_by (a : act) (k : K) : bool :=
  match a with AUnmonitor k' => key_eqop E k k' | AUnmonitorAll => true | _ => false end.
(** Moving an unordered_map takes its elements along. *)
Definition follow (s s' : nat) (l : list (option (nat * K))) : list (option (nat * K)) :=
  map (fun x => match x with
                | Some (i, k) => if Nat.eqb s i then Some (s', k) else x
                | None => None
                end) l.

Definition use (h : handle) (a : act) : QM (out K V) :=
  s <- object h;; x <- in_world (get_stats s);;
  match act_on a x with
  | None => throw UnmonitoredKey
  | Some (r, x') => in_world (put_stats s x');;; set_keys (forget s (gone_by a));;; ret r
  end.

(** The programs: the variables and caches named exist. *)
Definition has_handle (st : qstate) (h : handle) : bool :=
  match h with
  | HCache c => alive (q_world st) c
  | HPtr p => p <? length (q_ptrs st)
  | HRef r => r <? length (q_refs st)
  end.
(** The calls that name a statistics object have steps of their own here. *)
Definition plain_call (o : op K V) : bool :=
  match o with MonitorShared _ _ | StatsUnmonitor _ _ | StatsUnmonitorAll _ => false | _ => true end.
Definition q_formed (st : qstate) (q : qop) : bool :=
  match q with
  | QCall o => plain_call o
  | QMake _ => true
  | QShare p | QDrop p => p <? length (q_ptrs st)
  | QTake c => alive (q_world st) c
  | QAttach c p | QGive c p => alive (q_world st) c && (p <? length (q_ptrs st))
  | QSteal c d | QSwap c d => alive (q_world st) c && alive (q_world st) d
  | QRef h | QUse h _ | QCopy h | QMove h | QKeyRef h _ => has_handle st h
  | QAssign h g => has_handle st h && has_handle st g
  | QKeyRead j => j <? length (q_keys st)
  end.

Definition q_body (q : qop) : QM qout :=
  match q with
  | QCall o => r <- in_world (exec E o);; ret (QO r)
  | QMake ks =>
      (* st:60-101 *)
      s <- in_world (alloc_stats (new_stats E ks));; set_ptrs (fun l => l ++ [Some s]);;; ret (QObj (Some s))
  | QShare p => x <- gets (fun st => nth p (q_ptrs st) None);; set_ptrs (fun l => l ++ [x]);;; ret (QObj x)
  | QTake c => x <- shared c;; set_ptrs (fun l => l ++ [x]);;; ret (QObj x)
  | QAttach c p => x <- gets (fun st => nth p (q_ptrs st) None);; r <- plug c x;; ret (QO r)
  | QGive c p =>
      (* bc:1252-1254, sm:72-74 *)
      x <- gets (fun st => nth p (q_ptrs st) None);; set_ptrs (fun l => upd l p None);;;
      r <- plug c x;; ret (QO r)
  | QSteal c d =>
      (* the argument is moved to a temporary mutator (sm:72-74) before _stats is assigned *)
      x <- shared d;; plug d None;;; r <- plug c x;; ret (QO r)
  | QSwap c d => x <- shared c;; y <- shared d;; plug c y;;; r <- plug d x;; ret (QO r)
  | QDrop p => set_ptrs (fun l => upd l p None);;; ret (QO RUnit)
  | QRef h => s <- object h;; set_refs (fun l => l ++ [s]);;; ret (QObj (Some s))
  | QUse h a => r <- use h a;; ret (QO r)
  | QCopy h =>
      s <- object h;; x <- in_world (get_stats s);; s' <- in_world (alloc_stats x);;
      set_ptrs (fun l => l ++ [Some s']);;; ret (QObj (Some s'))
  | QMove h =>
      s <- object h;; x <- in_world (get_stats s);; s' <- in_world (alloc_stats x);;
      in_world (put_stats s (stats_unmonitor_all x));;; set_keys (follow s s');;;
      set_ptrs (fun l => l ++ [Some s']);;; ret (QObj (Some s'))
  | QAssign h g =>
      s <- object h;; i <- object g;; x <- in_world (get_stats i);; in_world (get_stats s);;;
      in_world (put_stats s x);;;
      set_keys (if Nat.eqb s i then fun l => l else forget s (fun _ => true));;; ret (QO RUnit)
  | QKeyRef h k =>
      (* st:152-164 *)
      s <- object h;; x <- in_world (get_stats s);;
      match stats_for E x k with
      | None => throw UnmonitoredKey
      | Some _ => set_keys (fun l => l ++ [Some (s, k)]);;; ret (QO RUnit)
      end
  | QKeyRead j =>
      y <- gets (fun st => nth j (q_keys st) None);;
      match y with
      | None => undef DanglingReference
      | Some (s, k) =>
          living s;;; x <- in_world (get_stats s);;
          match stats_for E x k with
          | None => undef DanglingReference
          | Some h => ret (QO (RKeyStats (fst h) (snd h) (accesses_of h)))
          end
      end
  end.
Definition q_step (q : qop) : QM qout := fun st =>
  if q_formed st q then q_body q st else Val QIll st.

(** Programs; the client catches every exception. *)
Inductive qend : Type := QRet (x : qout) | QThrew (e : exn).
Fixpoint q_run (l : list qop) (st : qstate) : option (list qend * qstate) :=
  match l with
  | [] => Some ([], st)
  | q :: t =>
      let then_ x st' := option_map (fun y => (x :: fst y, snd y)) (q_run t st') in
      match q_step q st with
      | Val r st' => then_ (QRet r) st'
      | Exc e st' => then_ (QThrew e) st'
      | _ => None
      end
  end.

End StatObj.

Arguments qop : clear implicits.
Arguments qout : clear implicits.
Arguments qend : clear implicits.
Arguments qstate : clear implicits.
Arguments act : clear implicits.
