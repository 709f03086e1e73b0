(** Specification vocabulary: the callbacks a client has registered, by its own record. *)
From Coq Require Import List Arith ZArith Bool.
Import ListNotations.
From Verif Require Import Monad Types Model Api Spec CbRefs.
Set Implicit Arguments.

Section SpecCbRefs.
Context {K V : Type}.
Variable E : env K V.

(** For each cache and container what was registered; nothing for a cache that is not there. *)
Definition sheet : Type := nat -> option (kind -> list nat).
Definition enter (c : nat) (x : option (kind -> list nat)) (t : sheet) : sheet := fun e => if Nat.eqb e c then x else t e.
Definition nothing : option (kind -> list nat) := Some (fun _ => []).
Definition same_kindb (p q : kind) : bool :=
  match p, q with OnHit, OnHit | OnMiss, OnMiss | OnAccess, OnAccess => true | _, _ => false end.
Definition change (c : nat) (q : kind) (f : list nat -> list nat) (t : sheet) : sheet :=
  enter c (option_map (fun g p => if same_kindb p q then f (g p) else g p) (t c)) t.

(** What a call that returned [r] means for the record.  A moved-to cache has no callbacks; a copy has those of
    the original; swap and move assignment leave each cache its own. *)
Definition note (o : op K V) (r : out K V) (t : sheet) : sheet :=
  match o, r with
  | New _ _, RNat c | NewFrom _ _ _, RNat c | NewIters _ _, RNat c | NewMove _ _ _, RNat c | NewRvalue _ _, RNat c
  | NewList _ _, RNat c | Move _, RNat c => enter c nothing t
  | Copy d, RNat c => enter c (t d) t
  | CopyAssign c d, RUnit => enter c (t d) t
  | Destroy c, RUnit => enter c None t
  | AddHit c i, RUnit => change c OnHit (fun l => l ++ [i]) t
  | AddMiss c i, RUnit => change c OnMiss (fun l => l ++ [i]) t
  | AddAccess c i, RUnit => change c OnAccess (fun l => l ++ [i]) t
  | ClearHit c, RUnit => change c OnHit (fun _ => []) t
  | ClearMiss c, RUnit => change c OnMiss (fun _ => []) t
  | ClearAccess c, RUnit => change c OnAccess (fun _ => []) t
  | ClearCallbacks c, RUnit => enter c nothing t
  | _, _ => t
  end.
(** The record, and which container of which cache each reference was bound to. *)
Record notes : Type := MkNotes { regs : sheet; refs : nat -> option (kind * nat) }.
Definition no_notes : notes := MkNotes (fun _ => None) (fun _ => None).
Definition note_step (p : kop K V) (r : kout K V) (t : notes) : notes :=
  match p, r with
  | KCall o, KO x => MkNotes (note o x (regs t)) (refs t)
  | KBind i q c, KO RUnit => MkNotes (regs t) (fun x => if Nat.eqb x i then Some (q, c) else refs t x)
  | _, _ => t
  end.

(** States reached by a program, with the record kept meanwhile; steps may throw. *)
Inductive k_after : kstate K V -> notes -> Prop :=
| k_start : k_after (@init_kstate K V) no_notes
| k_returned st t p r st' : k_after st t -> kexec E p st = Val r st' -> k_after st' (note_step p r t)
| k_threw st t p e st' : k_after st t -> kexec E p st = Exc e st' -> k_after st' t.

(** Functions were called, with these arguments in this order, and nothing else happened. *)
Definition only_called (evs : list (cbevent K V)) (w w' : world K V) : Prop :=
  w' = with_log (fun l => l ++ evs) w.
(** The callbacks in the order of registration, and what they are called with. *)
Definition calls_of (q : kind) (k : K) (v : V) (b : bool) (l : list nat) : list (cbevent K V) :=
  map (fun id => match q with OnHit => EvHit id k v | OnMiss => EvMiss id k | OnAccess => EvAccess id k b end) l.
(** The callbacks of one kind. *)
Definition those (q : kind) (b : callbacks) : list nat :=
  match q with OnHit => hit_cbs b | OnMiss => miss_cbs b | OnAccess => acc_cbs b end.

End SpecCbRefs.
