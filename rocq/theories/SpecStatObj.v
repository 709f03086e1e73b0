(** Vocabulary for the theorems about statistics objects that a client holds (C93). *)
From Coq Require Import List Arith ZArith Bool.
Import ListNotations.
From Verif Require Import Monad Types Model Api Spec SpecStats StatObj.
Set Implicit Arguments.

Section SpecStatObj.
Context {K V : Type}.
Variable E : env K V.

(** What a client can work out from its steps and their outcomes: the object each cache
    monitors with and the events of each object (as in [SpecStats.v]), the object each
    pointer variable (null: [None]) and each reference has, and for each reference to
    the counts of a key the object, the key, and whether they are still there. *)
Record sheet : Type := MkSheet {
  t_led : @ledger K;
  t_ptrs : list (option nat);
  t_refs : list nat;
  t_keys : list (nat * K * bool)
}.
Definition no_sheet : sheet := MkSheet (@blank K) [] [] [].

Definition on_ledger (f : @ledger K -> @ledger K) (T : sheet) : sheet :=
  MkSheet (f (t_led T)) (t_ptrs T) (t_refs T) (t_keys T).
Definition on_ptrs f (T : sheet) : sheet := MkSheet (t_led T) (f (t_ptrs T)) (t_refs T) (t_keys T).
Definition on_keys f (T : sheet) : sheet := MkSheet (t_led T) (t_ptrs T) (t_refs T) (f (t_keys T)).
Definition add_ptr (x : option nat) : sheet -> sheet := on_ptrs (fun l => l ++ [x]).
Definition null_ptr (p : nat) : sheet -> sheet := on_ptrs (fun l => firstn p l ++ [None] ++ skipn (S p) l).
Definition write_book (s : nat) (b : list (@bevent K)) : sheet -> sheet :=
  on_ledger (fun L => MkLedger (attached L) (subs L) (fset (books L) s b)).
Definition outdate (s : nat) (gone : K -> bool) : sheet -> sheet :=
  on_keys (map (fun x => (fst x, snd x && negb (Nat.eqb (fst (fst x)) s && gone (snd (fst x)))))).
Definition take_along (s s' : nat) : sheet -> sheet :=
  on_keys (map (fun x => ((if Nat.eqb (fst (fst x)) s then s' else fst (fst x), snd (fst x)), snd x))).

Definition book (T : sheet) (s : nat) : list (@bevent K) := books (t_led T) s.
Definition ptr (T : sheet) (p : nat) : option nat := nth p (t_ptrs T) None.
Definition monitors (T : sheet) (c : nat) : option nat := attached (t_led T) c.

(** The object a handle names, if any. *)
Definition named (T : sheet) (h : handle) : option nat :=
  match h with
  | HCache c => monitors T c
  | HPtr p => ptr T p
  | HRef r => nth_error (t_refs T) r
  end.

(** The event an action is, and the keys it stops monitoring. *)
Definition event_of (a : act K) : option (@bevent K) :=
  match a with
  | AMonitor k => Some (BMonitor k)
  | AUnmonitor k => Some (BUnmonitor k)
  | AUnmonitorAll => Some (@BUnmonitorAll K)
  | AReset k => Some (BReset k)
  | _ => None
  end.
Definition stops (a : act K) (k : K) : bool :=
  match a with AUnmonitor k' => key_eqop E k k' | AUnmonitorAll => true | _ => false end.

Definition note_step (q : qop K V) (r : qend K V) (T : sheet) : sheet :=
  match q, r with
  | _, QRet QIll => T
  | QCall o, QRet (QO x) => on_ledger (note_call o (Returned x)) T
  | QCall o, QThrew e => on_ledger (note_call o (Threw e)) T
  | QMake ks, QRet (QObj (Some s)) => add_ptr (Some s) (write_book s (rev (map (@BMonitor K) ks)) T)
  | QShare p, QRet _ => add_ptr (ptr T p) T
  | QTake c, QRet _ => add_ptr (monitors T c) T
  | QAttach c p, QRet _ => on_ledger (attach c (ptr T p)) T
  | QGive c p, QRet _ => null_ptr p (on_ledger (attach c (ptr T p)) T)
  | QSteal c d, QRet _ => on_ledger (fun L => attach c (attached L d) (attach d None L)) T
  | QSwap c d, QRet _ => on_ledger (fun L => attach d (attached L c) (attach c (attached L d) L)) T
  | QDrop p, QRet _ => null_ptr p T
  | QRef h, QRet _ =>
      match named T h with
      | Some s => MkSheet (t_led T) (t_ptrs T) (t_refs T ++ [s]) (t_keys T)
      | None => T
      end
  | QUse h a, QRet _ =>
      match named T h, event_of a with
      | Some s, Some e => outdate s (stops a) (write_book s (e :: book T s) T)
      | _, _ => T
      end
  | QCopy h, QRet (QObj (Some s')) =>
      match named T h with
      | Some s => add_ptr (Some s') (write_book s' (book T s) T)
      | None => T
      end
  | QMove h, QRet (QObj (Some s')) =>
      match named T h with
      | Some s => add_ptr (Some s') (take_along s s'
                    (write_book s (@BUnmonitorAll K :: book T s) (write_book s' (book T s) T)))
      | None => T
      end
  | QAssign h g, QRet _ =>
      match named T h, named T g with
      | Some s, Some i => if Nat.eqb s i then T else outdate s (fun _ => true) (write_book s (book T i) T)
      | _, _ => T
      end
  | QKeyRef h k, QRet _ =>
      match named T h with
      | Some s => on_keys (fun l => l ++ [(s, k, true)]) T
      | None => T
      end
  | _, _ => T
  end.
Fixpoint note_steps (l : list (qop K V)) (outs : list (qend K V)) (T : sheet) : sheet :=
  match l, outs with
  | q :: t, r :: rs => note_steps t rs (note_step q r T)
  | _, _ => T
  end.
Definition sheet_of l outs := note_steps l outs no_sheet.

(** Somebody owns the object. *)
Definition has_owner (T : sheet) (w : world K V) (s : nat) : Prop :=
  (exists p, ptr T p = Some s) \/ (exists c, alive w c = true /\ monitors T c = Some s).
(** The object has been in sight of the client. *)
Definition in_sight (T : sheet) (s : nat) : Prop :=
  In (Some s) (t_ptrs T) \/ In s (t_refs T) \/ (exists c, monitors T c = Some s) \/
  (exists k ok, In (s, k, ok) (t_keys T)).

(** The calls on caches of a program. *)
Definition calls_of (l : list (qop K V)) : list (op K V) :=
  flat_map (fun q => match q with QCall o => [o] | _ => [] end) l.

(** After program [l]. *)
Definition q_after (l : list (qop K V)) (T : sheet) (st : qstate K V) : Prop :=
  forallb copy_free (calls_of l) = true /\
  exists outs, q_run E l (@init_qstate K V) = Some (outs, st) /\ T = sheet_of l outs.

End SpecStatObj.
