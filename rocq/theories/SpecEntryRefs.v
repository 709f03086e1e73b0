(** What programs may rely on that hold references to, or copies of, iterators' entries. *)
From Coq Require Import List Arith ZArith Bool.
Import ListNotations.
From Verif Require Import Monad Types Model Api IterObj Spec SpecTimed SpecIter SpecCursor EntryRefs.
Set Implicit Arguments.

Section SpecEntryRefs.
Context {K V : Type}.
Variable E : env K V.
Notation world := (world K V).
Notation cursor := (@cursor K).

(** An element a program got hold of, by the cache it is in and its key; [None]: it may
    be gone. *)
Definition hold : Type := option (nat * K).

(** After call [o] with outcome [oc], which led to world [w]: the element is still there
    if the cache that has the contents now has an element with the key, unless a range of
    elements put there at once contained the key. *)
Definition held_after (o : op K V) (oc : outcome K V) (w : world) (h : hold) : hold :=
  match h with
  | None => None
  | Some (c, k) =>
      if present E k (follow o oc c) w && negb (has E k (range_into c o)) then Some (follow o oc c, k) else None
  end.

(** What becomes of holds by a step on iterators and caches. *)
Definition carried (s : istep K V) (w : world) (cs : list cursor) (w' : world) (f : hold -> hold) : Prop :=
  let by_call o := exists oc, call E o w oc w' /\ f = held_after o oc w' in
  match s with
  | ICall o => by_call o
  | IFind c k => by_call (Find c k)
  | IInsert c k v => by_call (Insert c k v)
  | IEmplace c k v => by_call (Emplace c k v)
  | IErase c i => exists cu l, nth_error cs i = Some cu /\ sequence E (cu_ord cu) c w l /\
      let n := position E (cu_mark cu) l in
      by_call (if cu_ord cu then EraseOrdered c n else EraseUnordered c n)
  | _ => f = fun h => h
  end.

(** The iterator variable that keeps the entry object which [i] kept: moving and swapping
    iterators (of one type) takes it along; ++, --, assigning to [i] and a conversion by
    move to a const iterator destroy it.  [n]: the number of iterator variables. *)
Definition keeper (s : istep K V) (cs : list cursor) (r : @ires K V) (h : option nat) : option nat :=
  let n := length cs in
  let ordered j := match nth_error cs j with Some cu => cu_ord cu | None => false end in
  match h with
  | None => None
  | Some i =>
      match s with
      | INext j | IPrev j | IPostNext j | IPostPrev j | IConstMove j => if Nat.eqb i j then None else Some i
      | IMove j => if Nat.eqb i j then Some n else Some i
      | IToOrderedMove j =>
          if Nat.eqb i j then match r with IGives _ => Some n | IThrows _ => None end else Some i
      | IAssign a b => if Nat.eqb i a && negb (Nat.eqb a b) then None else Some i
      | IAssignMove a b =>
          if Nat.eqb a b then Some i
          else if Nat.eqb i a then None
          else if Nat.eqb i b && ordered b then Some a
          else Some i
      | ISwap a b => if Nat.eqb i a then Some b else if Nat.eqb i b then Some a else Some i
      | _ => Some i
      end
  end.

(** What a program knows: its cursors, the iterators whose lifetime is over, for each
    reference to an entry which iterator keeps the entry and the element, and for each
    copy of an entry the element. *)
Record plan : Type := MkP {
  p_cs : list cursor;
  p_ended : list nat;
  p_refs : list (option nat * hold);
  p_copies : list hold
}.

(** What a step gave. *)
Inductive eres : Type := EGives (r : eout K V) | EThrows (e : exn).
Definition edone (s : estep K V) (x : xstate K V) (r : eres) (x' : xstate K V) : Prop :=
  match r with
  | EGives a => e_exec E s x = Val a x'
  | EThrows e => e_exec E s x = Exc e x'
  end.

(** Steps a program may take. *)
Definition eallowed (s : estep K V) (w : world) (p : plan) : Prop :=
  let kept r := exists i h, nth_error (p_refs p) r = Some (Some i, Some h) in
  match s with
  | EDo s => iallowed E s w (p_cs p) /\ forall i, In i (mentions s) -> ~ In i (p_ended p)
  | EEnd i => i < length (p_cs p) /\ ~ In i (p_ended p)
  | ERef i => ~ In i (p_ended p) /\ exists cu k, nth_error (p_cs p) i = Some cu /\ cu_mark cu = AtKey k
  | ECopy r | ERead r | EWrite r _ => kept r
  | EReadCopy e | EWriteCopy e _ => exists h, nth_error (p_copies p) e = Some (Some h)
  end.

(** The entry shows the element's key and value. *)
Definition reads (h : nat * K) (w : world) (r : eres) : Prop :=
  exists l k v, contents E (fst h) w l /\ look E (snd h) l = Some (k, v) /\ r = EGives (FEnt k v).

(** What they get. *)
Definition epromise (s : estep K V) (w : world) (p : plan) (r : eres) (w' : world) (p' : plan) : Prop :=
  match s with
  | EDo s => exists r0 cs' f, ipromise E s w (p_cs p) r0 w' cs' /\ carried s w (p_cs p) w' f /\
      r = match r0 with IGives a => EGives (FStep a) | IThrows e => EThrows e end /\
      p' = MkP cs' (p_ended p) (map (fun q => (keeper s (p_cs p) r0 (fst q), f (snd q))) (p_refs p)) (map f (p_copies p))
  | EEnd i => w' = w /\ r = EGives FUnit /\ exists cu, nth_error (p_cs p) i = Some cu /\
      p' = MkP (set_nth i (moved cu (@Stray K)) (p_cs p)) (i :: p_ended p)
        (map (fun q => (match fst q with Some j => if Nat.eqb i j then None else Some j | None => None end, snd q)) (p_refs p))
        (p_copies p)
  | ERef i => w' = w /\ r = EGives (FNew (length (p_refs p))) /\ exists cu k, nth_error (p_cs p) i = Some cu /\
      cu_mark cu = AtKey k /\
      p' = MkP (p_cs p) (p_ended p) (p_refs p ++ [(Some i, Some (cu_cache cu, k))]) (p_copies p)
  | ECopy n => w' = w /\ r = EGives (FNew (length (p_copies p))) /\ exists i h, nth_error (p_refs p) n = Some (i, h) /\
      p' = MkP (p_cs p) (p_ended p) (p_refs p) (p_copies p ++ [h])
  | ERead n => w' = w /\ p' = p /\ exists i h, nth_error (p_refs p) n = Some (i, Some h) /\ reads h w r
  | EWrite n v => p' = p /\ r = EGives FUnit /\ exists i c k, nth_error (p_refs p) n = Some (i, Some (c, k)) /\
      overwritten E c k v w w'
  | EReadCopy n => w' = w /\ p' = p /\ exists h, nth_error (p_copies p) n = Some (Some h) /\ reads h w r
  | EWriteCopy n v => p' = p /\ r = EGives FUnit /\ exists c k, nth_error (p_copies p) n = Some (Some (c, k)) /\
      overwritten E c k v w w'
  end.

(** A program from the start, with what it knows. *)
Definition no_plan : plan := MkP [] [] [] [].
Inductive eplays : xstate K V -> plan -> Prop :=
| eplays_init : eplays init_xstate no_plan
| eplays_step x p s r x' p' : eplays x p -> eallowed s (i_world (x_st x)) p ->
    edone s x r x' -> epromise s (i_world (x_st x)) p r (i_world (x_st x')) p' -> eplays x' p'.

End SpecEntryRefs.
