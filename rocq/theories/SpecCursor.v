(** What programs with iterator variables may rely on: an iterator is a cursor, a cache
    together with the key of an element or the end. *)
From Coq Require Import List Arith ZArith Bool.
Import ListNotations.
From Verif Require Import Monad Types Model Api IterObj Spec SpecTimed SpecIter.
Set Implicit Arguments.

Section SpecCursor.
Context {K V : Type}.
Variable E : env K V.
Notation world := (world K V).

(** Where a cursor stands: at the element with a key, at the end, or nowhere one may
    rely on. *)
Inductive mark : Type := AtKey (k : K) | AtEnd | Stray.
Record cursor : Type := MkCur { cu_ord : bool; cu_cache : nat; cu_mark : mark }.
Definition moved (cu : cursor) (m : mark) : cursor := MkCur (cu_ord cu) (cu_cache cu) m.
Definition stays (cu : cursor) : Prop := cu_mark cu <> Stray.

(** The elements in the order of the iteration. *)
Definition sequence (ord : bool) (c : nat) (w : world) (l : list (K * V)) : Prop :=
  if ord then contents E c w l else hash_order E c w l.

Definition first_mark (l : list (K * V)) : mark :=
  match l with [] => AtEnd | p :: _ => AtKey (fst p) end.
Fixpoint next_mark (k : K) (l : list (K * V)) : mark :=
  match l with
  | [] => Stray
  | p :: t => if key_equal E k (fst p) then first_mark t else next_mark k t
  end.
(** The mark before [m]; there is none before the first element. *)
Definition prev_mark (m : mark) (l : list (K * V)) : mark :=
  match match m with AtKey k => next_mark k (rev l) | AtEnd => first_mark (rev l) | Stray => Stray end with
  | AtKey k => AtKey k
  | _ => Stray
  end.

(** The position of [m]. *)
Fixpoint index (k : K) (l : list (K * V)) : nat :=
  match l with
  | [] => 0
  | p :: t => if key_equal E k (fst p) then 0 else S (index k t)
  end.
Definition position (m : mark) (l : list (K * V)) : nat :=
  match m with AtKey k => index k l | _ => length l end.

(** Two cursors of one cache stand at the same place. *)
Definition same_mark (a b : mark) : bool :=
  match a, b with
  | AtKey k, AtKey j => key_equal E k j
  | AtEnd, AtEnd => true
  | _, _ => false
  end.

(** Calls after which end() may be another one: the standard says so of
    std::unordered_map if elements are inserted, or by clear(). *)
Definition new_end (c : nat) (o : op K V) : bool :=
  match o with
  | Insert d _ _ | Emplace d _ _ | InsertRange d _ | InsertMove d _ | AssignRange d _ | AssignMove d _
  | Clear d | Shrink d _ | SetCapacity d _ => Nat.eqb c d
  | _ => false
  end.

(** An element with this key is in the cache. *)
Definition present (k : K) (c : nat) (w : world) : bool :=
  match exec E (Ordered c) w with Val (REnts l) _ => has E k l | _ => false end.

(** A cursor after call [o] with outcome [oc], which led to world [w].  It stays where it
    is if the contents of its cache were not given to another cache and
    - the element is still there, it was not in a range of elements put there at once
      and, for an unordered iterator, no other element was inserted;
    - or it is at the end of a cache that still exists and, for an unordered iterator,
      the end is still the same. *)
Definition after_call (o : op K V) (oc : outcome K V) (w : world) (cu : cursor) : cursor :=
  let c := cu_cache cu in
  moved cu
    (if negb (Nat.eqb (follow o oc c) c) then Stray
     else match cu_mark cu with
          | AtKey k =>
              if present k c w && negb (has E k (range_into c o)) && (cu_ord cu || negb (grows E c k o))
              then AtKey k else Stray
          | AtEnd => if alive w c && (cu_ord cu || negb (new_end c o)) then AtEnd else Stray
          | Stray => Stray
          end).

(** The value of the element with key [k] of cache [c] became [v]; nothing else changed. *)
Definition rewrites (k : K) (v : V) (l : list (K * V)) : list (K * V) :=
  map (fun p => if key_equal E k (fst p) then (fst p, v) else p) l.
Record overwritten (c : nat) (k : K) (v : V) (w w' : world) : Prop := {
  ow_contents : forall ord d l, sequence ord d w l ->
    sequence ord d w' (if Nat.eqb d c then rewrites k v l else l);
  ow_expired : forall d j r w1, exec E (HasExpired d j) w = Val r w1 ->
    exists w1', exec E (HasExpired d j) w' = Val r w1';
  ow_capacity : forall d n, capacity_is E d w n -> capacity_is E d w' n;
  ow_stats : w_stats w' = w_stats w;
  ow_log : w_log w' = w_log w;
  ow_reads : w_reads w' = w_reads w
}.

(** What a step gave. *)
Inductive ires : Type := IGives (r : iout K V) | IThrows (e : exn).
Definition idone (s : istep K V) (st : istate K V) (r : ires) (st' : istate K V) : Prop :=
  match r with
  | IGives x => iexec E s st = Val x st'
  | IThrows e => iexec E s st = Exc e st'
  end.

(** Steps a program may take, given its cursors. *)
Definition iallowed (s : istep K V) (w : world) (cs : list cursor) : Prop :=
  let the i (P : cursor -> Prop) := exists cu, nth_error cs i = Some cu /\ P cu in
  let both i j (P : cursor -> cursor -> Prop) :=
    exists cu cv, nth_error cs i = Some cu /\ nth_error cs j = Some cv /\ P cu cv in
  match s with
  | ICall o => copy_free o = true /\ exists oc w', call E o w oc w'
  | IBegin _ c | IEnd _ c | IFind c _ | IInsert c _ _ | IEmplace c _ _ => alive w c = true
  | INull _ => True
  | ICopy i | IMove i | IConst i | IConstMove i => the i (fun _ => True)
  | IToOrdered i | IToOrderedMove i => the i (fun cu => cu_ord cu = false /\ stays cu)
  | IAssign i j | IAssignMove i j | ISwap i j => both i j (fun cu cv => cu_ord cu = cu_ord cv)
  | INext i | IPostNext i | IRead i | IWrite i _ => the i (fun cu => exists k, cu_mark cu = AtKey k)
  | IPrev i | IPostPrev i => the i (fun cu => cu_ord cu = true /\
      exists l, contents E (cu_cache cu) w l /\ prev_mark (cu_mark cu) l <> Stray)
  | IEntry i | IKey i | IValue i => the i (fun cu => stays cu /\
      (cu_ord cu = false -> cu_mark cu = AtEnd -> lenient_end E = true))
  | ISame i j => both i j (fun cu cv => cu_cache cu = cu_cache cv /\ stays cu /\ stays cv)
  | IErase c i | IValid c i => the i (fun cu => cu_cache cu = c /\ stays cu)
  end.

(** What they get. *)
Definition new_cursor (cs : list cursor) (b : bool) (c : nat) (m : mark) : list cursor :=
  cs ++ [MkCur b c m].
Definition found (e : option (K * V)) : mark := match e with Some p => AtKey (fst p) | None => AtEnd end.

Definition ipromise (s : istep K V) (w : world) (cs : list cursor)
    (r : ires) (w' : world) (cs' : list cursor) : Prop :=
  let the i (P : cursor -> Prop) := exists cu, nth_error cs i = Some cu /\ P cu in
  let both i j (P : cursor -> cursor -> Prop) :=
    exists cu cv, nth_error cs i = Some cu /\ nth_error cs j = Some cv /\ P cu cv in
  let new := IGives (JNew (length cs)) in
  match s with
  | ICall o => exists oc, call E o w oc w' /\ cs' = map (after_call o oc w') cs /\
      r = match oc with Returned x => IGives (JCall x) | Threw e => IThrows e end
  | IBegin b c => w' = w /\ r = new /\
      exists l, sequence b c w l /\ cs' = new_cursor cs b c (first_mark l)
  | IEnd b c => w' = w /\ r = new /\ cs' = new_cursor cs b c AtEnd
  (* the call, and a cursor at the element it is about *)
  | IFind c k => let o := Find c k in exists oc, call E o w oc w' /\
      let cs0 := map (after_call o oc w') cs in
      match oc with
      | Returned (ROpt e) => r = new /\ cs' = new_cursor cs0 false c (found e)
      | Threw x => r = IThrows x /\ cs' = cs0
      | _ => False
      end
  | IInsert c k v => let o := Insert c k v in exists oc, call E o w oc w' /\
      let cs0 := map (after_call o oc w') cs in
      match oc with
      | Returned (RIns b e) =>
          r = IGives (JIns b (length cs)) /\ cs' = new_cursor cs0 false c (found e)
      | Threw x => r = IThrows x /\ cs' = cs0
      | _ => False
      end
  | IEmplace c k v => let o := Emplace c k v in exists oc, call E o w oc w' /\
      let cs0 := map (after_call o oc w') cs in
      match oc with
      | Returned (RIns b e) =>
          r = IGives (JIns b (length cs)) /\ cs' = new_cursor cs0 false c (found e)
      | Threw x => r = IThrows x /\ cs' = cs0
      | _ => False
      end
  | INull b => w' = w /\ r = new /\ cs' = new_cursor cs b 0 Stray
  (* a copy; the original stays what it is, even if it was moved from *)
  | ICopy i | IMove i | IConst i | IConstMove i => w' = w /\ r = new /\ the i (fun cu => cs' = cs ++ [cu])
  | IToOrdered i | IToOrderedMove i => w' = w /\ the i (fun cu =>
      match cu_mark cu with
      | AtKey k => r = new /\ cs' = new_cursor cs true (cu_cache cu) (AtKey k)
      | _ => r = IThrows InvalidIteratorConversion /\ cs' = cs
      end)
  | IAssign i j | IAssignMove i j => w' = w /\ r = IGives JUnit /\ the j (fun cu => cs' = set_nth i cu cs)
  | ISwap i j => w' = w /\ r = IGives JUnit /\
      both i j (fun cu cv => cs' = set_nth j cu (set_nth i cv cs))
  | INext i => w' = w /\ r = IGives JUnit /\ the i (fun cu => exists k l, cu_mark cu = AtKey k /\
      sequence (cu_ord cu) (cu_cache cu) w l /\ cs' = set_nth i (moved cu (next_mark k l)) cs)
  | IPrev i => w' = w /\ r = IGives JUnit /\ the i (fun cu => exists l,
      contents E (cu_cache cu) w l /\ cs' = set_nth i (moved cu (prev_mark (cu_mark cu) l)) cs)
  | IPostNext i => w' = w /\ r = new /\ the i (fun cu => exists k l, cu_mark cu = AtKey k /\
      sequence (cu_ord cu) (cu_cache cu) w l /\ cs' = set_nth i (moved cu (next_mark k l)) cs ++ [cu])
  | IPostPrev i => w' = w /\ r = new /\ the i (fun cu => exists l,
      contents E (cu_cache cu) w l /\ cs' = set_nth i (moved cu (prev_mark (cu_mark cu) l)) cs ++ [cu])
  (* the key and the value of the element *)
  | IRead i => w' = w /\ cs' = cs /\ the i (fun cu => exists k l k' v, cu_mark cu = AtKey k /\
      contents E (cu_cache cu) w l /\ look E k l = Some (k', v) /\ r = IGives (JEnt k' v))
  | IWrite i v => cs' = cs /\ r = IGives JUnit /\
      the i (fun cu => exists k, cu_mark cu = AtKey k /\ overwritten (cu_cache cu) k v w w')
  (* as the call that does the same at the same position of an ordered traversal *)
  | IEntry i => cs' = cs /\ the i (fun cu => exists l oc, contents E (cu_cache cu) w l /\
      call E (EntryAt (cu_cache cu) (position (cu_mark cu) l)) w oc w' /\
      match oc with
      | Returned (ROpt (Some p)) => r = IGives (JEnt (fst p) (snd p))
      | Threw x => r = IThrows x
      | _ => False
      end)
  | IKey i => cs' = cs /\ the i (fun cu => exists l oc, contents E (cu_cache cu) w l /\
      call E (EntryAt (cu_cache cu) (position (cu_mark cu) l)) w oc w' /\
      match oc with
      | Returned (ROpt (Some p)) => r = IGives (JKey (fst p))
      | Threw x => r = IThrows x
      | _ => False
      end)
  | IValue i => cs' = cs /\ the i (fun cu => exists l oc, contents E (cu_cache cu) w l /\
      call E (EntryAt (cu_cache cu) (position (cu_mark cu) l)) w oc w' /\
      match oc with
      | Returned (ROpt (Some p)) => r = IGives (JVal (snd p))
      | Threw x => r = IThrows x
      | _ => False
      end)
  | IValid c i => cs' = cs /\ the i (fun cu => exists l oc, contents E c w l /\
      call E (ValidAt c (position (cu_mark cu) l)) w oc w' /\
      match oc with
      | Returned (RBool b) => r = IGives (JBool b)
      | Threw x => r = IThrows x
      | _ => False
      end)
  | IErase c i => the i (fun cu => exists l oc, sequence (cu_ord cu) c w l /\
      let n := position (cu_mark cu) l in
      let o := if cu_ord cu then EraseOrdered c n else EraseUnordered c n in
      call E o w oc w' /\ cs' = map (after_call o oc w') cs /\
      r = match oc with Returned _ => IGives JUnit | Threw x => IThrows x end)
  | ISame i j => w' = w /\ cs' = cs /\
      both i j (fun cu cv => r = IGives (JBool (same_mark (cu_mark cu) (cu_mark cv))))
  end.

(** A program from the start, with the cursors its iterators stand for. *)
Inductive iplays : istate K V -> list cursor -> Prop :=
| plays_init : iplays init_istate []
| plays_step st cs s r st' cs' : iplays st cs -> iallowed s (i_world st) cs ->
    idone s st r st' -> ipromise s (i_world st) cs r (i_world st') cs' -> iplays st' cs'.

End SpecCursor.
