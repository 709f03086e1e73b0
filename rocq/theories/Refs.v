(** Arguments that are references into a cache, and caches used as ranges.

    Model.v passes keys and values by value.  In C++ they are passed by
    reference, and the reference may be to the key or the value of an element of
    a cache (c.erase(c.front()), c.insert(k, c.lookup(j)), c.insert(it->first, 5)).
    Here the functions of Model.v that take a key or a value are transcribed
    again; they read through the reference wherever the C++ code does.

    The second part are the range functions of base-cache.hpp when the range is
    another cache, walked with its iterators, and the functions that overload
    resolution selects for "Cache e(d)" and "c = d" when d is not const.

    File names are abbreviated as in Model.v. *)
From Coq Require Import List Arith ZArith Bool.
Import ListNotations.
From Verif Require Import Monad Types Model Api.
Set Implicit Arguments.
Local Open Scope cpp_scope.

Section Refs.
Context {K V : Type}.

Notation mnode := (@mnode K V).
Notation store := (@store K V).
Notation cbevent := (@cbevent K V).
Notation world := (@world K V).
Notation env := (@env K V).
Notation M := (M world).

(** A const Key& / const Value&: to an object outside of all caches, or to the key
    (value) of a map node. *)
Inductive karg : Type := KLoc (k : K) | KIn (p : mptr).
Inductive varg : Type := VLoc (v : V) | VIn (p : mptr).

(** Reading through the reference. *)
Definition kget (a : karg) : M K :=
  match a with KLoc k => ret k | KIn p => n <- deref p;; ret (n_key n) end.
Definition vget (b : varg) : M V :=
  match b with VLoc v => ret v | VIn p => n <- deref p;; ret (n_val n) end.

Variable E : env.
(** What the move constructors of Value and of Key leave behind. *)
Variable husk : V -> V.
Variable khusk : K -> K.

(* ------------------------------------------------------------------ *)
(** ** Functions that take references *)
(* ------------------------------------------------------------------ *)

(** la:122-132 *)
Definition last_is_ref (c : nat) (a : karg) : M bool :=
  x <- get_cache c;;
  match c_last x with
  | None => ret false
  | Some p => n <- deref p;; k <- kget a;; ret (key_equal E k (n_key n))
  end.

(** _map.find(key): the standard library reads its argument while nothing
    changes. *)
Definition map_find_ref (c : nat) (a : karg) : M (option miter) :=
  k <- kget a;; map_find E c k.

(** bc:1491-1497, cm:58-61: the reference is handed on to the statistics and to
    each callback. *)
Definition register_hit_ref (c : nat) (a : karg) (p : mptr) : M unit :=
  x <- get_cache c;;
  match c_stats x with
  | Some s => st <- get_stats s;; k <- kget a;; put_stats s (stats_register_hit E k st)
  | None => ret tt
  end;;;
  call_each E hit_cbs c (fun id => k <- kget a;; n <- deref p;; ret (EvHit id k (n_val n)));;;
  call_each E acc_cbs c (fun id => k <- kget a;; ret (EvAccess id k true)).

(** bc:1501-1507, cm:66-69 *)
Definition register_miss_ref (c : nat) (a : karg) : M unit :=
  x <- get_cache c;;
  match c_stats x with
  | Some s => st <- get_stats s;; k <- kget a;; put_stats s (stats_register_miss E k st)
  | None => ret tt
  end;;;
  call_each E miss_cbs c (fun id => k <- kget a;; ret (EvMiss id k));;;
  call_each E acc_cbs c (fun id => k <- kget a;; ret (EvAccess id k false)).

(** ch:155-157, tc:201-203 *)
Definition find_hit_ref (c : nat) (a : karg) (i : miter) : M unit :=
  deref_it i;;;
  register_hit_ref c a (fst i);;;
  n <- deref_it i;;
  move_to_front c (n_ord n);;;
  deref_it i;;;
  set_last c (Some (fst i)).

(** ch:152-177, tc:197-228 *)
Definition find_ref (c : nat) (a : karg) : M uiter :=
  x <- get_cache c;;
  match c_ttl x with
  | None =>
      i <- map_find_ref c a;;
      match i with
      | Some i => find_hit_ref c a i;;; ret (uiter_of c (Some i))
      | None => register_miss_ref c a;;; ret (uiter_of c None)
      end
  | Some d =>
      i <- map_find_ref c a;;
      match i with
      | Some i =>
          n <- deref_it i;;
          ex <- has_expired_info E d n;;
          if ex then register_miss_ref c a;;; ret (unordered_end c)
          else find_hit_ref c a i;;; ret (uiter_of c (Some i))
      | None => register_miss_ref c a;;; ret (unordered_end c)
      end
  end.

(** bc:786-798 *)
Definition contains_ref (c : nat) (a : karg) : M bool :=
  hot <- last_is_ref c a;;
  if hot then
    ok <- last_accessed_is_ok E c;;
    if ok then p <- last_ptr c;; register_hit_ref c a p;;; ret true
    else ret false
  else
    it <- find_ref c a;; ret (negb (u_eq it (unordered_end c))).

(** bc:811-852, 879-886 *)
Definition lookup_ref (c : nat) (a : karg) : M mptr :=
  hot <- last_is_ref c a;;
  if hot then
    p <- value_for_last_accessed E c;;
    register_hit_ref c a p;;;
    ret p
  else
    it <- find_ref c a;;
    if u_eq it (unordered_end c) then throw KeyNotFound
    else u_entry E it.

(** tc:276-279 *)
Definition has_expired_ref (c : nat) (d : Z) (a : karg) : M bool :=
  i <- map_find_ref c a;;
  match i with
  | None => ret false
  | Some i => n <- deref_it i;; has_expired_info E d n
  end.

(** bc:1407-1413 *)
Definition move_to_front_ref (c : nat) (i : miter) (b : varg) : M unit :=
  n <- deref_it i;;
  move_to_front c (n_ord n);;;
  fallible E;;;
  v <- vget b;;
  update_node (fst i) (fun n => MkNode (n_key n) v (n_ord n) (n_time n)).

(** bc:900-923 *)
Definition insert_ref (c : nat) (a : karg) (b : varg) : M (bool * uiter) :=
  cap <- capacity c;;
  if Nat.eqb cap 0 then ret (false, unordered_end c)
  else
    i <- map_find_ref c a;;
    match i with
    | None =>
        v <- vget b;;                  (* Information(value) *)
        t <- timestamp E c;;
        k <- kget a;;                  (* _map.emplace(key, ...) *)
        '(i, fresh) <- map_emplace E c (MkNode k v None t);;
        (if fresh then ret tt else undef AssertFailed);;;
        q <- insert_new_key E c (fst i);;
        set_node_order (fst i) q;;;
        deref_it i;;;
        set_last c (Some (fst i));;;
        ret (true, uiter_of c (Some i))
    | Some i =>
        move_to_front_ref c i b;;;
        deref_it i;;;
        set_last c (Some (fst i));;;
        ret (false, uiter_of c (Some i))
    end.

(** Value(argument): a copy, or a move out of the object ([rv]: the argument is an
    rvalue).  Only values inside caches are followed further. *)
Definition take (rv : bool) (b : varg) : M V :=
  v <- vget b;;
  match b with
  | VIn p => if rv then update_node p (fun n => MkNode (n_key n) (husk (n_val n)) (n_ord n) (n_time n))
             else ret tt
  | VLoc _ => ret tt
  end;;;
  ret v.

(** bc:1042-1087.  The key is built first (copied: the keys in a cache are const),
    the value when it is needed. *)
Definition emplace_ref (rv : bool) (c : nat) (a : karg) (b : varg) : M (bool * uiter) :=
  cap <- capacity c;;
  if Nat.eqb cap 0 then ret (false, unordered_end c)
  else
    fallible E;;;
    k <- kget a;;
    i <- map_find E c k;;
    match i with
    | None =>
        v <- take rv b;;
        t <- timestamp E c;;
        '(i, fresh) <- map_emplace E c (MkNode k v None t);;
        q <- insert_new_key E c (fst i);;
        set_node_order (fst i) q;;;
        (if fresh then ret tt else undef AssertFailed);;;
        deref_it i;;;
        set_last c (Some (fst i));;;
        ret (true, uiter_of c (Some i))
    | Some i =>
        fallible E;;;
        v <- take rv b;;
        move_to_front_value E c i v;;;
        deref_it i;;;
        set_last c (Some (fst i));;;
        ret (false, uiter_of c (Some i))
    end.

(** bc:1097-1112 *)
Definition erase_ref (c : nat) (a : karg) : M bool :=
  hot <- last_is_ref c a;;
  if hot then p <- last_ptr c;; erase_key_info E c p;;; ret true
  else
    i <- map_find_ref c a;;
    match i with
    | Some i => erase_it E c i;;; ret true
    | None => ret false
    end.

(* ------------------------------------------------------------------ *)
(** ** Caches as ranges *)
(* ------------------------------------------------------------------ *)

(** The iterators of cache [d]: ordered or not. *)
Inductive iter : Type := IU (it : uiter) | IO (it : oiter).
Definition iter_begin (o : bool) (d : nat) : M iter :=
  if o then it <- ordered_begin d;; ret (IO it) else it <- unordered_begin d;; ret (IU it).
Definition iter_end (o : bool) (d : nat) : iter :=
  if o then IO (ordered_end d) else IU (unordered_end d).
Definition iter_eq (i j : iter) : bool :=
  match i, j with
  | IU a, IU b => u_eq a b
  | IO a, IO b => o_eq a b
  | _, _ => false
  end.
Definition iter_next (i : iter) : M iter :=
  match i with
  | IU a => a' <- u_next a;; ret (IU a')
  | IO a => a' <- o_next a;; ret (IO a')
  end.
(** bi:182-184 operator->: the entry, two references to a node; the iterator
    remembers it. *)
Definition iter_deref (i : iter) : M (mptr * iter) :=
  match i with
  | IU a => '(p, a') <- u_deref a;; ret (p, IU a')
  | IO a => '(p, a') <- o_deref E a;; ret (p, IO a')
  end.

(** std::distance(begin, end) *)
Fixpoint distance_loop (fuel : nat) (i e : iter) (n : nat) : M nat :=
  if iter_eq i e then ret n
  else match fuel with
       | O => undef FuelExhausted
       | S fuel => i' <- iter_next i;; distance_loop fuel i' e (S n)
       end.
Definition distance (o : bool) (d : nat) : M nat :=
  n <- size d;; b <- iter_begin o d;; distance_loop n b (iter_end o d) 0.

(** bc:938-946 insert(begin, end), with begin->first and begin->second.  The fuel
    is the size of [d]; running out of it would be a loop that does not end. *)
Fixpoint fill_loop (fuel : nat) (c : nat) (i e : iter) (cnt : nat) : M nat :=
  if iter_eq i e then ret cnt
  else match fuel with
       | O => undef FuelExhausted
       | S fuel =>
           '(p, i') <- iter_deref i;;
           r <- insert_ref c (KIn p) (VIn p);;
           i'' <- iter_next i';;
           fill_loop fuel c i'' e (if fst r then S cnt else cnt)
       end.
Definition fill (o : bool) (c d : nat) : M nat :=
  n <- size d;; b <- iter_begin o d;; fill_loop n c b (iter_end o d) 0.

(** bc:979-989 insert(Range&&): for (auto& pair : range) emplace(move(pair.first),
    move(pair.second)).  pair.second is a Value& into the cache [d]. *)
Fixpoint fill_move_loop (fuel : nat) (c : nat) (i e : iter) (cnt : nat) : M nat :=
  if iter_eq i e then ret cnt
  else match fuel with
       | O => undef FuelExhausted
       | S fuel =>
           '(p, i') <- iter_deref i;;
           r <- emplace_ref true c (KIn p) (VIn p);;
           i'' <- iter_next i';;
           fill_move_loop fuel c i'' e (if fst r then S cnt else cnt)
       end.
Definition fill_move (c d : nat) : M nat :=
  n <- size d;; b <- iter_begin false d;; fill_move_loop n c b (iter_end false d) 0.

(** bc:362-369, 403-409: Cache(capacity, begin, end) and Cache(capacity, range) *)
Definition new_filled (o : bool) (cap : nat) (ttl : option Z) (d : nat) : M nat :=
  with_new cap ttl (fun c => fill o c d).
(** bc:436-442: Cache(capacity, std::move(range)) *)
Definition new_filled_move (cap : nat) (ttl : option Z) (d : nat) : M nat :=
  with_new cap ttl (fun c => fill_move c d).
(** bc:383-394, 421-425: Cache(begin, end) and Cache(range).  This is what "Cache e(d)"
    runs when d is an LRU::Cache that is not const: the constructor template of
    ch:127-132 (a forwarding reference, it binds a Cache&) is a better match than
    the implicit copy constructor (which binds a const Cache&).  "Cache e = d"
    does not consider it, because it is explicit; TimedCache has no such
    constructor. *)
Definition new_direct (o : bool) (ttl : option Z) (d : nat) : M nat :=
  n <- distance o d;; new_filled o (Nat.max n DEFAULT_CAPACITY) ttl d.

(** bc:1513-1523 *)
Definition clear_and_grow (c d : nat) : M unit :=
  clear c;;;
  n <- distance false d;;
  x <- get_cache c;;
  if Nat.ltb (c_cap x) n then
    put_cache c (MkCache (c_rid x) (c_last x) n (c_stats x) (c_cbs x) (c_ttl x))
  else ret tt.

(** bc:541-545 operator=(const Range&): "c = d" for a const cache d of another type *)
Definition assign_const (c d : nat) : M unit :=
  clear_and_grow c d;;; fill false c d;;; ret tt.
(** bc:554-558 operator=(Range&&).  This is what "c = d" runs when d is a cache
    (of any type) that is not const: the template (visible in Cache and
    TimedCache, bc:63) binds a Cache&, which is a better match than the const
    Cache& of the copy assignment operator.  The range is then treated as an
    rvalue. *)
Definition assign_lvalue (c d : nat) : M unit :=
  clear_and_grow c d;;; fill_move c d;;; ret tt.

(** bc:979-989 insert(Range&&) for a range outside of the caches, with what is
    left of the range.  The key is moved out of a pair before the look up, and
    the value by either branch of bc:1048-1064; with capacity 0 neither is
    reached.  (What is left when an exception ends the loop is not modelled.) *)
Definition insert_vec (c : nat) (l : list (K * V)) : M (nat * list (K * V)) :=
  foldM (fun acc p =>
    cap <- capacity c;;
    r <- emplace E c (fst p) (snd p);;
    ret (if fst r then S (fst acc) else fst acc,
         snd acc ++ [if Nat.eqb cap 0 then p else (khusk (fst p), husk (snd p))])) l (0, []).
(** bc:554-558: "c = vec" for a range vec that is not const (see [assign_lvalue]),
    and "c = std::move(vec)" *)
Definition assign_vec (c : nat) (l : list (K * V)) : M (list (K * V)) :=
  clear_and_increase_capacity c (length l);;; r <- insert_vec c l;; ret (snd r).

(** std::swap(c, d): what "swap(c, d)" runs for two LRU::Cache objects, a better match
    than the friend of bc:584-586, which takes the base class.  (TimedCache has
    its own friend, tc:192-194.)  A temporary is move constructed, then two move
    assignments. *)
Definition std_swap (c d : nat) : M unit :=
  t <- move_new E c;;
  move_assign c d;;;
  move_assign d t;;;
  destroy t.

(* ------------------------------------------------------------------ *)
(** ** Calls *)
(* ------------------------------------------------------------------ *)

Inductive rcall : Type :=
| PInsert (c : nat) (a : karg) (b : varg)
| PEmplace (c : nat) (a : karg) (b : varg)   (* lvalue arguments *)
| PFind (c : nat) (a : karg)
| PFindEntry (c : nat) (a : karg)
| PContains (c : nat) (a : karg)
| PLookup (c : nat) (a : karg)
| PWrite (c : nat) (a : karg) (b : varg)     (* c[key] = value *)
| PErase (c : nat) (a : karg)
| PEraseFound (c : nat) (a : karg)           (* c.erase(c.find(key)) *)
| PHasExpired (c : nat) (a : karg)
| PStatsFor (c : nat) (a : karg)
| PStatsMonitor (c : nat) (a : karg)
| PStatsUnmonitor (c : nat) (a : karg)
| PStatsResetKey (c : nat) (a : karg)
| PStatsIsMonitoring (c : nat) (a : karg)
(* ranges; [o]: the range are the ordered iterators *)
| PFill (o : bool) (c d : nat)               (* c.insert(d.begin(), d.end()) *)
| PFillMove (c d : nat)                      (* c.insert(std::move(d)) *)
| PNewFilled (o : bool) (cap : nat) (ttl : option Z) (d : nat)
| PNewFilledMove (cap : nat) (ttl : option Z) (d : nat)
| PNewDirect (o : bool) (ttl : option Z) (d : nat)  (* Cache e(d.begin(), d.end()) *)
| PCopyDirect (d : nat)                      (* Cache e(d), d not const *)
| PAssignConst (c d : nat)                   (* c = d, d const, of another type *)
| PAssign (c d : nat)                        (* c = d, d not const *)
| PInsertVec (c : nat) (l : list (K * V))    (* c.insert(std::move(vec)); vec *)
| PAssignVec (c : nat) (l : list (K * V))    (* c = vec, vec not const; vec *)
| PSwap (c d : nat).                         (* swap(c, d), both LRU::Cache *)

Definition rwell_formed (w : world) (r : rcall) : bool :=
  match r with
  | PInsert c _ _ | PEmplace c _ _ | PFind c _ | PFindEntry c _ | PContains c _
  | PLookup c _ | PWrite c _ _ | PErase c _ | PEraseFound c _ | PStatsFor c _
  | PStatsMonitor c _ | PStatsUnmonitor c _ | PStatsResetKey c _
  | PStatsIsMonitoring c _ | PInsertVec c _ | PAssignVec c _ => alive w c
  | PHasExpired c _ => timed w c
  | PFill _ c d | PFillMove c d | PAssign c d => alive w c && alive w d
  | PNewFilled _ _ _ d | PNewFilledMove _ _ d | PNewDirect _ _ d => alive w d
  | PCopyDirect d => alive w d && negb (timed w d)
  | PAssignConst c d => alive w c && alive w d && xorb (timed w c) (timed w d)
  | PSwap c d => alive w c && alive w d && negb (timed w c) && negb (timed w d)
  end.

Definition rbody (r : rcall) : M (out K V) :=
  match r with
  | PInsert c a b => r <- insert_ref c a b;; e <- denotes c (snd r);; ret (RIns (fst r) e)
  | PEmplace c a b => r <- emplace_ref false c a b;; e <- denotes c (snd r);; ret (RIns (fst r) e)
  | PFind c a => it <- find_ref c a;; e <- denotes c it;; ret (ROpt e)
  | PFindEntry c a => it <- find_ref c a;; p <- u_entry E it;; e <- read_entry p;; ret (ROpt (Some e))
  | PContains c a => b <- contains_ref c a;; ret (RBool b)
  | PLookup c a => p <- lookup_ref c a;; n <- deref p;; ret (RVal (n_val n))
  | PWrite c a b =>
      p <- lookup_ref c a;; v <- vget b;;
      update_node p (fun n => MkNode (n_key n) v (n_ord n) (n_time n));;; ret RUnit
  | PErase c a => b <- erase_ref c a;; ret (RBool b)
  | PEraseFound c a => it <- find_ref c a;; erase_u E c it;;; ret RUnit
  | PHasExpired c a => with_ttl c (fun d => b <- has_expired_ref c d a;; ret (RBool b))
  (* st:152-164, 172-175, 182-189, 199-206, 218-220: read once *)
  | PStatsFor c a => s <- stats c;; x <- get_stats s;; k <- kget a;;
      match stats_for E x k with
      | Some h => ret (RKeyStats (fst h) (snd h) (accesses_of h))
      | None => throw UnmonitoredKey
      end
  | PStatsMonitor c a => stats c;;; k <- kget a;; stats_update_or c (fun x => Some (stats_monitor E k x))
  | PStatsUnmonitor c a => stats c;;; k <- kget a;; stats_update_or c (stats_unmonitor E k)
  | PStatsResetKey c a => stats c;;; k <- kget a;; stats_update_or c (stats_reset_key E k)
  | PStatsIsMonitoring c a => s <- stats c;; x <- get_stats s;; k <- kget a;;
                              ret (RBool (stats_is_monitoring E x k))
  | PFill o c d => n <- fill o c d;; ret (RNat n)
  | PFillMove c d => n <- fill_move c d;; ret (RNat n)
  | PNewFilled o cap ttl d => c <- new_filled o cap ttl d;; ret (RNat c)
  | PNewFilledMove cap ttl d => c <- new_filled_move cap ttl d;; ret (RNat c)
  | PNewDirect o ttl d => c <- new_direct o ttl d;; ret (RNat c)
  | PCopyDirect d => c <- new_direct false None d;; ret (RNat c)
  | PAssignConst c d => assign_const c d;;; ret RUnit
  | PAssign c d => assign_lvalue c d;;; ret RUnit
  | PInsertVec c l => r <- insert_vec c l;; ret (REnts (snd r))
  | PAssignVec c l => r <- assign_vec c l;; ret (REnts r)
  | PSwap c d => std_swap c d;;; ret RUnit
  end.

Definition rexec (r : rcall) : M (out K V) := fun w =>
  if rwell_formed w r then rbody r w else Val RIll w.

End Refs.

Arguments karg : clear implicits.
Arguments varg : clear implicits.
Arguments rcall : clear implicits.
