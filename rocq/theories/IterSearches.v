(** The functions of ordered iterators that search the hash table, written once more with
    the searches counted and able to throw (the hash function or KeyEqual may throw
    during a search, which changes nothing).

    Abbreviations as in Model.v and IterObj.v; each function is its namesake there, which
    has the comments on the rest.  Not counted here: the searches of the calls of the
    cache itself (ICall, IFind, IInsert, IEmplace; see Searches.v) and the comparison
    with the last accessed key in erase. *)
From Coq Require Import List Arith ZArith Bool.
Import ListNotations.
From Verif Require Import Monad Types Model Api IterObj.
Set Implicit Arguments.
Local Open Scope cpp_scope.

Section IterSearches.
Context {K V : Type}.
Variable E : env K V.
(** What the n-th search throws (if anything). *)
Variable search_throws : nat -> option nat.

(** The number of searches so far, and the state of the program. *)
Record jstate : Type := MkJ { j_searches : nat; j_state : istate K V }.
Notation J := (M jstate).

(** A part of the code without searches. *)
Definition unsearched {A} (m : M (istate K V) A) : J A := fun h =>
  match m (j_state h) with
  | Val a st => Val a (MkJ (j_searches h) st)
  | Exc e st => Exc e (MkJ (j_searches h) st)
  | Undef u => Undef u
  | Term e => Term e
  end.
Definition on_world {A} (m : M (world K V) A) : J A := unsearched (lift m).

(** _map.find(key) *)
Definition j_search : J unit := fun h =>
  let h' := MkJ (S (j_searches h)) (j_state h) in
  match search_throws (j_searches h) with Some n => Exc (UserExn n) h' | None => Val tt h' end.
Definition j_map_find (c : nat) (k : K) : J (option miter) := j_search;;; on_world (map_find E c k).

(** bo:304-316 _maybe_lookup, _lookup *)
Definition j_maybe_lookup (it : oiter) : J (mptr * oiter) :=
  match oi_entry it with
  | Some p => ret (p, it)
  | None =>
      match oi_pos it with
      | OEnd _ => undef PastTheEnd
      | OAt q =>
          p <- on_world (list_deref q);;
          n <- on_world (deref p);;
          i <- j_map_find (oi_cache it) (n_key n);;
          match i with
          | None => undef PastTheEnd
          | Some i => ret (fst i, MkO (oi_cache it) (oi_pos it) (Some (fst i)))
          end
      end
  end.

(** bo:272-274 operator*, bi:183-185 operator->, both noexcept *)
Definition j_star (it : oiter) : J (mptr * oiter) := noexcept (j_maybe_lookup it).

(** tc:284-290 has_expired(OrderedConstIterator), noexcept; operator-> of the copy
    searches, then _map.find *)
Definition j_has_expired (c : nat) (d : Z) (it : oiter) : J bool :=
  noexcept
    (if o_eq it (ordered_end c) then ret false
     else
       '(p, _) <- j_star (MkO (oi_cache it) (oi_pos it) None);;
       n <- on_world (deref p);;
       i <- j_map_find c (n_key n);;
       match i with
       | None => undef AssertFailed
       | Some i => n <- on_world (deref_it i);; on_world (has_expired_info E d n)
       end).

(** bc:741-743 and tc:311-315 is_valid, noexcept *)
Definition j_is_valid (c : nat) (it : oiter) : J bool :=
  noexcept
    (x <- on_world (get_cache c);;
     if o_eq it (ordered_end c) then ret false
     else match c_ttl x with
          | None => ret true
          | Some d => b <- j_has_expired c d it;; ret (negb b)
          end).

(** bc:766-770 and tc:331-336 throw_if_invalid *)
Definition j_throw_if_invalid (c : nat) (it : oiter) : J unit :=
  x <- on_world (get_cache c);;
  if o_eq it (ordered_end c) then throw InvalidIterator
  else match c_ttl x with
       | None => ret tt
       | Some d => b <- j_has_expired c d it;;
                   if b then throw KeyExpired else ret tt
       end.

(** bo:291-295 key() *)
Definition j_o_key (it : oiter) : J K :=
  j_throw_if_invalid (oi_cache it) it;;;
  match oi_pos it with
  | OEnd _ => undef PastTheEnd
  | OAt q => p <- on_world (list_deref q);; n <- on_world (deref p);; ret (n_key n)
  end.

(** operator* and operator->; unordered iterators never search (bu:169-175) *)
Definition j_deref (i : nat) (v : ivar) : J mptr :=
  match v with
  | VO it => '(p, it') <- j_star it;; unsearched (put_var i (VO it'));;; ret p
  | _ => unsearched (i_deref E i v)
  end.

(** bo:278-281 entry() *)
Definition j_entry (i : nat) (v : ivar) : J mptr :=
  match v with
  | VO it =>
      j_throw_if_invalid (oi_cache it) it;;;
      '(p, it') <- j_maybe_lookup it;; unsearched (put_var i (VO it'));;; ret p
  | _ => unsearched (i_entry E i v)
  end.
Definition j_key (i : nat) (v : ivar) : J K :=
  match v with
  | VO it => j_o_key it
  | _ => unsearched (i_key E i v)
  end.
Definition j_valid (c : nat) (v : ivar) : J bool :=
  match v with
  | VO it => j_is_valid c it
  | _ => on_world (i_valid E c v)
  end.

(** bc:1133-1139 erase(OrderedConstIterator); bc:1118-1126 does not search *)
Definition j_erase (c : nat) (v : ivar) : J unit :=
  match v with
  | VO it =>
      if o_eq it (ordered_end c) then throw InvalidIterator
      else
        k <- j_o_key it;;
        i <- j_map_find c k;;
        match i with
        | Some i => on_world (erase_it E c i)
        | None => undef PastTheEnd
        end
  | _ => on_world (i_erase E c v)
  end.

Definition j_with_var (i : nat) (f : ivar -> J (iout K V)) : J (iout K V) := fun h =>
  match nth_error (i_vars (j_state h)) i with
  | Some v => f v h
  | None => Val JIll h
  end.
Definition j_with_alive (c : nat) (m : J (iout K V)) : J (iout K V) := fun h =>
  if alive (i_world (j_state h)) c then m h else Val JIll h.

(** The steps of programs covered: all that are about iterators, not about the cache. *)
Definition iterating (s : istep K V) : bool :=
  match s with
  | ICall _ | IFind _ _ | IInsert _ _ _ | IEmplace _ _ _ => false
  | _ => true
  end.
Definition j_exec (s : istep K V) : J (iout K V) :=
  match s with
  | IRead i => j_with_var i (fun v =>
      p <- j_deref i v;; e <- on_world (read_entry p);; ret (JEnt (fst e) (snd e)))
  | IWrite i x => j_with_var i (fun v =>
      p <- j_deref i v;;
      on_world (update_node p (fun n => MkNode (n_key n) x (n_ord n) (n_time n)));;; ret JUnit)
  | IEntry i => j_with_var i (fun v =>
      p <- j_entry i v;; e <- on_world (read_entry p);; ret (JEnt (fst e) (snd e)))
  | IKey i => j_with_var i (fun v => k <- j_key i v;; ret (JKey k))
  | IValue i => j_with_var i (fun v => p <- j_entry i v;; n <- on_world (deref p);; ret (JVal (n_val n)))
  | IErase c i => j_with_alive c (j_with_var i (fun v => j_erase c v;;; ret JUnit))
  | IValid c i => j_with_alive c (j_with_var i (fun v => b <- j_valid c v;; ret (JBool b)))
  | _ => unsearched (iexec E s)
  end.

End IterSearches.
Arguments jstate : clear implicits.
