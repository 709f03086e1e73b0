(** The searches of the calls that Searches.v leaves out: insertion of ranges, constructors
    from ranges, assignment of ranges, copies and comparison of caches, and the calls
    of timed caches.

    Abbreviations as in Model.v, conventions as in Searches.v; each function is its namesake of
    Model.v, which has the comments on the rest.  Comparing two unordered_maps of
    equal size searches one for each element of the other, in order of iteration,
    until one is not found or not equal.  Copying an unordered_map may call the hash function
    once for each element: the standard library may, but need not, keep the hash values.
    Simplification: operator== of keys and values does not throw. *)
From Coq Require Import List Arith ZArith Bool.
Import ListNotations.
From Verif Require Import Monad Types Model Api Searches.
Set Implicit Arguments.
Local Open Scope cpp_scope.

Section MoreSearches.
Context {K V : Type}.
Variable E : env K V.
Variables search_throws compare_throws : nat -> option nat.
(** Whether the nodes of an unordered_map keep their hash values. *)
Variable keeps : bool.
Notation H := (M (hworld K V)).
Notation search := (@search K V search_throws).
Notation h_map_find := (h_map_find E search_throws).
Notation h_insert := (h_insert E search_throws).
Notation h_emplace := (h_emplace E search_throws).
Notation h_erase_it := (h_erase_it E compare_throws).

(** bc:938-968, 1003-1005 insert(begin, end), insert(Range&), insert(list);
    bc:979-989 insert(Range&&) *)
Definition h_insert_range (c : nat) (l : list (K * V)) : H nat :=
  foldM (fun cnt p => r <- h_insert c (fst p) (snd p);;
                      ret (if fst r then S cnt else cnt)) l 0.
Definition h_insert_move (c : nat) (l : list (K * V)) : H nat :=
  foldM (fun cnt p => r <- h_emplace c (fst p) (snd p);;
                      ret (if fst r then S cnt else cnt)) l 0.

(** If the body of a delegating constructor throws, the object is destroyed. *)
Definition h_with_new (cap : nat) (ttl : option Z) (body : nat -> H nat) : H nat :=
  c <- lift (new_cache cap ttl);;
  fun h => match body c h with
           | Exc e h' => (lift (destroy c);;; throw e) h'
           | Val _ h' => Val c h'
           | Undef u => Undef u
           | Term e => Term e
           end.
(** bc:362-369, 403-409, 471-476; bc:436-442 *)
Definition h_new_from (cap : nat) (ttl : option Z) (l : list (K * V)) : H nat :=
  h_with_new cap ttl (fun c => h_insert_range c l).
Definition h_new_from_move (cap : nat) (ttl : option Z) (l : list (K * V)) : H nat :=
  h_with_new cap ttl (fun c => h_insert_move c l).

(** bc:541-545, 564-566; bc:554-558 *)
Definition h_assign_range (c : nat) (l : list (K * V)) : H unit :=
  lift (clear_and_increase_capacity c (length l));;; h_insert_range c l;;; ret tt.
Definition h_assign_move (c : nat) (l : list (K * V)) : H unit :=
  lift (clear_and_increase_capacity c (length l));;; h_insert_move c l;;; ret tt.

(** Copying an unordered_map with these elements *)
Fixpoint h_rehash {A} (l : list A) : H unit :=
  match l with
  | [] => ret tt
  | _ :: l => (if keeps then ret tt else search);;; h_rehash l
  end.

(** bc:1530-1534 _reassign_references, noexcept *)
Fixpoint h_reassign (c : nat) (ids : list nat) : H unit :=
  match ids with
  | [] => ret tt
  | i :: t =>
      '(r, s) <- lift (own c);;
      p <- lift (list_deref (r, i));;
      n <- lift (deref p);;
      f <- h_map_find c (n_key n);;
      match f with
      | None => undef PastTheEnd
      | Some f =>
          lift (put_store r (MkStore (s_map s) (alter i (fun _ => fst f) (s_ord s)) (s_next s) (s_epoch s)));;;
          h_reassign c t
      end
  end.
Definition h_reassign_references (c : nat) : H unit :=
  noexcept ('(r, s) <- lift (own c);; h_reassign c (map fst (s_ord s))).

(** bc:490-498 copy constructor *)
Definition h_copy_new (c : nat) : H nat :=
  x <- lift (get_cache c);;
  s <- lift (get_store (c_rid x));;
  h_rehash (s_map s);;;
  lift (fallible E);;;
  lift (fallible E);;;
  r <- lift (alloc_store (MkStore (copy_map E (s_map s)) (s_ord s) (s_next s) 0));;
  d <- lift (alloc_cache (MkCache r (c_last x) (c_cap x) (c_stats x) (c_cbs x) (c_ttl x)));;
  h_reassign_references d;;;
  ret d.

(** bc:507-519 copy assignment, noexcept *)
Definition h_copy_assign (c d : nat) : H unit :=
  noexcept (
    if Nat.eqb c d then ret tt
    else
      x <- lift (get_cache c);;
      y <- lift (get_cache d);;
      s <- lift (get_store (c_rid y));;
      h_rehash (s_map s);;;
      lift (fallible E);;;
      lift (fallible E);;;
      lift (drop_store (c_rid x));;;
      r <- lift (alloc_store (MkStore (copy_map E (s_map s)) (s_ord s) (s_next s) 0));;
      lift (put_cache c (MkCache r (c_last y) (c_cap y) (c_stats y) (c_cbs y) (c_ttl y)));;;
      h_reassign_references c).

(** operator== of std::unordered_map *)
Fixpoint h_all_in (timed : bool) (a b : list (nat * mnode K V)) : H bool :=
  match a with
  | [] => ret true
  | p :: a' =>
      search;;;
      if match node_with E (n_key (snd p)) b with
         | None => false
         | Some (_, m) => key_eqop E (n_key (snd p)) (n_key m) && info_eq E timed (snd p) m
         end
      then h_all_in timed a' b else ret false
  end.
Definition h_map_eq (timed : bool) (a b : list (nat * mnode K V)) : H bool :=
  if Nat.eqb (length a) (length b) then h_all_in timed a b else ret false.

(** bc:594-607 operator==, noexcept *)
Definition h_equals (c d : nat) : H bool :=
  noexcept (
    '(_, s) <- lift (own c);;
    '(_, s') <- lift (own d);;
    x <- lift (get_cache c);;
    if Nat.eqb c d then ret true
    else
      same <- h_map_eq (match c_ttl x with None => false | _ => true end) (s_map s) (s_map s');;
      if same then lift (order_eq E (s_ord s) (s_ord s')) else ret false).

(** tc:276-279 has_expired(key), noexcept *)
Definition h_has_expired_key (c : nat) (d : Z) (k : K) : H bool :=
  noexcept (
    i <- h_map_find c k;;
    match i with
    | None => ret false
    | Some i => n <- lift (deref_it i);; lift (has_expired_info E d n)
    end).

(** tc:234-241 all_expired *)
Definition h_all_expired (c : nat) (d : Z) : H bool :=
  e <- lift (is_empty c);;
  if e then ret true
  else
    p <- lift (list_back c);;
    n <- lift (deref p);;
    i <- h_map_find c (n_key n);;
    match i with
    | None => undef PastTheEnd
    | Some i => n <- lift (deref_it i);; lift (has_expired_info E d n)
    end.

(** tc:258-269, tc:247-272 clear_expired *)
Fixpoint h_clear_expired_loop (fuel : nat) (c : nat) (d : Z) (cnt : nat) : H nat :=
  '(_, s) <- lift (own c);;
  match s_ord s with
  | [] => ret cnt
  | (_, p) :: _ =>
      n <- lift (deref p);;
      i <- h_map_find c (n_key n);;
      match i with
      | None => undef PastTheEnd
      | Some i =>
          n <- lift (deref_it i);;
          ex <- lift (has_expired_info E d n);;
          if ex then
            match fuel with
            | O => undef FuelExhausted
            | S fuel => h_erase_it c i;;; h_clear_expired_loop fuel c d (S cnt)
            end
          else ret cnt
      end
  end.
Definition h_clear_expired (c : nat) (d : Z) : H nat :=
  e <- lift (is_empty c);;
  if e then ret 0
  else n <- lift (size c);; h_clear_expired_loop n c d 0.

Definition h_with_ttl (c : nat) (f : Z -> H (out K V)) : H (out K V) :=
  x <- lift (get_cache c);;
  match c_ttl x with Some d => f d | None => ret RIll end.

(** The calls covered here. *)
Definition also_searching (o : op K V) : bool :=
  match o with
  | NewFrom _ _ _ | NewIters _ _ | NewMove _ _ _ | NewRvalue _ _ | NewList _ _
  | Copy _ | CopyAssign _ _ | AssignRange _ _ | AssignMove _ _ | InsertRange _ _ | InsertMove _ _
  | HasExpired _ _ | AllExpired _ | ClearExpired _ | Equal _ _ => true
  | _ => false
  end.
Definition m_body (o : op K V) : H (out K V) :=
  match o with
  | NewFrom cap ttl l => c <- h_new_from cap ttl l;; ret (RNat c)
  | NewIters ttl l => c <- h_new_from (Nat.max (length l) DEFAULT_CAPACITY) ttl l;; ret (RNat c)
  | NewMove cap ttl l => c <- h_new_from_move cap ttl l;; ret (RNat c)
  | NewRvalue ttl l => c <- h_new_from_move (length l) ttl l;; ret (RNat c)
  | NewList ttl l => c <- h_new_from (length l) ttl l;; ret (RNat c)
  | Copy c => d <- h_copy_new c;; ret (RNat d)
  | CopyAssign c d => h_copy_assign c d;;; ret RUnit
  | AssignRange c l => h_assign_range c l;;; ret RUnit
  | AssignMove c l => h_assign_move c l;;; ret RUnit
  | InsertRange c l => n <- h_insert_range c l;; ret (RNat n)
  | InsertMove c l => n <- h_insert_move c l;; ret (RNat n)
  | HasExpired c k => h_with_ttl c (fun d => b <- h_has_expired_key c d k;; ret (RBool b))
  | AllExpired c => h_with_ttl c (fun d => b <- h_all_expired c d;; ret (RBool b))
  | ClearExpired c => h_with_ttl c (fun d => n <- h_clear_expired c d;; ret (RNat n))
  | Equal c d => b <- h_equals c d;; ret (RBool b)
  | _ => h_body E search_throws compare_throws o
  end.
Definition m_exec (o : op K V) : H (out K V) := fun h =>
  if well_formed (h_world h) o then m_body o h else Val RIll h.

End MoreSearches.
