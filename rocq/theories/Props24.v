(** Property theorems: the function objects of caches. *)
From Coq Require Import List Arith ZArith Bool Permutation.
Import ListNotations.
From Verif Require Import Monad Types Model Api EnvEx Spec ExBase FunObj SpecFunObj FunObjProofs FunObjRuns.

(** The objects of the cases below: 1 compares modulo 10, every other number exactly. *)
Definition ex_feq (i a b : nat) : bool :=
  match i with 1 => Nat.eqb (a mod 10) (b mod 10) | _ => Nat.eqb a b end.
Definition ex_objects : env (nat * nat) nat :=
  MkEnv (fun p q => Nat.eqb (fst p) (fst q) && ex_feq (fst p) (snd p) (snd q)) (fun p q => Nat.eqb (snd p) (snd q)) Nat.eqb
        (fun l n => n :: l) (fun _ => false) still (fun z => z) (Some 7) true (fun _ => false) quiet_cb.
Definition pointers (i : nat) : bool := negb (Nat.eqb i 0).
Definition always (i : nat) : bool := true.
Example ex_objects_by : compares_by ex_objects ex_feq.
Proof. intros i j a b. reflexivity. Qed.
Example ex_objects_good : good ex_objects.
Proof.
  assert (R : forall i a, ex_feq i a a = true) by (intros [|[|i]] a; unfold ex_feq; apply Nat.eqb_refl).
  assert (S : forall i a b, ex_feq i a b = ex_feq i b a) by (intros [|[|i]] a b; unfold ex_feq; apply Nat.eqb_sym).
  assert (T : forall i a b c, ex_feq i a b = true -> ex_feq i b c = true -> ex_feq i a c = true).
  { intros [|[|i]] a b c; unfold ex_feq; intros A B; apply Nat.eqb_eq in A; apply Nat.eqb_eq in B; apply Nat.eqb_eq; congruence. }
  constructor; cbn [key_equal place fails cb ex_objects].
  - intros (i & a). cbn [fst snd]. rewrite Nat.eqb_refl, R. auto.
  - intros (i & a) (j & b). cbn [fst snd]. rewrite (Nat.eqb_sym i j). destruct (Nat.eqb_spec j i); subst; auto.
    rewrite S. auto.
  - intros (i & a) (j & b) (h & c). cbn [fst snd]. intros A B. apply andb_prop in A as (A1 & A2). apply andb_prop in B as (B1 & B2).
    apply Nat.eqb_eq in A1. apply Nat.eqb_eq in B1. subst. rewrite Nat.eqb_refl, (T _ _ _ _ A2 B2). auto.
  - reflexivity.
  - reflexivity.
  - reflexivity.
Qed.
(** A cache that compares modulo 10 and one that compares exactly. *)
Definition two_kinds : list (fop nat nat) :=
  [FNew 1 (New 3 None); FCall (New 3 None); FCall (Insert 0 1 10); FCall (Insert 0 11 11); FCall (Insert 0 2 20);
   FCall (Insert 1 1 10); FCall (Insert 1 11 11)].
Definition kinds_state (callable : nat -> bool) := fst (f_final ex_objects callable two_kinds).
Definition kinds_notes (callable : nat -> bool) := snd (f_final ex_objects callable two_kinds).
Example kinds_after : f_after ex_objects always (kinds_state always) (kinds_notes always).
Proof. apply f_final_after. reflexivity. Qed.

(** C94.  hash_function() and key_equal() are the objects the notes say. *)
Theorem C94_accessors : forall (K V : Type) (E : env (nat * K) V), good E ->
  forall callable st t c, f_after E callable st t -> f_alive st c = true -> f_objects E callable c st (t c).
Proof. exact @accessor. Qed.
Print Assumptions C94_accessors.
Example C94_accessors_case : f_alive (kinds_state always) 0 = true /\ kinds_notes always 0 = 1 /\ kinds_notes always 1 = 0 /\
  f_objects ex_objects always 0 (kinds_state always) 1 /\ f_objects ex_objects always 1 (kinds_state always) 0.
Proof. ands; vm_compute; reflexivity. Qed.
(** A new cache has the objects it is given, and what was put into it with them (0 is the default). *)
Theorem C94_constructor : forall (K V : Type) (E : env (nat * K) V), good E ->
  forall callable feq, compares_by E feq ->
  forall st t i ttl o cap l (Ei : env K V), f_after E callable st t -> builds ttl o cap l -> callable i = true ->
  (forall a b, key_equal Ei a b = feq i a b) ->
  exists e st', fexec E callable (FNew i o) st = Val (RNat e) st' /\ f_alive st e = false /\
    f_contents E callable e st' (rev (items (snd (lputs Ei l (Lru cap []))))) /\
    f_capacity E callable e st' cap /\ f_objects E callable e st' i.
Proof. exact @f_built. Qed.
Print Assumptions C94_constructor.
Theorem C94_default : forall (K V : Type) (E : env (nat * K) V) callable st ttl o cap l, builds ttl o cap l ->
  fexec E callable (FCall o) st = fexec E callable (FNew 0 o) st.
Proof. exact @f_built_default. Qed.
Print Assumptions C94_default.
Example C94_constructor_case : builds (K := nat) (V := nat) None (NewList None [(1, 10); (11, 11); (2, 20)]) 3 [(1, 10); (11, 11); (2, 20)] /\
  (forall a b, key_equal (mod_env still) a b = ex_feq 1 a b) /\
  rev (items (snd (lputs (mod_env still) [(1, 10); (11, 11); (2, 20)] (Lru 3 [])))) = [(1, 11); (2, 20)].
Proof. split; [constructor|]. split; [reflexivity|]. vm_compute. reflexivity. Qed.
(** Every cache is a textbook cache under the equality of its own objects, whatever the other caches have. *)
Theorem C94_textbook_lru : forall (K V : Type) (E : env (nat * K) V), good E ->
  forall callable feq, compares_by E feq ->
  forall st t c (Ei : env K V) l n calls, f_after E callable st t -> f_timed st c = false ->
  callable (t c) = true -> f_contents E callable c st l -> f_capacity E callable c st n ->
  (forall a b, key_equal Ei a b = feq (t c) a b) ->
  match lrun Ei calls (Lru n (rev l)) with
  | (answers, Some s) =>
      exists outs st', f_run E callable (map (fun x => FCall (on c x)) calls) st = FFinished outs st' /\
        agrees calls outs answers /\ f_contents E callable c st' (rev (items s)) /\
        f_capacity E callable c st' (lcap s) /\ f_objects E callable c st' (t c)
  | (answers, None) =>
      exists outs, f_run E callable (map (fun x => FCall (on c x)) calls) st = FTerminated outs EmptyCache /\
        agrees calls outs answers
  end.
Proof. exact @objects_lru. Qed.
Print Assumptions C94_textbook_lru.
Theorem C94_keys_unique : forall (K V : Type) (E : env (nat * K) V), good E ->
  forall callable feq, compares_by E feq ->
  forall st t c (Ei : env K V) l n, f_after E callable st t -> f_contents E callable c st l ->
  f_capacity E callable c st n -> (forall a b, key_equal Ei a b = feq (t c) a b) -> distinct Ei l /\ length l <= n.
Proof. exact @objects_distinct. Qed.
Print Assumptions C94_keys_unique.
Example C94_textbook_case :
  f_timed (kinds_state always) 0 = false /\ f_contents ex_objects always 0 (kinds_state always) [(1, 11); (2, 20)] /\
  f_contents ex_objects always 1 (kinds_state always) [(1, 10); (11, 11)] /\ f_capacity ex_objects always 0 (kinds_state always) 3 /\
  (forall a b, key_equal (mod_env still) a b = ex_feq (kinds_notes always 0) a b) /\
  (forall a b, key_equal E0 a b = ex_feq (kinds_notes always 1) a b) /\
  fst (lrun (mod_env still) [LLookup 31; LLookup 12; LOrdered] (Lru 3 [(2, 20); (1, 11)])) =
    [Returned (RVal 11); Returned (RVal 20); Returned (REnts [(1, 11); (2, 20)])].
Proof.
  do 4 (split; [vm_compute; reflexivity|]).
  assert (Q : kinds_notes always 0 = 1 /\ kinds_notes always 1 = 0) by (split; vm_compute; reflexivity). destruct Q as (-> & ->).
  split; [reflexivity|]. split; [reflexivity|]. vm_compute. reflexivity.
Qed.
(** Steps that do not name a cache leave it, and its objects, as they are. *)
Theorem C94_frame : forall (K V : Type) (E : env (nat * K) V), good E ->
  forall callable st t p r st' d, f_after E callable st t -> f_copy_free p = true -> f_call E callable p st r st' ->
  f_alive st d = true -> ~ In d (f_mentions p) -> f_same E callable d st d st'.
Proof. exact @f_frame. Qed.
Print Assumptions C94_frame.
Example C94_frame_case : f_alive (kinds_state always) 1 = true /\ ~ In 1 (f_mentions (FCall (Insert (V := nat) 0 21 5))) /\
  exists st', f_call ex_objects always (FCall (Insert 0 21 5)) (kinds_state always) (Returned (RIns false (Some (1, 5)))) st' /\
    f_contents ex_objects always 1 st' [(1, 10); (11, 11)].
Proof.
  split; [vm_compute; reflexivity|]. split; [simpl; intros [H|[]]; discriminate|]. eexists. split; [vm_compute; reflexivity|].
  vm_compute. reflexivity.
Qed.
(** The only undefined steps: calls with a null pointer, comparing caches with different objects,
    and the two of C04. *)
Theorem C94_only_undefined : forall (K V : Type) (E : env (nat * K) V), good E ->
  forall callable st t p u, f_after E callable st t -> f_copy_free p = true -> fexec E callable p st = Undef u ->
  (u = NullPointer /\ callable (works_with p t) = false) \/
  (u = MixedFunctions /\ exists c d, p = FCall (Equal c d) /\ t c <> t d) \/
  (u = Indeterminate /\ junk E = None /\ exists c, p = FCall (Move c)) \/
  (u = PastTheEnd /\ lenient_end E = false /\ exists c k, p = FCall (FindEntry c k)).
Proof. exact @only_undefined. Qed.
Print Assumptions C94_only_undefined.
Theorem C94_only_terminated : forall (K V : Type) (E : env (nat * K) V), good E ->
  forall callable st t p e, f_after E callable st t -> f_copy_free p = true -> fexec E callable p st = Term e ->
  e = EmptyCache /\ exists c, (p = FCall (Front c) \/ p = FCall (Back c)) /\ f_contents E callable c st [].
Proof. exact @only_terminated. Qed.
Print Assumptions C94_only_terminated.
Example C94_only_undefined_case : fexec ex_objects always (FCall (Equal 0 1)) (kinds_state always) = Undef MixedFunctions /\
  kinds_notes always 0 <> kinds_notes always 1.
Proof. split; [vm_compute; reflexivity|]. vm_compute. discriminate. Qed.

(** C95.  Refuted as stated, twice: a cache that was moved from has value-initialised objects, so
    if they are function pointers it cannot be used; and a cache built from one that is not const has
    value-initialised objects too. *)
Definition one_cache : list (fop nat nat) := [FNew 1 (New 3 None); FCall (Insert 0 1 10)].
Theorem C95_moved_from_refuted : exists (E : env (nat * nat) nat) callable st t st' st'' r,
  good E /\ f_after E callable st t /\ callable (t 0) = true /\
  fexec E callable (FCall (Insert 0 2 20)) st = Val r st'' /\
  fexec E callable (FCall (Move 0)) st = Val (RNat 1) st' /\
  fexec E callable (FCall (Insert 0 2 20)) st' = Undef NullPointer.
Proof.
  exists ex_objects, pointers, (fst (f_final ex_objects pointers one_cache)), (snd (f_final ex_objects pointers one_cache)).
  do 3 eexists. split; [exact ex_objects_good|]. split; [apply f_final_after; reflexivity|].
  do 3 (split; [vm_compute; reflexivity|]). vm_compute. reflexivity.
Qed.
Print Assumptions C95_moved_from_refuted.
Theorem C95_copy_refuted : exists (E : env (nat * nat) nat) callable st t st' st1 st2,
  good E /\ f_after E callable st t /\ callable 0 = true /\ f_contents E callable 0 st [(1, 11); (2, 20)] /\
  fexec E callable (FDirect 0) st = Val (RNat 2) st' /\ 
  fexec E callable (FCall (Contains 0 21)) st' = Val (RBool true) st1 /\
  fexec E callable (FCall (Contains 2 21)) st' = Val (RBool false) st2.
Proof.
  exists ex_objects, always, (kinds_state always), (kinds_notes always). do 3 eexists.
  split; [exact ex_objects_good|]. split; [exact kinds_after|].
  do 4 (split; [vm_compute; reflexivity|]). vm_compute. reflexivity.
Qed.
Print Assumptions C95_copy_refuted.
(** ... swap and move assignment exchange the objects with the elements; ... *)
Theorem C95_exchange_partial : forall (K V : Type) (E : env (nat * K) V), good E ->
  forall callable st t c d p, f_after E callable st t -> same_kind (f_world st) c d = true -> c <> d ->
  p = FCall (Swap c d) \/ p = FCall (MoveAssign c d) ->
  exists st', fexec E callable p st = Val RUnit st' /\ f_same E callable c st d st' /\ f_same E callable d st c st'.
Proof. exact @f_exchange. Qed.
Print Assumptions C95_exchange_partial.
(** ... the move constructor carries them; the source is empty, with the objects of a cache built without any
    (so that [C94_textbook_lru] holds of it if they can be called); ... *)
Theorem C95_move_partial : forall (K V : Type) (E : env (nat * K) V), good E ->
  forall callable st t c n, f_after E callable st t -> f_alive st c = true -> junk E = Some n ->
  exists d st', fexec E callable (FCall (Move c)) st = Val (RNat d) st' /\ f_alive st d = false /\ f_same E callable c st d st' /\
    f_contents E callable c st' [] /\ f_capacity E callable c st' n /\ f_objects E callable c st' 0.
Proof. exact @f_moved. Qed.
Print Assumptions C95_move_partial.
(** ... if they cannot, no key can be inserted, found or erased; ... *)
Theorem C95_null : forall (K V : Type) (E : env (nat * K) V), good E ->
  forall callable st t c k v p, f_after E callable st t -> f_alive st c = true -> callable (t c) = false ->
  In p [FCall (Insert c k v); FCall (Emplace c k v); FCall (Find c k); FCall (Contains c k); FCall (Lookup c k);
        FCall (Write c k v); FCall (Erase c k)] -> fexec E callable p st = Undef NullPointer.
Proof. exact @f_null. Qed.
Print Assumptions C95_null.
(** ... the copy constructor and copy assignment give the copy the objects with the elements, and leave every other
    cache, the original included, its own; ... *)
Theorem C95_copy_partial : forall (K V : Type) (E : env (nat * K) V), good E ->
  forall callable st t c d st', f_after E callable st t -> c <> d ->
  fexec E callable (FCall (Copy c)) st = Val (RNat d) st' \/ fexec E callable (FCall (CopyAssign d c)) st = Val RUnit st' ->
  f_same E callable c st d st' /\ (forall e, e <> d -> f_alive st e = true -> f_same E callable e st e st').
Proof. exact @f_copied. Qed.
Print Assumptions C95_copy_partial.
(** ... and a cache built from one that is not const inserts its elements, in some order, under the equality of the
    value-initialised objects, which may take some for equal that were different. *)
Theorem C95_direct_partial : forall (K V : Type) (E : env (nat * K) V), good E ->
  forall callable feq, compares_by E feq ->
  forall st t d l (E0 : env K V), f_after E callable st t -> f_timed st d = false -> f_contents E callable d st l ->
  callable 0 = true -> (forall a b, key_equal E0 a b = feq 0 a b) ->
  exists e st' u, fexec E callable (FDirect d) st = Val (RNat e) st' /\ f_alive st e = false /\ Permutation u l /\
    f_contents E callable e st' (rev (items (snd (lputs E0 u (Lru (Nat.max (length l) 128) []))))) /\
    f_capacity E callable e st' (Nat.max (length l) 128) /\ f_objects E callable e st' 0 /\ f_same E callable d st d st'.
Proof. exact @f_direct. Qed.
Print Assumptions C95_direct_partial.
Example C95_case : same_kind (f_world (kinds_state always)) 0 1 = true /\ junk ex_objects = Some 7 /\
  (exists st', fexec ex_objects always (FCall (Swap 0 1)) (kinds_state always) = Val RUnit st' /\
     f_objects ex_objects always 1 st' 1 /\ f_contents ex_objects always 1 st' [(1, 11); (2, 20)]) /\
  (exists st', fexec ex_objects always (FCall (Move 0)) (kinds_state always) = Val (RNat 2) st' /\
     f_objects ex_objects always 2 st' 1 /\ f_objects ex_objects always 0 st' 0) /\
  (exists st', fexec ex_objects always (FCall (Copy 0)) (kinds_state always) = Val (RNat 2) st' /\
     f_objects ex_objects always 2 st' 1 /\ f_contents ex_objects always 2 st' [(1, 11); (2, 20)]) /\
  (exists st', fexec ex_objects always (FDirect 0) (kinds_state always) = Val (RNat 2) st' /\
     f_objects ex_objects always 2 st' 0).
Proof.
  do 2 (split; [vm_compute; reflexivity|]). do 3 (split; [eexists; split; [vm_compute; reflexivity|split; vm_compute; reflexivity]|]).
  eexists. split; vm_compute; reflexivity.
Qed.
