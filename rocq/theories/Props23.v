(** Property theorems: statistics objects that a client holds. *)
From Coq Require Import List Arith ZArith Bool Lia.
Import ListNotations.
From Verif Require Import Monad Types Model Api EnvEx Spec SpecStats ExBase StatObj SpecStatObj StatObjProofs.

(** The program of the cases below. *)
Definition held : list (qop nat nat) :=
  [QCall (New 3 None); QMake [1; 2]; QAttach 0 0; QCall (Insert 0 1 10); QCall (Find 0 1); QCall (Lookup 0 5);
   QKeyRef (HPtr 0) 1; QRef (HCache 0); QCopy (HPtr 0); QDrop 0; QCall (Contains 0 2)].
Example held_after : q_after E0 held (q_sheet E0 held) (q_final E0 held).
Proof. apply q_final_after; [reflexivity|]. vm_compute. discriminate. Qed.
Definition let_go : list (qop nat nat) := held ++ [QCall (StopMonitoring 0)].
Example let_go_after : q_after E0 let_go (q_sheet E0 let_go) (q_final E0 let_go).
Proof. apply q_final_after; [reflexivity|]. vm_compute. discriminate. Qed.
Example held_owner : has_owner (q_sheet E0 held) (q_world (q_final E0 held)) 0.
Proof. right. exists 0. split; vm_compute; reflexivity. Qed.
Example let_go_ownerless : ~ has_owner (q_sheet E0 let_go) (q_world (q_final E0 let_go)) 0.
Proof.
  intros [(p & H)|(c & A & H)].
  - destruct p as [|[|[|p]]]; vm_compute in H; discriminate.
  - destruct c as [|[|c]]; vm_compute in A, H; discriminate.
Qed.

(** C93.  c.stats(), *p and a reference name the object that the history of the
    program says, as long as some pointer or living cache has it, and a cache or
    pointer that names an object keeps it; a reference to an object that nobody has
    any more dangles; stats() of a cache that monitors nothing throws NotMonitoring. *)
Theorem C93_handles : forall (K V : Type) (E : env K V), good E ->
  forall l T st, q_after E l T st -> forall h, has_handle st h = true ->
  match named T h with
  | None => match h with
            | HCache _ => q_step E (QRef h) st = Exc NotMonitoring st
            | HPtr _ => q_step E (QRef h) st = Undef NullPointer
            | HRef _ => False
            end
  | Some s =>
      (has_owner T (q_world st) s ->
         exists st', q_step E (QRef h) st = Val (QObj (Some s)) st' /\ q_world st' = q_world st) /\
      (~ has_owner T (q_world st) s ->
         q_step E (QRef h) st = Undef DanglingReference /\
         forall a : act K, q_step E (QUse h a) st = Undef DanglingReference) /\
      match h with HRef _ => True | _ => has_owner T (q_world st) s end
  end.
Proof. exact @obj_names. Qed.
Print Assumptions C93_handles.
Example C93_handles_case :
  q_after E0 held (q_sheet E0 held) (q_final E0 held) /\
  named (q_sheet E0 held) (HRef 0) = Some 0 /\ named (q_sheet E0 held) (HCache 0) = Some 0 /\
  named (q_sheet E0 held) (HPtr 0) = None /\ named (q_sheet E0 held) (HPtr 1) = Some 1 /\
  has_owner (q_sheet E0 held) (q_world (q_final E0 held)) 0 /\
  q_after E0 let_go (q_sheet E0 let_go) (q_final E0 let_go) /\
  named (q_sheet E0 let_go) (HRef 0) = Some 0 /\ named (q_sheet E0 let_go) (HCache 0) = None /\
  ~ has_owner (q_sheet E0 let_go) (q_world (q_final E0 let_go)) 0.
Proof.
  split; [exact held_after|]. do 4 (split; [vm_compute; reflexivity|]). split; [exact held_owner|].
  split; [exact let_go_after|]. do 2 (split; [vm_compute; reflexivity|]). exact let_go_ownerless.
Qed.

(** Reading an object, by whatever name: the totals and the counts of a key are those
    of the events of that object, whichever caches and names they came through. *)
Theorem C93_totals : forall (K V : Type) (E : env K V), good E ->
  forall l T st, q_after E l T st -> eqop_good E -> countable (calls_of l) ->
  forall h s, has_handle st h = true -> named T h = Some s -> has_owner T (q_world st) s ->
  q_step E (QUse h (@ATotals K)) st =
  Val (QO (RTotals (size_t (Z.of_nat (n_accesses (book T s)))) (size_t (Z.of_nat (n_hits (book T s))))
                   (size_t (Z.of_nat (n_misses (book T s)))))) st.
Proof. exact @obj_totals. Qed.
Print Assumptions C93_totals.
Theorem C93_key_counts : forall (K V : Type) (E : env K V), good E ->
  forall l T st, q_after E l T st -> eqop_good E -> countable (calls_of l) ->
  forall h s, has_handle st h = true -> named T h = Some s -> has_owner T (q_world st) s ->
  forall k, q_step E (QUse h (AFor k)) st =
  match key_count E k (book T s) with
  | None => Exc UnmonitoredKey st
  | Some (a, b) => Val (QO (RKeyStats (size_t (Z.of_nat a)) (size_t (Z.of_nat b)) (size_t (Z.of_nat (a + b))))) st
  end.
Proof. exact @obj_key. Qed.
Print Assumptions C93_key_counts.
Theorem C93_is_monitoring : forall (K V : Type) (E : env K V), good E ->
  forall l T st, q_after E l T st -> eqop_good E -> countable (calls_of l) ->
  forall h s, has_handle st h = true -> named T h = Some s -> has_owner T (q_world st) s ->
  forall k, q_step E (QUse h (AHas k)) st =
  Val (QO (RBool (match key_count E k (book T s) with Some _ => true | None => false end))) st.
Proof. exact @obj_has. Qed.
Print Assumptions C93_is_monitoring.
Theorem C93_number : forall (K V : Type) (E : env K V), good E ->
  forall l T st, q_after E l T st -> eqop_good E -> countable (calls_of l) ->
  forall h s, has_handle st h = true -> named T h = Some s -> has_owner T (q_world st) s ->
  exists ks, unique_keys E ks /\
  (forall k, key_count E k (book T s) <> None <-> exists k', In k' ks /\ key_eqop E k k' = true) /\
  q_step E (QUse h (@ANumber K)) st = Val (QO (RNat (length ks))) st /\
  q_step E (QUse h (@AAny K)) st = Val (QO (RBool (match ks with [] => false | _ => true end))) st.
Proof. exact @obj_number. Qed.
Print Assumptions C93_number.
Theorem C93_changes : forall (K V : Type) (E : env K V), good E ->
  forall l T st, q_after E l T st -> eqop_good E -> countable (calls_of l) ->
  forall h s, has_handle st h = true -> named T h = Some s -> has_owner T (q_world st) s ->
  forall k,
  (exists st', q_step E (QUse h (AMonitor k)) st = Val (QO RUnit) st') /\
  (exists st', q_step E (QUse h (@AUnmonitorAll K)) st = Val (QO RUnit) st') /\
  forall a : act K, a = AUnmonitor k \/ a = AReset k ->
    if key_count E k (book T s) then exists st', q_step E (QUse h a) st = Val (QO RUnit) st'
    else q_step E (QUse h a) st = Exc UnmonitoredKey st.
Proof. exact @obj_change. Qed.
Print Assumptions C93_changes.
(** The object of the cache has three accesses, the copy made before [Contains 0 2] two. *)
Example C93_readings_case :
  eqop_good E0 /\ countable (calls_of held) /\
  q_step E0 (QUse (HRef 0) (@ATotals nat)) (q_final E0 held) = Val (QO (RTotals 3 1 2)) (q_final E0 held) /\
  q_step E0 (QUse (HCache 0) (AFor 2)) (q_final E0 held) = Val (QO (RKeyStats 0 1 1)) (q_final E0 held) /\
  q_step E0 (QUse (HPtr 1) (@ATotals nat)) (q_final E0 held) = Val (QO (RTotals 2 1 1)) (q_final E0 held) /\
  q_step E0 (QUse (HPtr 1) (AFor 2)) (q_final E0 held) = Val (QO (RKeyStats 0 0 0)) (q_final E0 held) /\
  q_step E0 (QUse (HPtr 1) (AUnmonitor 5)) (q_final E0 held) = Exc UnmonitoredKey (q_final E0 held).
Proof.
  split; [constructor; simpl; [apply Nat.eqb_refl|apply Nat.eqb_sym|intros a b c; rewrite !Nat.eqb_eq; congruence]|]. split; [left; reflexivity|].
  do 4 (split; [vm_compute; reflexivity|]). vm_compute; reflexivity.
Qed.

(** A reference that stats_for gave reads the current counts of the key until the key
    is unmonitored, the object assigned to or gone; it dangles from then on. *)
Theorem C93_key_references : forall (K V : Type) (E : env K V), good E ->
  forall l T st, q_after E l T st ->
  forall j s k ok, nth_error (t_keys T) j = Some (s, k, ok) -> eqop_good E -> countable (calls_of l) ->
  (ok = true -> has_owner T (q_world st) s ->
   exists a b : nat, key_count E k (book T s) = Some (a, b) /\
     q_step E (QKeyRead j) st =
       Val (QO (RKeyStats (size_t (Z.of_nat a)) (size_t (Z.of_nat b)) (size_t (Z.of_nat (a + b))))) st) /\
  (ok = false \/ ~ has_owner T (q_world st) s -> q_step E (QKeyRead j) st = Undef DanglingReference).
Proof. exact @obj_keyref. Qed.
Print Assumptions C93_key_references.
Example C93_key_references_case :
  let l1 := held ++ [QCall (Contains 0 1)] in
  let l2 := held ++ [QUse (HCache 0) (AUnmonitor 1); QUse (HRef 0) (AMonitor 1)] in
  let l3 := held ++ [QMove (HRef 0); QCall (StopMonitoring 0)] in
  nth_error (t_keys (q_sheet E0 l1)) 0 = Some (0, 1, true) /\
  q_step E0 (QKeyRead 0) (q_final E0 l1) = Val (QO (RKeyStats 2 0 2)) (q_final E0 l1) /\
  nth_error (t_keys (q_sheet E0 l2)) 0 = Some (0, 1, false) /\
  q_step E0 (QKeyRead 0) (q_final E0 l2) = Undef DanglingReference /\
  nth_error (t_keys (q_sheet E0 l3)) 0 = Some (2, 1, true) /\
  q_step E0 (QKeyRead 0) (q_final E0 l3) = Val (QO (RKeyStats 1 0 1)) (q_final E0 l3) /\
  nth_error (t_keys (q_sheet E0 let_go)) 0 = Some (0, 1, true) /\
  q_step E0 (QKeyRead 0) (q_final E0 let_go) = Undef DanglingReference.
Proof. do 7 (split; [vm_compute; reflexivity|]). vm_compute; reflexivity. Qed.

(** make_shared, and copying or moving an object, give an object never seen before;
    copying a pointer or shared_stats() gives the object it has. *)
Theorem C93_new_object : forall (K V : Type) (E : env K V), good E ->
  forall l T st, q_after E l T st -> forall ks,
  exists s st', q_step E (QMake ks) st = Val (QObj (Some s)) st' /\ ~ in_sight T s.
Proof. exact @obj_new. Qed.
Print Assumptions C93_new_object.
Theorem C93_copied_object : forall (K V : Type) (E : env K V), good E ->
  forall l T st, q_after E l T st -> forall h s q, q = QCopy h \/ q = QMove h ->
  has_handle st h = true -> named T h = Some s -> has_owner T (q_world st) s ->
  exists s' st', q_step E q st = Val (QObj (Some s')) st' /\ ~ in_sight T s'.
Proof. exact @obj_copies. Qed.
Print Assumptions C93_copied_object.
Theorem C93_copied_pointer : forall (K V : Type) (E : env K V), good E ->
  forall l T st, q_after E l T st -> forall p, p < length (q_ptrs st) ->
  exists st', q_step E (QShare p) st = Val (QObj (ptr T p)) st'.
Proof. exact @obj_shared. Qed.
Print Assumptions C93_copied_pointer.
Theorem C93_shared_stats : forall (K V : Type) (E : env K V), good E ->
  forall l T st, q_after E l T st -> forall c, alive (q_world st) c = true ->
  exists st', q_step E (QTake c) st = Val (QObj (monitors T c)) st'.
Proof. exact @obj_taken. Qed.
Print Assumptions C93_shared_stats.
Theorem C93_monitor_new : forall (K V : Type) (E : env K V), good E ->
  forall l T st, q_after E l T st -> forall c ks, alive (q_world st) c = true ->
  exists s st', q_step E (QCall (MonitorNew c ks)) st = Val (QO (RNat s)) st' /\ ~ in_sight T s.
Proof. exact @obj_monitor_new. Qed.
Print Assumptions C93_monitor_new.
Example C93_objects_case :
  (exists st', q_step E0 (QCall (MonitorNew 0 [7])) (q_final E0 held) = Val (QO (RNat 2)) st') /\
  (exists st', q_step E0 (QMake [7]) (q_final E0 held) = Val (QObj (Some 2)) st') /\
  (exists st', q_step E0 (QMove (HRef 0)) (q_final E0 held) = Val (QObj (Some 2)) st') /\
  (exists st', q_step E0 (QShare 0) (q_final E0 held) = Val (QObj None) st') /\
  (exists st', q_step E0 (QTake 0) (q_final E0 held) = Val (QObj (Some 0)) st') /\
  in_sight (q_sheet E0 held) 0 /\ in_sight (q_sheet E0 held) 1.
Proof.
  do 5 (split; [eexists; vm_compute; reflexivity|]). split; [right; left; vm_compute; auto|left; vm_compute; auto].
Qed.

(** Attaching, giving away, exchanging and dropping pointers, null or not, always works;
    so does assigning one object to another; stats_for throws iff the key is not monitored. *)
Theorem C93_pointers : forall (K V : Type) (E : env K V), good E ->
  forall l T st, q_after E l T st -> forall c d p q,
  alive (q_world st) c = true -> alive (q_world st) d = true -> p < length (q_ptrs st) ->
  In q [QAttach c p; QGive c p; QSteal c d; QSwap c d; QDrop p] ->
  exists st', q_step E q st = Val (QO RUnit) st'.
Proof. exact @obj_pointers. Qed.
Print Assumptions C93_pointers.
Theorem C93_assign : forall (K V : Type) (E : env K V), good E ->
  forall l T st, q_after E l T st -> forall h g s i,
  has_handle st h = true -> has_handle st g = true -> named T h = Some s -> named T g = Some i ->
  has_owner T (q_world st) s -> has_owner T (q_world st) i ->
  exists st', q_step E (QAssign h g) st = Val (QO RUnit) st'.
Proof. exact @obj_assign. Qed.
Print Assumptions C93_assign.
Theorem C93_take_key_reference : forall (K V : Type) (E : env K V), good E ->
  forall l T st, q_after E l T st -> forall h s k, eqop_good E -> countable (calls_of l) ->
  has_handle st h = true -> named T h = Some s -> has_owner T (q_world st) s ->
  if key_count E k (book T s) then exists st', q_step E (QKeyRef h k) st = Val (QO RUnit) st'
  else q_step E (QKeyRef h k) st = Exc UnmonitoredKey st.
Proof. exact @obj_take_key. Qed.
Print Assumptions C93_take_key_reference.
Example C93_pointers_case : alive (q_world (q_final E0 held)) 0 = true /\ 1 < length (q_ptrs (q_final E0 held)) /\
  q_step E0 (QKeyRef (HCache 0) 5) (q_final E0 held) = Exc UnmonitoredKey (q_final E0 held) /\
  (let l := held ++ [QAssign (HRef 0) (HPtr 1)] in
   q_step E0 (QUse (HCache 0) (@ATotals nat)) (q_final E0 l) = Val (QO (RTotals 2 1 1)) (q_final E0 l)) /\
  (let l := held ++ [QAttach 0 0] in
   q_step E0 (QRef (HCache 0)) (q_final E0 l) = Exc NotMonitoring (q_final E0 l)).
Proof.
  split; [vm_compute; reflexivity|]. split; [vm_compute; auto|]. do 2 (split; [vm_compute; reflexivity|]).
  vm_compute; reflexivity.
Qed.

(** An object nobody has is never had again. *)
Theorem C93_gone_for_good : forall (K V : Type) (E : env K V), good E ->
  forall l T st, q_after E l T st ->
  forall s l' outs st', in_sight T s -> ~ has_owner T (q_world st) s ->
  forallb copy_free (calls_of l') = true -> q_run E l' st = Some (outs, st') ->
  ~ has_owner (note_steps E l' outs T) (q_world st') s.
Proof. exact @obj_dead. Qed.
Print Assumptions C93_gone_for_good.
Example C93_gone_for_good_case : exists outs st',
  in_sight (q_sheet E0 let_go) 0 /\ ~ has_owner (q_sheet E0 let_go) (q_world (q_final E0 let_go)) 0 /\
  q_run E0 [QMake [1]; QAttach 0 2] (q_final E0 let_go) = Some (outs, st').
Proof.
  do 2 eexists. split; [right; left; vm_compute; auto|]. split; [exact let_go_ownerless|]. vm_compute. reflexivity.
Qed.
