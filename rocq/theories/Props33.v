(** Property theorems: calls that refer to an element by its place, in histories in which
    caches may be copied. *)
From Coq Require Import List Arith ZArith Bool.
Import ListNotations.
From Verif Require Import Monad Types Model Api EnvEx Spec ExBase SpecAny AnyMore AnyPlace Props4 Props27 Props32.

(** C107.  Whatever calls a program has made, copies of caches included: reading the i-th element in order is well
    defined and gives that element, or throws if there is none, ... *)
Theorem C107_entry : forall (K V : Type) (E : env K V), good E ->
  forall w c i l n, attained E w -> ttl_of c w None -> coherent E c w l n ->
  exec E (EntryAt c i) w = match nth_error l i with Some p => Val (ROpt (Some p)) w | None => Exc InvalidIterator w end.
Proof. exact @any_entry_at. Qed.
Print Assumptions C107_entry.
(** ... (on a timed cache, or throws because the element has expired), ... *)
Theorem C107_entry_any : forall (K V : Type) (E : env K V), good E ->
  forall w c i l n, attained E w -> coherent E c w l n ->
  exists w', (forall e le ne, coherent E e w le ne -> coherent E e w' le ne) /\
  match nth_error l i with
  | Some p => exec E (EntryAt c i) w = Val (ROpt (Some p)) w' \/ ((exists d, ttl_of c w (Some d)) /\ exec E (EntryAt c i) w = Exc KeyExpired w')
  | None => exec E (EntryAt c i) w = Exc InvalidIterator w'
  end.
Proof. exact @any_entry. Qed.
Print Assumptions C107_entry_any.
(** ... is_valid() tells whether there is one, ... *)
Theorem C107_valid : forall (K V : Type) (E : env K V), good E ->
  forall w c i l n, attained E w -> ttl_of c w None -> coherent E c w l n ->
  exec E (ValidAt c i) w = Val (RBool (Nat.ltb i (length l))) w.
Proof. exact @any_valid_at. Qed.
Print Assumptions C107_valid.
(** ... and if erasing the i-th element is well defined, it removes that element and no other, in this cache only, or
    throws and changes nothing if there is none: by an ordered iterator (on a timed cache it may also throw because the
    element has expired), ... *)
Theorem C107_erase_ordered : forall (K V : Type) (E : env K V), good E ->
  forall w c i l n r w', attained E w -> coherent E c w l n -> call E (EraseOrdered c i) w r w' ->
  match nth_error l i with
  | Some p => (r = Returned RUnit /\ coherent E c w' (without E (fst p) l) n /\
               forall d ld nd, d <> c -> coherent E d w ld nd -> coherent E d w' ld nd) \/
              ((exists d, ttl_of c w (Some d)) /\ r = Threw KeyExpired /\
               forall e le ne, coherent E e w le ne -> coherent E e w' le ne)
  | None => r = Threw InvalidIterator /\ forall e le ne, coherent E e w le ne -> coherent E e w' le ne
  end.
Proof. exact @any_erase_ordered. Qed.
Print Assumptions C107_erase_ordered.
(** ... by an unordered iterator, ... *)
Theorem C107_erase_unordered : forall (K V : Type) (E : env K V), good E ->
  forall w c i l n u r w', attained E w -> coherent E c w l n -> exec E (Unordered c) w = Val (REnts u) w -> call E (EraseUnordered c i) w r w' ->
  match nth_error u i with
  | Some p => r = Returned RUnit /\ coherent E c w' (without E (fst p) l) n /\
              forall d ld nd, d <> c -> coherent E d w ld nd -> coherent E d w' ld nd
  | None => r = Threw InvalidIterator /\ forall e le ne, coherent E e w le ne -> coherent E e w' le ne
  end.
Proof. exact @any_erase_unordered. Qed.
Print Assumptions C107_erase_unordered.
(** ... and by the iterator that find() gave (end() if the element has expired). *)
Theorem C107_erase_found : forall (K V : Type) (E : env K V), good E ->
  forall w c k l n r w', attained E w -> coherent E c w l n -> call E (EraseFound c k) w r w' ->
  if has E k l then (r = Returned RUnit /\ coherent E c w' (without E k l) n /\
                     forall d ld nd, d <> c -> coherent E d w ld nd -> coherent E d w' ld nd) \/
                    ((exists d, ttl_of c w (Some d)) /\ r = Threw InvalidIterator /\
                     forall e le ne, coherent E e w le ne -> coherent E e w' le ne)
  else r = Threw InvalidIterator /\ forall e le ne, coherent E e w le ne -> coherent E e w' le ne.
Proof. exact @any_erase_found. Qed.
Print Assumptions C107_erase_found.

(** A copy with a copied element and two that were inserted into it: all can be read by place, and the inserted ones
    can be erased; erasing the copied one is undefined. *)
Example C107_case : attained E0 own_world /\ ttl_of 1 own_world None /\ coherent E0 1 own_world [(2, 20); (7, 70); (8, 81)] 3 /\
  exec E0 (EntryAt 1 0) own_world = Val (ROpt (Some (2, 20))) own_world /\
  (exists w', call E0 (EraseOrdered 1 1) own_world (Returned RUnit) w' /\ coherent E0 1 w' [(2, 20); (8, 81)] 3) /\
  (exists u, exec E0 (Unordered 1) own_world = Val (REnts u) own_world /\ nth_error u 0 = Some (8, 81)) /\
  (exists w', call E0 (EraseUnordered 1 0) own_world (Returned RUnit) w') /\
  (exists w', call E0 (EraseFound 1 7) own_world (Returned RUnit) w') /\
  (exists w', call E0 (EraseFound 1 99) own_world (Threw InvalidIterator) w') /\
  exec E0 (EraseOrdered 1 0) own_world = Undef ForeignListIterator.
Proof.
  assert (A : attained E0 own_world) by (apply after_attained; vm_compute; reflexivity).
  split; [exact A|]. split; [eexists; split; [vm_compute; reflexivity|reflexivity]|].
  split; [apply coherent_of; [apply ex_good|exact A|vm_compute; reflexivity|vm_compute; reflexivity]|].
  split; [vm_compute; reflexivity|].
  split. { exists (world_after E0 (own_ops ++ [EraseOrdered 1 1])). split; [vm_compute; reflexivity|].
    apply coherent_of; [apply ex_good|apply after_attained; vm_compute; reflexivity|vm_compute; reflexivity|vm_compute; reflexivity]. }
  split; [eexists; split; [vm_compute; reflexivity|vm_compute; reflexivity]|].
  split; [eexists; vm_compute; reflexivity|]. split; [eexists; vm_compute; reflexivity|]. split; [eexists; vm_compute; reflexivity|]. vm_compute; reflexivity.
Qed.
(** A copy of a timed cache: the copied element has expired, the inserted one has not. *)
Definition C107_late : env nat nat := ex_env (fun n => nth n [0%Z] 12%Z).
Definition C107_ops : list (op nat nat) := [New 3 (Some 10%Z); Insert 0 1 10; Copy 0; Insert 1 2 20].
Definition C107_world : world nat nat := world_after C107_late C107_ops.
Definition C107_after : world nat nat := world_after C107_late (C107_ops ++ [EraseOrdered 1 1]).
Example C107_case_timed : attained C107_late C107_world /\ ttl_of 1 C107_world (Some 10%Z) /\
  coherent C107_late 1 C107_world [(1, 10); (2, 20)] 3 /\
  call C107_late (EraseOrdered 1 1) C107_world (Returned RUnit) C107_after /\ coherent C107_late 1 C107_after [(1, 10)] 3 /\
  map (fun o => fst (seen (run C107_late [o] C107_world))) [EntryAt 1 0; EntryAt 1 1; EraseOrdered 1 0; EraseFound 1 1; EraseFound 1 2] =
  [[Threw KeyExpired]; [Returned (ROpt (Some (2, 20)))]; [Threw KeyExpired]; [Threw InvalidIterator]; [Returned RUnit]].
Proof.
  assert (A : attained C107_late C107_world) by (apply after_attained; vm_compute; reflexivity).
  split; [exact A|]. split; [eexists; split; [vm_compute; reflexivity|reflexivity]|].
  split; [apply coherent_of; [apply ex_good|exact A|vm_compute; reflexivity|vm_compute; reflexivity]|].
  split; [vm_compute; reflexivity|].
  split; [apply coherent_of; [apply ex_good|apply after_attained; vm_compute; reflexivity|vm_compute; reflexivity|vm_compute; reflexivity]|].
  vm_compute; reflexivity.
Qed.
