(** Property theorems: calls on keys that are in the cache, and dropping elements, in
    histories in which caches may be copied. *)
From Coq Require Import List Arith ZArith Bool.
Import ListNotations.
From Verif Require Import Monad Types Model Api EnvEx Spec ExBase SpecAny AnyMore AnyHit AnyErase Props27.

(** C105.  Whatever calls a program has made, copies of caches included: if find() of a key that is there is well
    defined, it finds the element and makes it the most recently used one (a timed cache may also say that it has
    expired, and then nothing changes), ... *)
Theorem C105_find : forall (K V : Type) (E : env K V), good E ->
  forall w c k p l n r w', attained E w -> coherent E c w l n -> look E k l = Some p -> call E (Find c k) w r w' ->
  (r = Returned (ROpt (Some p)) /\ coherent E c w' (without E k l ++ [p]) n /\
   forall d ld nd, d <> c -> coherent E d w ld nd -> coherent E d w' ld nd) \/
  ((exists d, ttl_of c w (Some d)) /\ r = Returned (ROpt None) /\
   forall e le ne, coherent E e w le ne -> coherent E e w' le ne).
Proof. exact @any_find_present. Qed.
Print Assumptions C105_find.
(** ... if inserting or emplacing a key that is there is well defined, it replaces the value, keeps the key object
    and makes the element the most recently used one, ... *)
Theorem C105_put : forall (K V : Type) (E : env K V), good E ->
  forall w c k v o p l n r w', attained E w -> puts c k v o -> coherent E c w l n -> look E k l = Some p -> call E o w r w' ->
  r = Returned (RIns false (Some (fst p, v))) /\ coherent E c w' (without E k l ++ [(fst p, v)]) n /\
  forall d ld nd, d <> c -> coherent E d w ld nd -> coherent E d w' ld nd.
Proof. exact @any_put_present. Qed.
Print Assumptions C105_put.
(** ... if erasing a key is well defined, it removes that element and no other and tells whether there was one, ... *)
Theorem C105_erase : forall (K V : Type) (E : env K V), good E ->
  forall w c k l n r w', attained E w -> coherent E c w l n -> call E (Erase c k) w r w' ->
  r = Returned (RBool (has E k l)) /\ coherent E c w' (without E k l) n /\
  forall d ld nd, d <> c -> coherent E d w ld nd -> coherent E d w' ld nd.
Proof. exact @any_erase. Qed.
Print Assumptions C105_erase.
(** ... and if shrinking or setting the capacity is well defined, it drops the least recently used elements. *)
Theorem C105_shrink : forall (K V : Type) (E : env K V), good E ->
  forall w c m l n r w', attained E w -> coherent E c w l n -> call E (Shrink c m) w r w' ->
  r = Returned RUnit /\ coherent E c w' (newest m l) n /\
  forall d ld nd, d <> c -> coherent E d w ld nd -> coherent E d w' ld nd.
Proof. exact @any_shrink_any. Qed.
Print Assumptions C105_shrink.
Theorem C105_capacity : forall (K V : Type) (E : env K V), good E ->
  forall w c m l n r w', attained E w -> coherent E c w l n -> call E (SetCapacity c m) w r w' ->
  r = Returned RUnit /\ coherent E c w' (newest m l) m /\
  forall d ld nd, d <> c -> coherent E d w ld nd -> coherent E d w' ld nd.
Proof. exact @any_capacity_any. Qed.
Print Assumptions C105_capacity.

(** A copy that has since replaced all elements but one: calls on the new elements are well defined, calls on the one
    copied are not. *)
Definition renewed_ops : list (op nat nat) := full_ops ++ [Copy 0; Insert 1 7 70; Insert 1 8 80].
Definition renewed : world nat nat := world_after E0 renewed_ops.
Definition defined (r : res (world nat nat) (out nat nat)) : option (out nat nat) := match r with Val y _ => Some y | _ => None end.
Example C105_case : attained E0 renewed /\ coherent E0 1 renewed [(2, 20); (7, 70); (8, 80)] 3 /\
  look E0 7 [(2, 20); (7, 70); (8, 80)] = Some (7, 70) /\
  defined (exec E0 (Find 1 7) renewed) = Some (ROpt (Some (7, 70))) /\
  defined (exec E0 (Insert 1 7 71) renewed) = Some (RIns false (Some (7, 71))) /\
  defined (exec E0 (Erase 1 7) renewed) = Some (RBool true) /\ defined (exec E0 (Erase 1 9) renewed) = Some (RBool false) /\
  exec E0 (Erase 1 2) renewed = Undef ForeignListIterator /\ exec E0 (Shrink 1 2) renewed = Undef ForeignListIterator /\
  defined (exec E0 (Shrink 1 1) (world_after E0 (renewed_ops ++ [Insert 1 9 90]))) = Some RUnit /\
  newest 1 [(7, 70); (8, 80); (9, 90)] = [(9, 90)] /\
  defined (exec E0 (SetCapacity 1 2) (world_after E0 (renewed_ops ++ [Insert 1 9 90]))) = Some RUnit.
Proof.
  assert (At : attained E0 renewed) by (apply after_attained; vm_compute; reflexivity).
  split; [exact At|]. split; [apply coherent_of; [apply ex_good|exact At|vm_compute; reflexivity|vm_compute; reflexivity]|].
  do 9 (split; [vm_compute; reflexivity|]). vm_compute; reflexivity.
Qed.
