(** Property theorems: iterators and references. *)
From Coq Require Import List Arith ZArith Bool Lia.
Import ListNotations.
From Verif Require Import Monad Types Model Api EnvEx Spec SpecTimed SpecIter ExBase IterProofs.

Ltac keep_on := match goal with
  | |- kept ?E ?k ?c ?w (?o :: ?t) ?c' ?w' =>
      let r := eval vm_compute in (exec E o w) in
      match r with
      | Val ?x ?w1 =>
          let ct := eval vm_compute in (exec E (Ordered (follow o (Returned x) c)) w1) in
          match ct with Val (REnts ?l) _ =>
            apply (@kept_cons _ _ E k c w o (Returned x) w1 l t c' w');
              [reflexivity|vm_compute; reflexivity|vm_compute; reflexivity|vm_compute; reflexivity|vm_compute; reflexivity|]
          end
      end
  end.
Ltac keep_end := match goal with |- kept _ _ _ ?w [] _ ?w' => replace w' with w by (vm_compute; reflexivity) end; constructor.

(** C25.  The iterator got by walking to element number [n] of the order (used or
    not), after any history that keeps the element, is the iterator one gets by
    walking to the place where the element is then, and shows the value it has then. *)
Theorem C25_ordered_iterator_follows : forall (K V : Type) (E : env K V), good E ->
  forall w c l n k v it it1 ops w', reachable E w -> contents E c w l ->
  nth_error l n = Some (k, v) -> ordered_nth c n w = Val it w -> o_used E w it it1 ->
  kept E k c w ops c w' ->
  exists l' n' v', contents E c w' l' /\ nth_error l' n' = Some (k, v') /\
    ordered_nth c n' w' = Val it w' /\ o_shows E it1 w' k v'.
Proof. exact @ordered_follows. Qed.
Print Assumptions C25_ordered_iterator_follows.
Definition C25_between : list (op nat nat) :=
  [Insert 0 1 11; Find 0 3; Insert 0 4 40; Erase 0 3; New 5 None; Swap 0 1; Swap 1 0; Insert 0 1 12; Insert 0 6 60].
Example C25_case : exists it w', reachable E0 full /\ contents E0 0 full [(1, 10); (3, 30); (2, 20)] /\
  ordered_nth 0 0 full = Val it full /\ kept E0 1 0 full C25_between 0 w' /\
  contents E0 0 w' [(4, 40); (1, 12); (6, 60)] /\ o_shows E0 it w' 1 12.
Proof.
  eexists _, (world_after E0 (full_ops ++ C25_between)). split; [exact full_reachable|].
  split; [exact full_contents|]. split; [vm_compute; reflexivity|]. split.
  - unfold C25_between. do 9 keep_on. keep_end.
  - split; [vm_compute; reflexivity|]. eexists _, _. split; vm_compute; reflexivity.
Qed.

(** C26.  Conversion, of any iterator got by walking from begin() (used or not),
    and (second theorem) of any iterator returned by find, insert or emplace. *)
Theorem C26_conversion : forall (K V : Type) (E : env K V), good E ->
  forall w c l u i it it1, reachable E w -> contents E c w l -> hash_order E c w u ->
  unordered_nth c i w = Val it w -> u_used w it it1 ->
  match nth_error u i with
  | Some (k, v) =>
      exists j ot, nth_error l j = Some (k, v) /\ ordered_nth c j w = Val ot w /\
        o_from_u it1 w = Val ot w /\ o_shows E ot w k v /\
        exists ot', o_from_u_move it1 w = Val ot' w /\ o_used E w ot ot'
  | None => o_from_u it1 w = Exc InvalidIteratorConversion w
  end.
Proof. exact @convert. Qed.
Print Assumptions C26_conversion.
Theorem C26_returned_iterators : forall (K V : Type) (E : env K V), good E ->
  forall c k w it w1, reachable E w -> iterator_for E c k w it w1 -> not_end c it ->
  reachable E w1 /\ exists i u k' v, unordered_nth c i w1 = Val it w1 /\ hash_order E c w1 u /\
    nth_error u i = Some (k', v) /\ key_equal E k k' = true.
Proof. exact @returned_iterator. Qed.
Print Assumptions C26_returned_iterators.
Theorem C26_comparison : forall (K V : Type) (E : env K V), good E ->
  forall w c l u i j it ot it1 ot1, reachable E w -> contents E c w l -> hash_order E c w u ->
  unordered_nth c i w = Val it w -> u_used w it it1 -> ordered_nth c j w = Val ot w -> o_used E w ot ot1 ->
  exists b, ou_eq ot1 it1 w = Val b w /\ (b = true <-> nth_error l j = nth_error u i).
Proof. exact @compare. Qed.
Print Assumptions C26_comparison.
Theorem C26_comparison_other_cache : forall (K V : Type) (E : env K V),
  forall w c d i j it ot it1 ot1, c <> d -> ordered_nth c j w = Val ot w -> o_used E w ot ot1 ->
  unordered_nth d i w = Val it w -> u_used w it it1 -> ou_eq ot1 it1 w = Val false w.
Proof. exact @compare_other. Qed.
Print Assumptions C26_comparison_other_cache.
Definition two_ops : list (op nat nat) := full_ops ++ [New 3 None; Insert 1 2 20].
Definition two := world_after E0 two_ops.
Example C26_case : reachable E0 two /\ contents E0 0 two [(1, 10); (3, 30); (2, 20)] /\
  hash_order E0 0 two [(3, 30); (2, 20); (1, 10)] /\
  (exists it ot o2, unordered_nth 0 1 two = Val it two /\ u_used two it it /\ o_from_u it two = Val ot two /\
     ordered_nth 0 2 two = Val ot two /\ ou_eq ot it two = Val true two /\
     ordered_nth 0 1 two = Val o2 two /\ ou_eq o2 it two = Val false two) /\
  (exists it ot, unordered_nth 0 3 two = Val it two /\ o_from_u it two = Exc InvalidIteratorConversion two /\
     ordered_nth 0 3 two = Val ot two /\ ou_eq ot it two = Val true two) /\
  (exists it ot, unordered_nth 1 0 two = Val it two /\ ordered_nth 0 2 two = Val ot two /\ ou_eq ot it two = Val false two) /\
  (exists it w1, iterator_for E0 0 3 two it w1 /\ not_end 0 it).
Proof.
  split; [reached|]. split; [vm_compute; reflexivity|]. split; [vm_compute; reflexivity|].
  split; [|split; [|split]].
  - do 3 eexists. split; [vm_compute; reflexivity|]. split; [left; reflexivity|]. ands; vm_compute; reflexivity.
  - do 2 eexists. ands; vm_compute; reflexivity.
  - do 2 eexists. ands; vm_compute; reflexivity.
  - do 2 eexists. split; [apply for_find; vm_compute; reflexivity|]. reflexivity.
Qed.

(** C56.  Refuted as stated: an insertion may rebuild the hash table. *)
Definition ER := rehash_env still.
Definition C56_world := world_after ER [New 3 None; Insert 0 1 10; Insert 0 2 20].
Theorem C56_survives_insertion_refuted : exists it w1 w2,
  good ER /\ reachable ER C56_world /\ iterator_for ER 0 1 C56_world it w1 /\ not_end 0 it /\
  exec ER (Insert 0 3 30) w1 = Val (RIns true (Some (3, 30))) w2 /\
  contents ER 0 w2 [(2, 20); (1, 10); (3, 30)] /\
  u_deref it w2 = Undef RehashedIterator.
Proof.
  do 3 eexists. split; [apply rehash_good|]. split; [reached|].
  split; [apply for_find; vm_compute; reflexivity|]. split; [reflexivity|]. ands; vm_compute; reflexivity.
Qed.
Print Assumptions C56_survives_insertion_refuted.
(** ... it holds, across all kept histories and not only insertions, for iterators
    that were dereferenced before, for histories that insert nothing, and if the
    hash table is never rebuilt. *)
Theorem C56_iterator_follows_partial : forall (K V : Type) (E : env K V), good E ->
  forall c k w it w1 it1 ops c' w', reachable E w -> iterator_for E c k w it w1 -> not_end c it ->
  u_used w1 it it1 -> kept E k c w1 ops c' w' ->
  it1 <> it \/ forallb inserts_nothing ops = true \/ (forall t, rehash E t = false) ->
  exists l k' v, contents E c' w' l /\ look E k l = Some (k', v) /\ u_shows it1 w' k' v.
Proof. exact @unordered_follows. Qed.
Print Assumptions C56_iterator_follows_partial.
Definition C56_between : list (op nat nat) := [Insert 0 3 30; Insert 0 1 11; Insert 0 4 40].
Example C56_case : exists it w1 it1 w', reachable ER C56_world /\ iterator_for ER 0 1 C56_world it w1 /\
  not_end 0 it /\ u_used w1 it it1 /\ it1 <> it /\ kept ER 1 0 w1 C56_between 0 w' /\
  contents ER 0 w' [(3, 30); (1, 11); (4, 40)] /\ u_shows it1 w' 1 11.
Proof.
  do 3 eexists. exists (world_after ER ([New 3 None; Insert 0 1 10; Insert 0 2 20; Find 0 1] ++ C56_between)).
  split; [reached|]. split; [apply for_find; vm_compute; reflexivity|]. split; [reflexivity|].
  split; [right; eexists; vm_compute; reflexivity|]. split; [discriminate|]. split; [|split].
  - unfold C56_between. do 3 keep_on. keep_end.
  - vm_compute; reflexivity.
  - eexists _, _. split; vm_compute; reflexivity.
Qed.
Example C56_case2 : exists it w1 w', reachable ER C56_world /\ iterator_for ER 0 1 C56_world it w1 /\
  not_end 0 it /\ kept ER 1 0 w1 [Erase 0 2; Find 0 1; SetCapacity 0 7] 0 w' /\
  forallb inserts_nothing [Erase (V := nat) 0 2; Find 0 1; SetCapacity 0 7] = true /\ u_shows it w' 1 10.
Proof.
  do 2 eexists. exists (world_after ER ([New 3 None; Insert 0 1 10; Insert 0 2 20; Find 0 1] ++ [Erase 0 2; Find 0 1; SetCapacity 0 7])).
  split; [reached|]. split; [apply for_find; vm_compute; reflexivity|]. split; [reflexivity|].
  split; [|split; [reflexivity|]].
  - do 3 keep_on. keep_end.
  - eexists _, _. split; vm_compute; reflexivity.
Qed.

(** C65. *)
Theorem C65_reference_follows : forall (K V : Type) (E : env K V), good E ->
  forall c k w p w1 ops c' w', reachable E w -> alive w c = true ->
  lookup E c k w = Val p w1 -> kept E k c w1 ops c' w' ->
  exists l k' v, contents E c' w' l /\ look E k l = Some (k', v) /\ shows p w' k' v.
Proof. exact @lookup_follows. Qed.
Print Assumptions C65_reference_follows.
Definition C65_between : list (op nat nat) :=
  [Insert 0 3 30; Insert 0 1 11; Insert 0 4 40; New 2 None; Swap 0 1; Erase 1 3; Insert 1 1 12; Insert 0 9 90].
Example C65_case : exists p w1 w', reachable ER C56_world /\ lookup ER 0 1 C56_world = Val p w1 /\
  kept ER 1 0 w1 C65_between 1 w' /\ shows p w' 1 12.
Proof.
  do 2 eexists. exists (world_after ER ([New 3 None; Insert 0 1 10; Insert 0 2 20; Lookup 0 1] ++ C65_between)).
  split; [reached|]. split; [vm_compute; reflexivity|]. split; [|vm_compute; reflexivity].
  unfold C65_between. do 8 keep_on. keep_end.
Qed.

(** C66.  Refuted for ordered iterators not yet dereferenced: they look their
    element up in the object they were made from, which no longer has it. *)
Theorem C66_ordered_refuted : exists it w',
  good E0 /\ reachable E0 two /\ contents E0 0 two [(1, 10); (3, 30); (2, 20)] /\
  ordered_nth 0 0 two = Val it two /\ kept E0 1 0 two [Swap 0 1] 1 w' /\
  contents E0 1 w' [(1, 10); (3, 30); (2, 20)] /\ o_deref E0 it w' = Undef PastTheEnd.
Proof.
  eexists _, (world_after E0 (two_ops ++ [Swap 0 1])). split; [apply ex_good|]. split; [reached|].
  split; [vm_compute; reflexivity|]. split; [vm_compute; reflexivity|]. split; [keep_on; keep_end|].
  ands; vm_compute; reflexivity.
Qed.
Print Assumptions C66_ordered_refuted.
(** The element may even be confused with another one of the same key: the
    iterator was made for 2 -> 20 of cache 0 and shows 2 -> 99 of cache 1. *)
Theorem C66_ordered_confused_refuted : exists w it w', good E0 /\ reachable E0 w /\
  contents E0 0 w [(1, 10); (2, 20)] /\ contents E0 1 w [(2, 99)] /\
  ordered_nth 0 1 w = Val it w /\ exec E0 (Swap 0 1) w = Val RUnit w' /\
  contents E0 1 w' [(1, 10); (2, 20)] /\ o_shows E0 it w' 2 99.
Proof.
  exists (world_after E0 [New 3 None; Insert 0 1 10; Insert 0 2 20; New 3 None; Insert 1 2 99]).
  do 2 eexists. split; [apply ex_good|]. split; [reached|].
  split; [vm_compute; reflexivity|]. split; [vm_compute; reflexivity|]. split; [vm_compute; reflexivity|].
  split; [vm_compute; reflexivity|]. split; [vm_compute; reflexivity|].
  eexists _, _. split; vm_compute; reflexivity.
Qed.
Print Assumptions C66_ordered_confused_refuted.
(** ... once dereferenced they follow their element from cache to cache (and
    unordered iterators do: [C56_iterator_follows_partial], where [c'] may differ from [c]). *)
Theorem C66_used_iterator_follows_partial : forall (K V : Type) (E : env K V), good E ->
  forall w c l n k v it p it1 ops c' w', reachable E w -> contents E c w l ->
  nth_error l n = Some (k, v) -> ordered_nth c n w = Val it w -> o_deref E it w = Val (p, it1) w ->
  kept E k c w ops c' w' ->
  exists l' v', contents E c' w' l' /\ look E k l' = Some (k, v') /\ o_shows E it1 w' k v'.
Proof. exact @used_follows. Qed.
Print Assumptions C66_used_iterator_follows_partial.
Example C66_case : exists it p it1 w', reachable E0 two /\ contents E0 0 two [(1, 10); (3, 30); (2, 20)] /\
  ordered_nth 0 0 two = Val it two /\ o_deref E0 it two = Val (p, it1) two /\
  kept E0 1 0 two [Swap 0 1; Insert 1 1 11; Insert 1 5 50] 1 w' /\ o_shows E0 it1 w' 1 11.
Proof.
  do 3 eexists. exists (world_after E0 (two_ops ++ [Swap 0 1; Insert 1 1 11; Insert 1 5 50])).
  split; [reached|]. split; [vm_compute; reflexivity|]. split; [vm_compute; reflexivity|].
  split; [vm_compute; reflexivity|]. split; [do 3 keep_on; keep_end|].
  eexists _, _. split; vm_compute; reflexivity.
Qed.
