(** Property theorems: copying and moving of keys and values. *)
From Coq Require Import List Arith ZArith Bool Permutation Lia.
Import ListNotations.
From Verif Require Import Monad Types Model Api EnvEx Spec ExBase Moves SpecMoves MoveProofs.

(** C86.  "Caches are 100% move-aware."  Refuted: emplace of a key that is present copies the
    value, even when an rvalue was passed; so does the insertion of an rvalue range. *)
Theorem C86_emplace_refuted : exists (E : env nat nat) w h1 h2, good E /\ reachable E w /\
  t_exec E ByMove ByMove (Emplace 0 1 11) (uncharged w) = Val (RIns false (Some (1, 11))) h1 /\
  val_copies (t_tally h1) = 1 /\
  t_exec E ByMove ByMove (InsertMove 0 [(1, 11); (2, 12); (3, 13)]) (uncharged w) = Val (RNat 0) h2 /\
  val_copies (t_tally h2) = 3.
Proof.
  exists E0, full. eexists. eexists. split; [apply ex_good|]. split; [exact full_reachable|].
  split; [vm_compute; reflexivity|]. split; [vm_compute; reflexivity|].
  split; [vm_compute; reflexivity|vm_compute; reflexivity].
Qed.
Print Assumptions C86_emplace_refuted.
(** The largest true part.  What every call that stores elements copies and moves: with [m]
    insertions of which [new] add an element, insert copies [new] keys and [m] values; emplace and
    rvalue ranges copy no key and [m - new] values. *)
Theorem C86_price_partial : forall (K V : Type) (E : env K V), good E ->
  forall a b o price l s h, reachable E (t_world h) -> stores E (t_world h) a b o price l s ->
  exists r h', t_exec E a b o h = Val r h' /\
    t_tally h' = plus (t_tally h) (price (done l s) (fst (lputs E l s))).
Proof. exact @stored. Qed.
Print Assumptions C86_price_partial.
(** Nothing is copied if nothing is passed by copy and every key is new. *)
Theorem C86_new_keys_partial : forall (K V : Type) (E : env K V), good E ->
  forall a b a' b' o l s h, reachable E (t_world h) -> stores E (t_world h) a b o (emplace_price a' b') l s ->
  a' <> ByCopy -> b' <> ByCopy -> distinct E l -> (forall p, In p l -> has E (fst p) (items s) = false) ->
  exists r h', t_exec E a b o h = Val r h' /\
    key_copies (t_tally h') = key_copies (t_tally h) /\ val_copies (t_tally h') = val_copies (t_tally h).
Proof. exact @nothing_copied. Qed.
Print Assumptions C86_new_keys_partial.
(** Apart from counting, the calls are those the other theorems are about. *)
Theorem C86_same_calls_partial : forall (K V : Type) (E : env K V) a b o h, storing o = true ->
  uncounted (t_exec E a b o h) = exec E o (t_world h).
Proof. exact @same_calls. Qed.
Print Assumptions C86_same_calls_partial.
(** The numbers of the project's own tests, and larger cases: a full cache, in which an rvalue range
    of a new, a present and a repeated key is inserted; a constructor. *)
Example C86_case :
  stores E0 full ByMove ByMove (InsertMove 0 [(4, 40); (2, 21); (4, 41)]) (emplace_price ByMove ByMove)
    [(4, 40); (2, 21); (4, 41)] (Lru 3 [(2, 20); (3, 30); (1, 10)]) /\
  fst (lputs E0 [(4, 40); (2, 21); (4, 41)] (Lru 3 [(2, 20); (3, 30); (1, 10)])) = 1 /\
  (exists h', t_exec E0 ByMove ByMove (InsertMove 0 [(4, 40); (2, 21); (4, 41)]) (uncharged full) = Val (RNat 1) h' /\
     t_tally h' = MkTally 0 4 2 4) /\
  stores E0 full ByMove ByParts (Emplace 0 7 70) (emplace_price ByMove ByParts) [(7, 70)] (Lru 3 [(2, 20); (3, 30); (1, 10)]) /\
  distinct E0 [(7, 70)] /\ has E0 7 [(2, 20); (3, 30); (1, 10)] = false /\
  (exists h', t_exec E0 ByMove ByParts (Emplace 0 7 70) (uncharged full) = Val (RIns true (Some (7, 70))) h' /\
     t_tally h' = MkTally 0 2 0 1) /\
  (exists h', t_exec E0 ByMove ByMove (Insert 0 7 70) (uncharged full) = Val (RIns true (Some (7, 70))) h' /\
     t_tally h' = MkTally 1 0 1 1) /\
  (exists h', t_exec E0 ByCopy ByCopy (NewList None [(1, 10); (2, 20); (1, 11)]) (uncharged full) = Val (RNat 1) h' /\
     t_tally h' = MkTally 2 0 3 2).
Proof.
  split; [exact (@stores_rvalue nat nat E0 full ByMove ByMove 0 [(4, 40); (2, 21); (4, 41)] _ 3 full_contents full_capacity)|].
  split; [reflexivity|].
  split; [eexists; split; [vm_compute; reflexivity|vm_compute; reflexivity]|].
  split; [exact (@stores_emplace nat nat E0 full ByMove ByParts 0 7 70 _ 3 full_contents full_capacity)|].
  split; [split; [reflexivity|exact I]|]. split; [reflexivity|].
  split; [eexists; split; [vm_compute; reflexivity|vm_compute; reflexivity]|].
  split; [eexists; split; [vm_compute; reflexivity|vm_compute; reflexivity]|].
  eexists; split; [vm_compute; reflexivity|vm_compute; reflexivity].
Qed.
