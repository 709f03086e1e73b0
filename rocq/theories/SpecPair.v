(** Specification vocabulary for calls on two caches: swap, move, comparison. *)
From Coq Require Import List Arith ZArith Bool.
Import ListNotations.
From Verif Require Import Monad Types Model Api Spec SpecStats SpecTimed.
Set Implicit Arguments.

(** The same environment, with times to live in units of the clock. *)
Definition exact {K V} (E : env K V) : env K V :=
  MkEnv (key_equal E) (key_eqop E) (val_eqop E) (place E) (rehash E) (clock E)
        (fun z => z) (junk E) (lenient_end E) (fails E) (cb E).

(** operator== of keys is KeyEqual; operator== of values is an equivalence. *)
Record equality_good {K V} (E : env K V) : Prop := {
  eq_key : forall a b, key_eqop E a b = key_equal E a b;
  eq_refl_v : forall v, val_eqop E v v = true;
  eq_sym_v : forall u v, val_eqop E u v = val_eqop E v u;
  eq_trans_v : forall u v x, val_eqop E u v = true -> val_eqop E v x = true -> val_eqop E u x = true
}.

Section SpecPair.
Context {K V : Type}.
Variable E : env K V.

Notation world := (world K V).

(** The element [k] of timed cache [c] was inserted at time [t]: it has expired
    from the moment the time to live has passed since [t]. *)
Definition born (c : nat) (w : world) (k : K) (t : Z) : Prop :=
  exists d, ttl_of c w (Some d) /\ forall z, old (exact E) c w k z <-> (d < z - t)%Z.

(** Cache [c] of world [w] holds the same elements, in the same order, with the
    same capacity and insertion times, as cache [d] of world [w']. *)
Definition same_elements (c : nat) (w : world) (d : nat) (w' : world) : Prop :=
  (forall l, contents E c w l <-> contents E d w' l) /\
  (forall n, capacity_is E c w n <-> capacity_is E d w' n) /\
  (forall k t, born c w k t <-> born d w' k t).

(** The object [c] has the same statistics object and callbacks in both worlds. *)
Definition keeps_books (c : nat) (w w' : world) : Prop :=
  exists x y, slot (w_caches w) c = Some x /\ slot (w_caches w') c = Some y /\
              c_stats x = c_stats y /\ c_cbs x = c_cbs y.

(** Two elements are equal. *)
Definition equal_pair (p q : K * V) : Prop :=
  key_eqop E (fst p) (fst q) = true /\ val_eqop E (snd p) (snd q) = true.
(** ... and were inserted at the same time. *)
Definition equal_times (c : nat) (d : nat) (w : world) (p q : K * V) : Prop :=
  equal_pair p q /\ forall t, born c w (fst p) t <-> born d w (fst q) t.

End SpecPair.
