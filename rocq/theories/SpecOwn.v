(** Vocabulary: keys that were inserted into a cache itself. *)
From Coq Require Import List Arith ZArith Bool.
Import ListNotations.
From Verif Require Import Monad Types Model Api Spec SpecAny.
Set Implicit Arguments.

Section SpecOwn.
Context {K V : Type}.
Variable E : env K V.
Notation world := (world K V).

(** Calls on cache [c] by one of the keys [ks]. *)
Inductive uses (c : nat) (ks : list K) (w : world) : op K V -> Prop :=
| use_find k : In k ks -> uses c ks w (Find c k)
| use_erase k : In k ks -> uses c ks w (Erase c k)
| use_put k v o : In k ks -> puts c k v o -> uses c ks w o
| use_contains k : In k ks -> ttl_of c w None -> uses c ks w (Contains c k)
| use_lookup k : In k ks -> ttl_of c w None -> uses c ks w (Lookup c k).

(** [o] inserts into cache [c] the key [k], which it does not have. *)
Definition adds (c : nat) (k : K) (w : world) (o : op K V) : Prop :=
  exists v l n, puts c k v o /\ contents E c w l /\ capacity_is E c w n /\ 0 < n /\ has E k l = false.

(** Calls on whole caches that do not change cache [c]. *)
Inductive elsewhere (c : nat) : op K V -> Prop :=
| else_new n t : elsewhere c (New n t)
| else_copy d : elsewhere c (Copy d)
| else_assign d e : d <> c -> d <> e -> elsewhere c (CopyAssign d e)
| else_clear d : d <> c -> elsewhere c (Clear d)
| else_destroy d : d <> c -> elsewhere c (Destroy d).

(** A program reached some world by any calls, and since then it has inserted the
    (then new) keys [ks] into cache [c], or has constructed it or emptied it (and then
    [ks] are any keys); all other calls since were insertions of new keys into any
    caches, calls by keys so inserted, and calls on whole caches that do not change [c]. *)
Inductive since : nat -> list K -> world -> Prop :=
| since_first w c k o r w' : attained E w -> adds c k w o -> exec E o w = Val r w' -> since c [k] w'
| since_more w c ks k o r w' : since c ks w -> adds c k w o -> exec E o w = Val r w' -> since c (k :: ks) w'
| since_other w c ks d k o r w' : since c ks w -> d <> c -> adds d k w o -> exec E o w = Val r w' -> since c ks w'
| since_use w c ks d js o r w' : since c ks w -> since d js w -> uses d js w o -> call E o w r w' -> since c ks w'
| since_clear w c ks n r w' : attained E w -> capacity_is E c w n -> 0 < n -> exec E (Clear c) w = Val r w' -> since c ks w'
| since_new w c ks n t w' : attained E w -> 0 < n -> exec E (New n t) w = Val (RNat c) w' -> since c ks w'
| since_else w c ks o r w' : since c ks w -> elsewhere c o -> exec E o w = Val r w' -> since c ks w'.
End SpecOwn.
