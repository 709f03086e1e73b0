(** Client code that asks a cache for its callbacks, keeps references to the containers and calls the
    functions in them.

    A reference to a container refers to a member of the cache object (bc:1579, cm:148-154), so it is
    as good as the object.  A callback is named by its number, as in Model.v: copies of a
    std::function have the number of the original.
    Simplification: copying a std::function does not throw. *)
From Coq Require Import List Arith ZArith Bool.
Import ListNotations.
From Verif Require Import Monad Types Model Api.
Set Implicit Arguments.
Local Open Scope cpp_scope.

(** The three containers (cm:148-154). *)
Inductive kind : Type := OnHit | OnMiss | OnAccess.
Definition select (q : kind) : callbacks -> list nat :=
  match q with OnHit => hit_cbs | OnMiss => miss_cbs | OnAccess => acc_cbs end.

Section CbRefs.
Context {K V : Type}.
Variable E : env K V.
Notation world := (world K V).

Inductive kop : Type :=
| KCall (o : op K V)                                (* any call on caches *)
| KList (q : kind) (c : nat)                        (* auto l = c.hit_callbacks() *)
| KBind (r : nat) (q : kind) (c : nat)              (* const auto& r = c.hit_callbacks() *)
| KRead (r : nat)                                   (* auto l = r *)
| KEach (r : nat) (k : K) (v : V) (b : bool).       (* for (auto& f : r) f(k, v), f(k) or f(k, b) *)

Inductive kout : Type :=
| KO (x : out K V)
| KIds (l : list nat).

Record kstate : Type := MkK {
  k_world : world;
  k_refs : nat -> option (kind * nat)               (* container, cache *)
}.
Definition init_kstate : kstate := MkK (@init_world K V) (fun _ => None).
Notation KM := (M kstate).
Definition k_in {A} (m : M world A) : KM A := fun st =>
  match m (k_world st) with
  | Val a w => Val a (MkK w (k_refs st))
  | Exc e w => Exc e (MkK w (k_refs st))
  | Undef u => Undef u
  | Term e => Term e
  end.

(** bc:1367-1379, cm:115-128 hit_callbacks(), miss_callbacks(), access_callbacks() *)
Definition container (q : kind) (c : nat) : M world (list nat) :=
  x <- get_cache c;; ret (select q (c_cbs x)).
(** What a function in a container is called with. *)
Definition event_of (q : kind) (k : K) (v : V) (b : bool) (id : nat) : cbevent K V :=
  match q with OnHit => EvHit id k v | OnMiss => EvMiss id k | OnAccess => EvAccess id k b end.

Definition kexec (p : kop) : KM kout := fun st =>
  match p with
  | KCall o => (x <- k_in (exec E o);; ret (KO x)) st
  | KList q c => if alive (k_world st) c then (l <- k_in (container q c);; ret (KIds l)) st else Val (KO RIll) st
  | KBind r q c =>
      if alive (k_world st) c
      then Val (KO RUnit) (MkK (k_world st) (fun x => if Nat.eqb x r then Some (q, c) else k_refs st x))
      else Val (KO RIll) st
  | KRead r =>
      match k_refs st r with
      | Some (q, c) => (l <- k_in (container q c);; ret (KIds l)) st
      | None => Val (KO RIll) st
      end
  | KEach r k v b =>
      match k_refs st r with
      | Some (q, c) => (k_in (call_each E (select q) c (fun id => ret (event_of q k v b id)));;; ret (KO RUnit)) st
      | None => Val (KO RIll) st
      end
  end.

End CbRefs.
Arguments kop : clear implicits.
Arguments kout : clear implicits.
Arguments kstate : clear implicits.
