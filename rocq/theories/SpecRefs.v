(** Vocabulary for the theorems about reference arguments (C73) and caches used
    as ranges (C74 to C79). *)
From Coq Require Import List Arith ZArith Bool.
Import ListNotations.
From Verif Require Import Monad Types Model Api Refs.
Set Implicit Arguments.

Section SpecRefs.
Context {K V : Type}.

(** Callbacks that leave the elements of all caches alone.  They may throw, and
    change anything else. *)
Definition hands_off (E : env K V) : Prop :=
  forall ev w, match cb E ev w with
               | Val _ w' | Exc _ w' => w_stores w' = w_stores w
               | _ => True
               end.

(** The object a reference refers to; [None]: it dangles. *)
Definition key_of (w : world K V) (a : karg K) : option K :=
  match a with
  | KLoc k => Some k
  | KIn p => match deref p w with Val n _ => Some (n_key n) | _ => None end
  end.
Definition value_of (w : world K V) (b : varg V) : option V :=
  match b with
  | VLoc v => Some v
  | VIn p => match deref p w with Val n _ => Some (n_val n) | _ => None end
  end.

(** The call with copies of the arguments in place of the references. *)
Definition by_value (w : world K V) (r : rcall K V) : option (op K V) :=
  let key a f := option_map f (key_of w a) in
  let both a b f := match key_of w a, value_of w b with
                    | Some k, Some v => Some (f k v)
                    | _, _ => None
                    end in
  match r with
  | PInsert c a b => both a b (Insert c)
  | PEmplace c a b => both a b (Emplace c)
  | PFind c a => key a (Find c)
  | PFindEntry c a => key a (FindEntry c)
  | PContains c a => key a (Contains c)
  | PLookup c a => key a (Lookup c)
  | PWrite c a b => both a b (Write c)
  | PErase c a => key a (Erase c)
  | PEraseFound c a => key a (EraseFound c)
  | PHasExpired c a => key a (HasExpired c)
  | PStatsFor c a => key a (StatsFor c)
  | PStatsMonitor c a => key a (StatsMonitor c)
  | PStatsUnmonitor c a => key a (StatsUnmonitor c)
  | PStatsResetKey c a => key a (StatsResetKey c)
  | PStatsIsMonitoring c a => key a (StatsIsMonitoring c)
  | _ => None
  end.

(** The elements of cache [d] in the order of its ordered ([o]) or unordered
    iterators. *)
Definition elements (E : env K V) (o : bool) (d : nat) (w : world K V) (l : list (K * V)) : Prop :=
  exec E (if o then Ordered d else Unordered d) w = Val (REnts l) w.

(** The world in which each value of cache [d] was moved from. *)
Definition hollow (husk : V -> V) (d : nat) (w : world K V) : world K V :=
  match slot (w_caches w) d with
  | Some x => with_stores (fun ss => upd ss (c_rid x)
      (option_map (fun s => MkStore (map (fun p => (fst p,
           MkNode (n_key (snd p)) (husk (n_val (snd p))) (n_ord (snd p)) (n_time (snd p)))) (s_map s))
           (s_ord s) (s_next s) (s_epoch s)) (slot ss (c_rid x)))) w
  | None => w
  end.

(** The same outcome with another value. *)
Definition giving {A B} (f : A -> B) (r : res (world K V) A) : res (world K V) B :=
  match r with
  | Val a w => Val (f a) w
  | Exc e w => Exc e w
  | Undef u => Undef u
  | Term e => Term e
  end.

End SpecRefs.
