(** Vocabulary: what a client that keeps its own books knows about monitoring and
    statistics, in histories in which caches may be copied, assigned, moved and
    destroyed. *)
From Coq Require Import List Arith ZArith Bool.
Import ListNotations.
From Verif Require Import Monad Types Model Api Spec SpecStats.
Set Implicit Arguments.

Section SpecTally.
Context {K V : Type}.

(** The books: [feeds c = None] if there is no cache [c]; [Some None] if it is not
    monitored, and [Some (Some s)] if its accesses go to statistics object [s].
    [page s]: what happened to statistics object [s], the latest first. *)
Record tally : Type := MkTally { feeds : nat -> option (option nat); page : nat -> list (@bevent K) }.
Definition no_tally : tally := MkTally (fun _ => None) (fun _ => []).
Definition enter (c : nat) (x : option (option nat)) (t : tally) : tally :=
  MkTally (fun d => if Nat.eqb d c then x else feeds t d) (page t).
Definition open_page (s : nat) (b : list (@bevent K)) (t : tally) : tally :=
  MkTally (feeds t) (fun i => if Nat.eqb i s then b else page t i).
(** An event of the statistics object cache [c] feeds. *)
Definition write (c : nat) (e : @bevent K) (t : tally) : tally :=
  match feeds t c with Some (Some s) => open_page s (e :: page t s) t | _ => t end.

(** One call and its outcome.  A new cache is not monitored; a cache moved into
    from another is new; a copy feeds what the original feeds, and so does a cache
    after it was assigned another. *)
Definition account (o : op K V) (r : outcome K V) (t : tally) : tally :=
  match access_of o r with
  | Some (c, k, hit) => write c (BAccess k hit) t
  | None =>
      match o, r with
      | New _ _, Returned (RNat c) | NewFrom _ _ _, Returned (RNat c) | NewIters _ _, Returned (RNat c)
      | NewMove _ _ _, Returned (RNat c) | NewRvalue _ _, Returned (RNat c) | NewList _ _, Returned (RNat c)
      | Move _, Returned (RNat c) => enter c (Some None) t
      | Copy d, Returned (RNat c) => enter c (feeds t d) t
      | CopyAssign c d, Returned RUnit => enter c (feeds t d) t
      | Destroy c, Returned RUnit => enter c None t
      | MonitorNew c ks, Returned (RNat s) => enter c (Some (Some s)) (open_page s (rev (map BMonitor ks)) t)
      | MonitorShared c s, Returned RUnit => enter c (Some (Some s)) t
      | StopMonitoring c, Returned RUnit => enter c (Some None) t
      | StatsMonitor c k, Returned RUnit => write c (BMonitor k) t
      | StatsUnmonitor c k, Returned RUnit => write c (BUnmonitor k) t
      | StatsUnmonitorAll c, Returned RUnit => write c BUnmonitorAll t
      | StatsResetKey c k, Returned RUnit => write c (BReset k) t
      | _, _ => t
      end
  end.
Fixpoint accounts (ops : list (op K V)) (outs : list (outcome K V)) (t : tally) : tally :=
  match ops, outs with
  | o :: l, r :: rs => accounts l rs (account o r t)
  | _, _ => t
  end.
Definition tally_of ops outs := accounts ops outs no_tally.

(** The accesses made through cache [c] while it feeds statistics object [s], since
    [s] was made. *)
Fixpoint through (c s : nat) (ops : list (op K V)) (outs : list (outcome K V)) (t : tally) : list (K * bool) :=
  match ops, outs with
  | o :: l, r :: rs =>
      match access_of o r with
      | Some (c', k, hit) =>
          if Nat.eqb c' c && match feeds t c with Some (Some s') => Nat.eqb s' s | _ => false end
          then [(k, hit)] else []
      | None => []
      end ++ through c s l rs (account o r t)
  | _, _ => []
  end.
End SpecTally.
Arguments tally : clear implicits.
