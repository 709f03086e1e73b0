(** The reference machine without monads.  A call on one cache [c] is a function
    [local] of that cache and of the number of clock readings made so far; it
    yields the outcome, the new cache, what is reported to statistics and
    callbacks, and how many times the clock is read. *)
From Coq Require Import List Arith ZArith Bool Permutation Lia.
Import ListNotations.
From Verif Require Import Monad Types Model Api Spec Ref Lists SimBase SimRel SimOps SimIns SimErase SimIter SimNew SimObs SimExec RefEval SimRun LruProofs.
Set Implicit Arguments.
Unset Strict Implicit.
Local Open Scope cpp_scope.

Section Flat.
Context {K V : Type}.
Variable E : env K V.

Notation entry := (entry K V).
Notation acache := (acache K V).
Notation aworld := (aworld K V).
Notation out := (out K V).
Implicit Types (a : acache) (aw : aworld) (e : entry).

Inductive note : Type := Quiet | HitOf (k : K) (v : V) | MissOf (k : K).
Definition noted a (x : note) aw : aworld :=
  match x with Quiet => aw | HitOf k v => hitw E a k v aw | MissOf k => missw E a k aw end.
Definition ticks (m : nat) aw : aworld :=
  MkAW (aw_caches aw) (aw_stats aw) (aw_log aw) (m + aw_reads aw).

Definition ans (A : Type) : Type := (res unit A * acache * note * nat)%type.
Definition give {A} c a (r : ans A) aw : res aworld A :=
  let '(o, a', x, m) := r in
  let aw' := awith c a' (noted a x (ticks m aw)) in
  match o with
  | Val v _ => Val v aw'
  | Exc e _ => Exc e aw'
  | Undef u => Undef u
  | Term e => Term e
  end.
Definition val {A} (v : A) : res unit A := Val v tt.
Definition exc {A} (e : exn) : res unit A := Exc e tt.

(** Clock readings of one expiry check. *)
Definition tkn a : nat := match a_ttl a with None => 0 | Some _ => 1 end.
Definition stamp_at a (n : nat) : Z := match a_ttl a with None => 0%Z | Some _ => clock E n end.

Definition l_find k a n : ans (option entry) :=
  match lookup_ent E k (a_ents a) with
  | None => (val None, a, MissOf k, 0)
  | Some e =>
      if stale E (a_ttl a) e n then (val None, a, MissOf k, tkn a)
      else (val (Some e), bump E k e a, HitOf k (e_val e), tkn a)
  end.
Definition l_contains k a n : ans bool :=
  match a_hot_ent E a k with
  | Some e =>
      if stale E (a_ttl a) e n then (val false, a, Quiet, tkn a)
      else (val true, a, HitOf k (e_val e), tkn a)
  | None =>
      match lookup_ent E k (a_ents a) with
      | None => (val false, a, MissOf k, 0)
      | Some e =>
          if stale E (a_ttl a) e n then (val false, a, MissOf k, tkn a)
          else (val true, bump E k e a, HitOf k (e_val e), tkn a)
      end
  end.
Definition l_lookup k a n : ans entry :=
  match a_hot_ent E a k with
  | Some e =>
      if stale E (a_ttl a) e n then (exc KeyExpired, a, Quiet, tkn a)
      else (val e, a, HitOf k (e_val e), tkn a)
  | None =>
      match lookup_ent E k (a_ents a) with
      | None => (exc KeyNotFound, a, MissOf k, 0)
      | Some e =>
          if stale E (a_ttl a) e n then (exc KeyNotFound, a, MissOf k, tkn a)
          else if stale E (a_ttl a) e (tkn a + n)
               then (exc KeyExpired, bump E k e a, HitOf k (e_val e), tkn a + tkn a)
               else (val e, bump E k e a, HitOf k (e_val e), tkn a + tkn a)
      end
  end.

Definition l_insert_ticks k a : nat :=
  if Nat.eqb (a_cap a) 0 then 0
  else match lookup_ent E k (a_ents a) with None => tkn a | Some _ => 0 end.
(** Range insertion: number of new elements, cache, clock readings. *)
Fixpoint l_inserts (l : list (K * V)) (cnt : nat) a (n : nat) : nat * acache * nat :=
  match l with
  | [] => (cnt, a, n)
  | p :: t =>
      let r := insert_c E (fst p) (snd p) (stamp_at a n) a in
      l_inserts t (if fst (fst r) then S cnt else cnt) (snd r) (l_insert_ticks (fst p) a + n)
  end.
Definition with_cap n a : acache := MkA (a_ents a) (a_hot a) n (a_stats a) (a_cbs a) (a_ttl a).
Definition keep n a : acache := set_ents (lastn n (a_ents a)) (if Nat.eqb n 0 then false else a_hot a) a.
Definition removed k a : acache := set_ents (remove_ent E k (a_ents a)) (hot_after E a k) a.
Definition with_cbs f a : acache := MkA (a_ents a) (a_hot a) (a_cap a) (a_stats a) (f (a_cbs a)) (a_ttl a).
Definition with_st s a : acache := MkA (a_ents a) (a_hot a) (a_cap a) s (a_cbs a) (a_ttl a).
(** clear_expired: number removed, cache, clock readings. *)
Fixpoint l_clear (l : list entry) a (n cnt : nat) : nat * acache * nat :=
  match l with
  | [] => (cnt, a, n)
  | e :: t => if stale E (a_ttl a) e n then l_clear t (removed (e_key e) a) (tkn a + n) (S cnt)
              else (cnt, a, tkn a + n)
  end.

(** The cache a call works on, if it works on one only. *)
Definition target (o : op K V) : option nat :=
  match o with
  | New _ _ | NewFrom _ _ _ | NewIters _ _ | NewMove _ _ _ | NewRvalue _ _ | NewList _ _
  | Copy _ | Move _ | Destroy _ | CopyAssign _ _ | MoveAssign _ _ | Swap _ _ | Equal _ _
  | MonitorNew _ _ | Totals _ | StatsFor _ _ | StatsMonitor _ _ | StatsUnmonitor _ _
  | StatsUnmonitorAll _ | StatsResetKey _ _ | StatsIsMonitoring _ _ | StatsNumber _ => None
  | AssignRange c _ | AssignMove c _
  | Insert c _ _ | Emplace c _ _ | InsertRange c _ | InsertMove c _
  | Find c _ | FindEntry c _ | Contains c _ | Lookup c _ | Write c _ _
  | Erase c _ | EraseFound c _ | EraseOrdered c _ | EraseUnordered c _
  | Clear c | Shrink c _ | SetCapacity c _ | ClearExpired c | Size c | Capacity c | SpaceLeft c
  | IsEmpty c | IsFull c | Front c | Back c | HasExpired c _ | AllExpired c
  | Ordered c | Backward c | Unordered c | EntryAt c _
  | ValidAt c _ | MonitorShared c _ | StopMonitoring c | IsMonitoring c
  | AddHit c _ | AddMiss c _ | AddAccess c _ | ClearHit c | ClearMiss c
  | ClearAccess c | ClearCallbacks c => Some c
  end.

Definition then_ {A B} (f : A -> B) (r : ans A) : ans B :=
  let '(o, a', x, m) := r in
  (match o with Val v s => Val (f v) s | Exc e s => Exc e s | Undef u => Undef u | Term e => Term e end, a', x, m).

Definition local (ch : nat) (o : op K V) a (n : nat) : ans out :=
  let obs r := (val r, a, Quiet, 0) in
  let upd a' := (val RUnit, a', Quiet, 0) in
  match o with
  | AssignRange _ l | AssignMove _ l =>
      let '(_, a', n') := l_inserts l 0 (with_cap (Nat.max (a_cap a) (length l)) (keep 0 a)) n in
      (val RUnit, a', Quiet, n' - n)
  | Insert _ k v | Emplace _ k v =>
      let r := insert_c E k v (stamp_at a n) a in
      (val (RIns (fst (fst r)) (option_map pair_of (snd (fst r)))), snd r, Quiet, l_insert_ticks k a)
  | InsertRange _ l | InsertMove _ l =>
      let '(cnt, a', n') := l_inserts l 0 a n in (val (RNat cnt), a', Quiet, n' - n)
  | Find _ k => then_ (fun r => ROpt (option_map pair_of r)) (l_find k a n)
  | FindEntry _ k =>
      match lookup_ent E k (a_ents a) with
      | None => (if lenient_end E then exc InvalidIterator else Undef PastTheEnd, a, MissOf k, 0)
      | Some e =>
          if stale E (a_ttl a) e n
          then (if lenient_end E then exc InvalidIterator else Undef PastTheEnd, a, MissOf k, tkn a)
          else if stale E (a_ttl a) e (tkn a + n)
               then (exc KeyExpired, bump E k e a, HitOf k (e_val e), tkn a + tkn a)
               else (val (ROpt (Some (pair_of e))), bump E k e a, HitOf k (e_val e), tkn a + tkn a)
      end
  | Contains _ k => then_ RBool (l_contains k a n)
  | Lookup _ k => then_ (fun e => RVal (e_val e)) (l_lookup k a n)
  | Write _ k v =>
      let '(r, a', x, m) := l_lookup k a n in
      match r with
      | Val e _ => (val RUnit, set_ents (remove_ent E k (a_ents a') ++ [Ent (e_key e) v (e_time e)]) (a_hot a') a', x, m)
      | Exc e s => (Exc e s, a', x, m)
      | Undef u => (Undef u, a', x, m)
      | Term e => (Term e, a', x, m)
      end
  | Erase _ k =>
      match lookup_ent E k (a_ents a) with
      | Some _ => (val (RBool true), removed k a, Quiet, 0)
      | None => obs (RBool false)
      end
  | EraseFound _ k =>
      let '(r, a', x, m) := l_find k a n in
      match r with
      | Val (Some e) _ => (val RUnit, removed (e_key e) a', x, m)
      | _ => (exc InvalidIterator, a', x, m)
      end
  | EraseOrdered _ i =>
      match nth_error (a_ents a) i with
      | None => (exc InvalidIterator, a, Quiet, 0)
      | Some e => if stale E (a_ttl a) e n then (exc KeyExpired, a, Quiet, tkn a)
                  else (val RUnit, removed (e_key e) a, Quiet, tkn a)
      end
  | EraseUnordered _ i =>
      if Nat.leb (length (a_ents a)) i then (exc InvalidIterator, a, Quiet, 0)
      else match nth_error (a_ents a) ch with
           | None => (exc InvalidIterator, a, Quiet, 0)
           | Some e => upd (removed (e_key e) a)
           end
  | Clear _ => upd (keep 0 a)
  | Shrink _ m => upd (keep m a)
  | SetCapacity _ m => upd (with_cap m (keep m a))
  | ClearExpired _ => let '(cnt, a', n') := l_clear (a_ents a) a n 0 in (val (RNat cnt), a', Quiet, n' - n)
  | Size _ => obs (RNat (length (a_ents a)))
  | Capacity _ => obs (RNat (a_cap a))
  | SpaceLeft _ => obs (RZ (wrap64 (Z.of_nat (a_cap a) - Z.of_nat (length (a_ents a)))))
  | IsEmpty _ => obs (RBool (Nat.eqb (length (a_ents a)) 0))
  | IsFull _ => obs (RBool (Nat.eqb (length (a_ents a)) (a_cap a)))
  | Front _ => match last_ent (a_ents a) with None => (Term EmptyCache, a, Quiet, 0) | Some e => obs (RKey (e_key e)) end
  | Back _ => match a_ents a with [] => (Term EmptyCache, a, Quiet, 0) | e :: _ => obs (RKey (e_key e)) end
  | HasExpired _ k =>
      match lookup_ent E k (a_ents a) with
      | None => obs (RBool false)
      | Some e => (val (RBool (stale E (a_ttl a) e n)), a, Quiet, tkn a)
      end
  | AllExpired _ =>
      match last_ent (a_ents a) with
      | None => obs (RBool true)
      | Some e => (val (RBool (stale E (a_ttl a) e n)), a, Quiet, tkn a)
      end
  | Ordered _ | Unordered _ => obs (REnts (map pair_of (a_ents a)))
  | Backward _ => obs (REnts (rev (map pair_of (a_ents a))))
  | EntryAt _ i =>
      match nth_error (a_ents a) i with
      | None => (exc InvalidIterator, a, Quiet, 0)
      | Some e => (if stale E (a_ttl a) e n then exc KeyExpired else val (ROpt (Some (pair_of e))), a, Quiet, tkn a)
      end
  | ValidAt _ i =>
      match nth_error (a_ents a) i with
      | None => obs (RBool false)
      | Some e => (val (RBool (negb (stale E (a_ttl a) e n))), a, Quiet, tkn a)
      end
  | MonitorShared _ s => upd (with_st (Some s) a)
  | StopMonitoring _ => upd (with_st None a)
  | IsMonitoring _ => obs (RBool (match a_stats a with Some _ => true | None => false end))
  | AddHit _ id => upd (with_cbs (fun b => MkCbs (hit_cbs b ++ [id]) (miss_cbs b) (acc_cbs b)) a)
  | AddMiss _ id => upd (with_cbs (fun b => MkCbs (hit_cbs b) (miss_cbs b ++ [id]) (acc_cbs b)) a)
  | AddAccess _ id => upd (with_cbs (fun b => MkCbs (hit_cbs b) (miss_cbs b) (acc_cbs b ++ [id])) a)
  | ClearHit _ => upd (with_cbs (fun b => MkCbs [] (miss_cbs b) (acc_cbs b)) a)
  | ClearMiss _ => upd (with_cbs (fun b => MkCbs (hit_cbs b) [] (acc_cbs b)) a)
  | ClearAccess _ => upd (with_cbs (fun b => MkCbs (hit_cbs b) (miss_cbs b) []) a)
  | ClearCallbacks _ => upd (with_cbs (fun _ => no_callbacks) a)
  | _ => obs RIll
  end.

(** ** [local] is what the reference machine does *)

Lemma ticks_tk a aw : ticks (tkn a) aw = tk (a_ttl a) aw.
Proof. unfold tkn, tk. destruct (a_ttl a); destruct aw; reflexivity. Qed.
Lemma ticks_0 aw : ticks 0 aw = aw.
Proof. destruct aw; reflexivity. Qed.
Lemma ticks_caches m aw : aw_caches (ticks m aw) = aw_caches aw.
Proof. auto. Qed.
Lemma ticks_add m m' aw : ticks m (ticks m' aw) = ticks (m + m') aw.
Proof. unfold ticks. simpl. f_equal. lia. Qed.
Lemma ticks_awith m c a aw : ticks m (awith c a aw) = awith c a (ticks m aw).
Proof. reflexivity. Qed.
Lemma noted_caches a x aw : aw_caches (noted a x aw) = aw_caches aw.
Proof. destruct x; auto. Qed.
Lemma noted_awith a x c b aw : noted a x (awith c b aw) = awith c b (noted a x aw).
Proof. destruct x; auto. Qed.
Lemma noted_ticks a x m aw : noted a x (ticks m aw) = ticks m (noted a x aw).
Proof. destruct x; auto. Qed.
Lemma awith_awith c a b aw : awith c b (awith c a aw) = awith c b aw.
Proof. unfold awith. simpl. rewrite upd_upd. auto. Qed.
Lemma stamp_stamp a aw : stamp E a aw = stamp_at a (aw_reads aw).
Proof. reflexivity. Qed.
Lemma insert_tk_ticks k a aw : insert_tk E k a aw = ticks (l_insert_ticks k a) aw.
Proof.
  unfold insert_tk, l_insert_ticks. destruct (Nat.eqb (a_cap a) 0); [symmetry; apply ticks_0|].
  destruct (lookup_ent E k (a_ents a)); symmetry; [apply ticks_0|apply ticks_tk].
Qed.

Section At.
Variables (c : nat) (a : acache) (aw : aworld).
Hypothesis Ha : slot (aw_caches aw) c = Some a.
Hypothesis St : stats_ok aw a.

Lemma awith_noted x m : awith c a (noted a x (ticks m aw)) = noted a x (ticks m aw).
Proof. apply awith_same. rewrite noted_caches. exact Ha. Qed.

Lemma find_flat k : a_find E c k aw = give c a (l_find k a (aw_reads aw)) aw.
Proof.
  rewrite (a_find_ev E Ha St). unfold find_r, l_find, give.
  destruct (lookup_ent E k (a_ents a)) as [e|]; simpl.
  - destruct (stale E (a_ttl a) e (aw_reads aw)); simpl.
    + change (missw E a k (ticks (tkn a) aw)) with (noted a (MissOf k) (ticks (tkn a) aw)).
      rewrite awith_noted. simpl. rewrite ticks_tk. auto.
    + rewrite ticks_tk. auto.
  - change (missw E a k (ticks 0 aw)) with (noted a (MissOf k) (ticks 0 aw)).
    rewrite awith_noted, ticks_0. auto.
Qed.

Lemma contains_flat k : a_contains E c k aw = give c a (l_contains k a (aw_reads aw)) aw.
Proof.
  rewrite (a_contains_ev E Ha St). unfold contains_r, l_contains, give, find_r.
  destruct (a_hot_ent E a k) as [e|]; [|destruct (lookup_ent E k (a_ents a)) as [e|]]; simpl.
  - destruct (stale E (a_ttl a) e (aw_reads aw)); simpl.
    + change (ticks (tkn a) aw) with (noted a Quiet (ticks (tkn a) aw)).
      rewrite awith_noted. simpl. rewrite ticks_tk. auto.
    + change (hitw E a k (e_val e) (ticks (tkn a) aw)) with (noted a (HitOf k (e_val e)) (ticks (tkn a) aw)).
      rewrite awith_noted. simpl. rewrite ticks_tk. auto.
  - destruct (stale E (a_ttl a) e (aw_reads aw)); simpl.
    + change (missw E a k (ticks (tkn a) aw)) with (noted a (MissOf k) (ticks (tkn a) aw)).
      rewrite awith_noted. simpl. rewrite ticks_tk. auto.
    + rewrite ticks_tk. auto.
  - change (missw E a k (ticks 0 aw)) with (noted a (MissOf k) (ticks 0 aw)).
    rewrite awith_noted, ticks_0. auto.
Qed.

Lemma tk_reads ttl aw' : aw_reads (tk ttl aw') = (match ttl with None => 0 | Some _ => 1 end) + aw_reads aw'.
Proof. destruct ttl; auto. Qed.

Lemma lookup_flat k : a_lookup E c k aw = give c a (l_lookup k a (aw_reads aw)) aw.
Proof.
  rewrite (a_lookup_ev E Ha St). unfold lookup_r, l_lookup, give, find_r.
  destruct (a_hot_ent E a k) as [e|]; [|destruct (lookup_ent E k (a_ents a)) as [e|]]; simpl.
  - destruct (stale E (a_ttl a) e (aw_reads aw)); simpl.
    + change (ticks (tkn a) aw) with (noted a Quiet (ticks (tkn a) aw)).
      rewrite awith_noted. simpl. rewrite ticks_tk. auto.
    + change (hitw E a k (e_val e) (ticks (tkn a) aw)) with (noted a (HitOf k (e_val e)) (ticks (tkn a) aw)).
      rewrite awith_noted. simpl. rewrite ticks_tk. auto.
  - destruct (stale E (a_ttl a) e (aw_reads aw)); simpl.
    + change (missw E a k (ticks (tkn a) aw)) with (noted a (MissOf k) (ticks (tkn a) aw)).
      rewrite awith_noted. simpl. rewrite ticks_tk. auto.
    + rewrite tk_reads. fold (tkn a).
      assert (Q : tk (a_ttl a) (awith c (bump E k e a) (hitw E a k (e_val e) (tk (a_ttl a) aw))) =
                  awith c (bump E k e a) (hitw E a k (e_val e) (ticks (tkn a + tkn a) aw))).
      { rewrite <- !ticks_tk, ticks_awith. f_equal.
        change (hitw E a k (e_val e) (ticks (tkn a) aw)) with (noted a (HitOf k (e_val e)) (ticks (tkn a) aw)).
        rewrite <- noted_ticks, ticks_add. auto. }
      destruct (stale E (a_ttl a) e (tkn a + aw_reads aw)); simpl; rewrite Q; auto.
  - change (missw E a k (ticks 0 aw)) with (noted a (MissOf k) (ticks 0 aw)).
    rewrite awith_noted, ticks_0. auto.
Qed.

End At.

Lemma inserts_flat c l : forall cnt a aw, slot (aw_caches aw) c = Some a ->
  exists m, l_inserts l cnt a (aw_reads aw) = (fst (fst (inserts_r E c l cnt a aw)), snd (fst (inserts_r E c l cnt a aw)), m + aw_reads aw) /\
    snd (inserts_r E c l cnt a aw) = awith c (snd (fst (inserts_r E c l cnt a aw))) (ticks m aw).
Proof.
  induction l as [|p l IH]; intros cnt a aw H; simpl.
  - exists 0. split; auto. rewrite ticks_0, awith_same; auto.
  - rewrite stamp_stamp, insert_tk_ticks.
    set (r := insert_c E (fst p) (snd p) (stamp_at a (aw_reads aw)) a).
    destruct (IH (if fst (fst r) then S cnt else cnt) (snd r)
                 (awith c (snd r) (ticks (l_insert_ticks (fst p) a) aw))) as (m & A & B).
    { eapply awith_get. simpl. eauto. }
    exists (m + l_insert_ticks (fst p) a). simpl in A. rewrite A. split.
    + f_equal. lia.
    + rewrite B, ticks_awith, ticks_add, awith_awith. auto.
Qed.

Lemma clear_flat c (l : list entry) : forall fuel a aw cnt, length l <= fuel ->
  slot (aw_caches aw) c = Some a -> a_ents a = l -> dkeys E l -> good E ->
  exists r a' m, l_clear l a (aw_reads aw) cnt = (r, a', m + aw_reads aw) /\
    a_clear_expired E fuel c cnt aw = Val r (awith c a' (ticks m aw)).
Proof.
  induction l as [|e l IH]; intros fuel a aw cnt F Ha L D G.
  - exists cnt, a, 0. split; auto. destruct fuel; simpl; erewrite bind_val by (apply a_get_ev; eauto); rewrite L;
      rewrite ticks_0, awith_same; auto.
  - simpl in F. destruct fuel as [|fuel]; [lia|]. cbn [a_clear_expired l_clear].
    erewrite bind_val by (apply a_get_ev; eauto). rewrite L.
    erewrite bind_val by apply a_expired_ev.
    destruct (stale E (a_ttl a) e (aw_reads aw)) eqn:S.
    + erewrite bind_val by (apply a_remove_ev; rewrite tk_caches; eauto).
      fold (removed (e_key e) a). rewrite <- ticks_tk.
      destruct (IH fuel (removed (e_key e) a) (awith c (removed (e_key e) a) (ticks (tkn a) aw)) (Datatypes.S cnt)) as (r & a' & m & A & B).
      * lia.
      * eapply awith_get; simpl; eauto.
      * unfold removed. simpl. rewrite L. simpl. rewrite (good_refl G). simpl.
        simpl in D. destruct D as (D & _). clear -D. unfold remove_ent.
        induction l as [|f l IH]; simpl; auto. inversion D; subst. rewrite H1. simpl. rewrite IH; auto.
      * simpl in D. tauto.
      * auto.
      * exists r, a', (m + tkn a). simpl in A. rewrite A. split; [f_equal; lia|].
        rewrite B, ticks_awith, ticks_add, awith_awith. auto.
    + exists cnt, a, (tkn a). split; auto. rewrite <- ticks_tk, awith_same; auto.
Qed.

Lemma give_obs c a aw (r : out) : slot (aw_caches aw) c = Some a ->
  give c a (val r, a, Quiet, 0) aw = Val r aw.
Proof. intros Ha. simpl. rewrite ticks_0, awith_same; auto. Qed.
Lemma give_tick c a aw (r : out) : slot (aw_caches aw) c = Some a ->
  give c a (val r, a, Quiet, tkn a) aw = Val r (tk (a_ttl a) aw).
Proof. intros Ha. simpl. rewrite ticks_tk, awith_same; auto. rewrite tk_caches; auto. Qed.
Lemma give_exc0 c a aw (e : exn) : slot (aw_caches aw) c = Some a ->
  give c a (@exc out e, a, Quiet, 0) aw = Exc e aw.
Proof. intros Ha. simpl. rewrite ticks_0, awith_same; auto. Qed.
Lemma give_exct c a aw (e : exn) : slot (aw_caches aw) c = Some a ->
  give c a (@exc out e, a, Quiet, tkn a) aw = Exc e (tk (a_ttl a) aw).
Proof. intros Ha. simpl. rewrite ticks_tk, awith_same; auto. rewrite tk_caches; auto. Qed.
Lemma give_upd c a a' aw (r : out) : give c a (val r, a', Quiet, 0) aw = Val r (awith c a' aw).
Proof. simpl. rewrite ticks_0; auto. Qed.

Lemma bind_give {A B} (m : M aworld A) (f : A -> B) c a r aw : m aw = give c a r aw ->
  (x <- m;; ret (f x)) aw = give c a (then_ f r) aw.
Proof.
  intros H. unfold bind. rewrite H. destruct r as (((o & a') & x) & n). destruct o; reflexivity.
Qed.


Lemma local_ev ch o c a aw : good E -> target o = Some c -> slot (aw_caches aw) c = Some a -> stats_ok aw a ->
  dkeys E (a_ents a) -> a_well_formed aw o = true ->
  aexec E ch o aw = give c a (local ch o a (aw_reads aw)) aw.
Proof.
  intros G T Ha St D WF. unfold aexec. rewrite WF.
  assert (RNG : forall l, exists m, l_inserts l 0 a (aw_reads aw) =
      (fst (fst (inserts_r E c l 0 a aw)), snd (fst (inserts_r E c l 0 a aw)), m + aw_reads aw) /\
      a_insert_range E c l aw = Val (fst (fst (inserts_r E c l 0 a aw))) (awith c (snd (fst (inserts_r E c l 0 a aw))) (ticks m aw))).
  { intros l. destruct (inserts_flat l 0 Ha) as (m & A & B). exists m. split; auto.
    unfold a_insert_range. erewrite a_inserts_ev by eauto. rewrite B. auto. }
  assert (ASG : forall l, exists cnt a' m, l_inserts l 0 (with_cap (Nat.max (a_cap a) (length l)) (keep 0 a)) (aw_reads aw) = (cnt, a', m + aw_reads aw) /\
      a_assign E c l aw = Val tt (awith c a' (ticks m aw))).
  { intros l. unfold a_assign. erewrite bind_val by (apply a_keep_ev; eauto). fold (keep 0 a).
    set (aw1 := awith c (keep 0 a) aw).
    assert (H1 : slot (aw_caches aw1) c = Some (keep 0 a)) by (eapply awith_get; eauto).
    erewrite bind_val by (apply a_get_ev; eauto).
    erewrite bind_val by (apply a_setcap_ev; eauto). change (a_cap (keep 0 a)) with (a_cap a).
    fold (with_cap (Nat.max (a_cap a) (length l)) (keep 0 a)).
    set (b := with_cap (Nat.max (a_cap a) (length l)) (keep 0 a)).
    set (aw2 := awith c b aw1).
    assert (H2 : slot (aw_caches aw2) c = Some b) by (eapply awith_get; eauto).
    destruct (inserts_flat l 0 H2) as (m & A & B). change (aw_reads aw2) with (aw_reads aw) in A.
    do 3 eexists. split; [exact A|]. unfold a_insert_range. erewrite bind_val by (apply a_inserts_ev; eauto).
    unfold ret. rewrite B. unfold aw2, aw1. rewrite !ticks_awith, !awith_awith. auto. }
  destruct o; inversion T; subst; cbn [abody local];
    try (erewrite bind_val by (apply a_get_ev; eauto); rewrite (give_obs _ Ha); reflexivity);
    try (unfold a_setcbs, a_setstats; rewrite bind_assoc; erewrite bind_val by (apply a_get_ev; eauto);
         erewrite bind_val by apply a_put_ev; rewrite give_upd; reflexivity).
  - (* AssignRange *) destruct (ASG l) as (cnt & a' & m & -> & B). erewrite bind_val by exact B. simpl.
    rewrite Nat.add_sub. auto.
  - (* AssignMove *) destruct (ASG l) as (cnt & a' & m & -> & B). erewrite bind_val by exact B. simpl.
    rewrite Nat.add_sub. auto.
  - (* Insert *) erewrite bind_val by (apply a_insert_ev; eauto). rewrite stamp_stamp, insert_tk_ticks. reflexivity.
  - (* Emplace *) erewrite bind_val by (apply a_insert_ev; eauto). rewrite stamp_stamp, insert_tk_ticks. reflexivity.
  - (* InsertRange *) destruct (RNG l) as (m & -> & B). erewrite bind_val by exact B. simpl. rewrite Nat.add_sub. auto.
  - (* InsertMove *) destruct (RNG l) as (m & -> & B). erewrite bind_val by exact B. simpl. rewrite Nat.add_sub. auto.
  - (* Find *) apply bind_give. apply find_flat; auto.
  - (* FindEntry *) erewrite bind_val by (apply a_get_ev; eauto).
    unfold bind. rewrite (find_flat Ha St). unfold l_find.
    destruct (lookup_ent E k (a_ents a)) as [e|].
    + destruct (stale E (a_ttl a) e (aw_reads aw)); simpl; [destruct (lenient_end E); reflexivity|].
      rewrite a_expired_ev. simpl.
      assert (Q : tk (a_ttl a) (awith c (bump E k e a) (hitw E a k (e_val e) (ticks (tkn a) aw))) =
                  awith c (bump E k e a) (hitw E a k (e_val e) (ticks (tkn a + tkn a) aw))).
      { rewrite <- !ticks_tk, ticks_awith. f_equal.
        change (hitw E a k (e_val e) (ticks (tkn a) aw)) with (noted a (HitOf k (e_val e)) (ticks (tkn a) aw)).
        rewrite <- noted_ticks, ticks_add. auto. }
      rewrite Q. destruct (stale E (a_ttl a) e (tkn a + aw_reads aw)); reflexivity.
    + simpl. destruct (lenient_end E); reflexivity.
  - (* Contains *) apply bind_give. apply contains_flat; auto.
  - (* Lookup *) apply bind_give. apply lookup_flat; auto.
  - (* Write *) unfold bind at 1. rewrite (lookup_flat Ha St). destruct (l_lookup k a (aw_reads aw)) as (((r & a') & x) & m).
    destruct r as [e s|e s|u|e]; auto. cbn [give].
    assert (H1 : slot (aw_caches (awith c a' (noted a x (ticks m aw)))) c = Some a').
    { eapply awith_get. rewrite noted_caches; eauto. }
    erewrite bind_val by (apply a_get_ev; eauto). erewrite bind_val by (apply a_ents_put_ev; eauto).
    rewrite awith_awith. reflexivity.
  - (* Erase *) erewrite bind_val.
    2:{ erewrite a_erase_ev by eauto. instantiate (1 := match lookup_ent E k (a_ents a) with Some _ => awith c (removed k a) aw | None => aw end).
        instantiate (1 := match lookup_ent E k (a_ents a) with Some _ => true | None => false end).
        destruct (lookup_ent E k (a_ents a)); reflexivity. }
    destruct (lookup_ent E k (a_ents a)); [rewrite give_upd|rewrite (give_obs _ Ha)]; reflexivity.
  - (* EraseFound *) unfold bind at 1. rewrite (find_flat Ha St).
    unfold l_find. destruct (lookup_ent E k (a_ents a)) as [e|]; [destruct (stale E (a_ttl a) e (aw_reads aw))|]; simpl; auto.
    erewrite bind_val by (apply a_remove_ev; eapply awith_get; simpl; eauto). rewrite awith_awith. reflexivity.
  - (* EraseOrdered *) erewrite bind_val by (apply a_get_ev; eauto).
    destruct (nth_error (a_ents a) n) as [e|]; [|rewrite (give_exc0 _ Ha); reflexivity].
    erewrite bind_val by apply a_expired_ev. destruct (stale E (a_ttl a) e (aw_reads aw)).
    + rewrite (give_exct _ Ha). reflexivity.
    + erewrite bind_val by (apply a_remove_ev; rewrite tk_caches; eauto). simpl. rewrite ticks_tk. reflexivity.
  - (* EraseUnordered *) erewrite bind_val by (apply a_get_ev; eauto).
    destruct (Nat.leb (length (a_ents a)) n); [rewrite (give_exc0 _ Ha); reflexivity|].
    destruct (nth_error (a_ents a) ch) as [e|]; [|rewrite (give_exc0 _ Ha); reflexivity].
    erewrite bind_val by (apply a_remove_ev; eauto). rewrite give_upd. reflexivity.
  - (* Clear *) erewrite bind_val by (apply a_keep_ev; eauto). rewrite give_upd. reflexivity.
  - (* Shrink *) erewrite bind_val by (apply a_keep_ev; eauto). rewrite give_upd. reflexivity.
  - (* SetCapacity *) erewrite bind_val by (apply a_keep_ev; eauto).
    erewrite bind_val by (apply a_setcap_ev; eapply awith_get; eauto). rewrite give_upd, awith_awith. reflexivity.
  - (* ClearExpired *) erewrite bind_val by (apply a_get_ev; eauto).
    destruct (clear_flat (l := a_ents a) 0 (le_n _) Ha eq_refl D G) as (r & a' & m & -> & B).
    erewrite bind_val by exact B. simpl. rewrite Nat.add_sub. auto.
  - (* Front *) unfold noexcept. erewrite bind_val by (apply a_get_ev; eauto).
    destruct (last_ent (a_ents a)); [rewrite (give_obs _ Ha); reflexivity|reflexivity].
  - (* Back *) unfold noexcept. erewrite bind_val by (apply a_get_ev; eauto).
    destruct (a_ents a); [reflexivity|rewrite (give_obs _ Ha); reflexivity].
  - (* HasExpired *) erewrite bind_val by (apply a_get_ev; eauto).
    destruct (lookup_ent E k (a_ents a)); [|rewrite (give_obs _ Ha); reflexivity].
    erewrite bind_val by apply a_expired_ev. rewrite (give_tick _ Ha). reflexivity.
  - (* AllExpired *) erewrite bind_val by (apply a_get_ev; eauto).
    destruct (last_ent (a_ents a)); [|rewrite (give_obs _ Ha); reflexivity].
    erewrite bind_val by apply a_expired_ev. rewrite (give_tick _ Ha). reflexivity.
  - (* EntryAt *) erewrite bind_val by (apply a_get_ev; eauto).
    destruct (nth_error (a_ents a) n) as [e|]; [|rewrite (give_exc0 _ Ha); reflexivity].
    erewrite bind_val by apply a_expired_ev. destruct (stale E (a_ttl a) e (aw_reads aw)).
    + rewrite (give_exct _ Ha). reflexivity.
    + rewrite (give_tick _ Ha). reflexivity.
  - (* ValidAt *) erewrite bind_val by (apply a_get_ev; eauto).
    destruct (nth_error (a_ents a) n) as [e|]; [|rewrite (give_obs _ Ha); reflexivity].
    erewrite bind_val by apply a_expired_ev. rewrite (give_tick _ Ha). reflexivity.
  - (* MonitorShared *) simpl in WF. apply andb_prop in WF as (_ & WF).
    unfold bind at 1, a_getstats. destruct (slot (aw_stats aw) s); [|discriminate].
    unfold a_setstats. rewrite bind_assoc. erewrite bind_val by (apply a_get_ev; eauto).
    erewrite bind_val by apply a_put_ev. rewrite give_upd. reflexivity.
Qed.

End Flat.
