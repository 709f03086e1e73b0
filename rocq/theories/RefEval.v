(** Evaluation of the reference machine: what each of its functions returns and
    how it changes the world, without monads. *)
From Coq Require Import List Arith ZArith Bool Permutation Lia.
Import ListNotations.
From Verif Require Import Monad Types Model Api Spec Ref Lists SimBase SimRel SimOps SimIns SimErase SimNew.
Set Implicit Arguments.
Unset Strict Implicit.
Local Open Scope cpp_scope.

Section Eval.
Context {K V : Type}.
Variable E : env K V.

Notation entry := (entry K V).
Notation acache := (acache K V).
Notation aworld := (aworld K V).
Implicit Types (a : acache) (aw : aworld) (e : entry).

Definition stale (ttl : option Z) e (n : nat) : bool :=
  match ttl with None => false | Some d => Z.ltb d (dcast E (clock E n - e_time e)) end.
Definition tk (ttl : option Z) aw : aworld :=
  match ttl with None => aw | Some _ => atock aw end.

Lemma a_expired_ev ttl e aw : a_expired E ttl e aw = Val (stale ttl e (aw_reads aw)) (tk ttl aw).
Proof. destruct ttl; reflexivity. Qed.

Lemma tk_caches ttl aw : aw_caches (tk ttl aw) = aw_caches aw.
Proof. destruct ttl; auto. Qed.
Lemma tk_stats ttl aw : aw_stats (tk ttl aw) = aw_stats aw.
Proof. destruct ttl; auto. Qed.
Lemma tk_log ttl aw : aw_log (tk ttl aw) = aw_log aw.
Proof. destruct ttl; auto. Qed.

Definition hitw a k v aw := anoted (a_stats a) (stats_register_hit E k) (hit_events (a_cbs a) k v) aw.
Definition missw a k aw := anoted (a_stats a) (stats_register_miss E k) (miss_events (a_cbs a) k) aw.

(** The cache after a hit of [e] by [k]. *)
Definition bump k e a : acache := set_ents (remove_ent E k (a_ents a) ++ [e]) true a.

Definition stats_ok aw a := forall i, a_stats a = Some i -> slot (aw_stats aw) i <> None.

Variables (aw : aworld) (c : nat) (a : acache).
Hypothesis Ha : slot (aw_caches aw) c = Some a.
Hypothesis St : stats_ok aw a.

Definition find_r k : option entry * aworld :=
  match lookup_ent E k (a_ents a) with
  | None => (None, missw a k aw)
  | Some e =>
      if stale (a_ttl a) e (aw_reads aw) then (None, missw a k (tk (a_ttl a) aw))
      else (Some e, awith c (bump k e a) (hitw a k (e_val e) (tk (a_ttl a) aw)))
  end.

Lemma Ha_tk : slot (aw_caches (tk (a_ttl a) aw)) c = Some a.
Proof. rewrite tk_caches; auto. Qed.
Lemma St_tk : stats_ok (tk (a_ttl a) aw) a.
Proof. red. rewrite tk_stats; auto. Qed.

Lemma a_find_ev k : a_find E c k aw = Val (fst (find_r k)) (snd (find_r k)).
Proof.
  unfold a_find, find_r. erewrite bind_val by (apply a_get_ev; eauto).
  destruct (lookup_ent E k (a_ents a)) as [e|].
  - erewrite bind_val by apply a_expired_ev.
    destruct (stale (a_ttl a) e (aw_reads aw)).
    + erewrite bind_val by (apply a_miss_ev; [apply Ha_tk|apply St_tk]). reflexivity.
    + erewrite bind_val by (apply a_hit_ev; [apply Ha_tk|apply St_tk]).
      erewrite bind_val by (apply a_ents_put_ev; simpl; apply Ha_tk). reflexivity.
  - erewrite bind_val by (apply a_miss_ev; [exact Ha|exact St]). reflexivity.
Qed.

(** contains and lookup: when the last accessed entry is asked for. *)
Definition contains_r k : bool * aworld :=
  match a_hot_ent E a k with
  | Some e =>
      if stale (a_ttl a) e (aw_reads aw) then (false, tk (a_ttl a) aw)
      else (true, hitw a k (e_val e) (tk (a_ttl a) aw))
  | None => (match fst (find_r k) with Some _ => true | None => false end, snd (find_r k))
  end.

Lemma a_contains_ev k : a_contains E c k aw = Val (fst (contains_r k)) (snd (contains_r k)).
Proof.
  unfold a_contains, contains_r. erewrite bind_val by (apply a_get_ev; eauto).
  destruct (a_hot_ent E a k) as [e|].
  - erewrite bind_val by apply a_expired_ev.
    destruct (stale (a_ttl a) e (aw_reads aw)); [reflexivity|].
    erewrite bind_val by (apply a_hit_ev; [apply Ha_tk|apply St_tk]). reflexivity.
  - erewrite bind_val by apply a_find_ev. reflexivity.
Qed.

Definition lookup_r k : res aworld entry :=
  match a_hot_ent E a k with
  | Some e =>
      if stale (a_ttl a) e (aw_reads aw) then Exc KeyExpired (tk (a_ttl a) aw)
      else Val e (hitw a k (e_val e) (tk (a_ttl a) aw))
  | None =>
      match find_r k with
      | (None, aw') => Exc KeyNotFound aw'
      | (Some e, aw') =>
          if stale (a_ttl a) e (aw_reads aw') then Exc KeyExpired (tk (a_ttl a) aw')
          else Val e (tk (a_ttl a) aw')
      end
  end.

Lemma a_lookup_ev k : a_lookup E c k aw = lookup_r k.
Proof.
  unfold a_lookup, lookup_r. erewrite bind_val by (apply a_get_ev; eauto).
  destruct (a_hot_ent E a k) as [e|].
  - erewrite bind_val by apply a_expired_ev.
    destruct (stale (a_ttl a) e (aw_reads aw)); [reflexivity|].
    erewrite bind_val by (apply a_hit_ev; [apply Ha_tk|apply St_tk]). reflexivity.
  - erewrite bind_val by apply a_find_ev.
    destruct (find_r k) as ([e|] & aw'); simpl; [|reflexivity].
    erewrite bind_val by apply a_expired_ev.
    destruct (stale (a_ttl a) e (aw_reads aw')); reflexivity.
Qed.

(** Insertion. *)
Definition stamp a aw : Z := match a_ttl a with None => 0%Z | Some _ => clock E (aw_reads aw) end.
Definition insert_c k v (t : Z) a : (bool * option entry) * acache :=
  if Nat.eqb (a_cap a) 0 then ((false, None), a)
  else match lookup_ent E k (a_ents a) with
       | None => ((true, Some (Ent k v t)),
                  set_ents (lastn (a_cap a) (a_ents a ++ [Ent k v t])) true a)
       | Some e => ((false, Some (Ent (e_key e) v (e_time e))),
                    bump k (Ent (e_key e) v (e_time e)) a)
       end.
(** The clock is read when the key is new. *)
Definition insert_tk k a aw : aworld :=
  if Nat.eqb (a_cap a) 0 then aw
  else match lookup_ent E k (a_ents a) with None => tk (a_ttl a) aw | Some _ => aw end.

Lemma insert_tk_caches k b aw' : aw_caches (insert_tk k b aw') = aw_caches aw'.
Proof.
  unfold insert_tk. destruct (Nat.eqb (a_cap b) 0), (lookup_ent E k (a_ents b)); auto.
  apply tk_caches.
Qed.

Lemma a_insert_ev k v : a_insert E c k v aw =
  Val (fst (insert_c k v (stamp a aw) a))
      (awith c (snd (insert_c k v (stamp a aw) a)) (insert_tk k a aw)).
Proof.
  unfold a_insert, insert_c, insert_tk. erewrite bind_val by (apply a_get_ev; eauto).
  destruct (Nat.eqb (a_cap a) 0).
  - simpl. rewrite awith_same; auto.
  - destruct (lookup_ent E k (a_ents a)) as [e|] eqn:L.
    + erewrite bind_val by (apply a_ents_put_ev; eauto). reflexivity.
    + unfold a_timestamp, stamp. destruct (a_ttl a).
      * erewrite bind_val by apply a_now_ev.
        erewrite bind_val by (apply a_ents_put_ev; simpl; eauto). reflexivity.
      * erewrite bind_val by reflexivity.
        erewrite bind_val by (apply a_ents_put_ev; simpl; eauto). reflexivity.
Qed.

Lemma a_erase_ev k : a_erase E c k aw =
  match lookup_ent E k (a_ents a) with
  | Some _ => Val true (awith c (set_ents (remove_ent E k (a_ents a)) (hot_after E a k) a) aw)
  | None => Val false aw
  end.
Proof.
  unfold a_erase. erewrite bind_val by (apply a_get_ev; eauto).
  destruct (lookup_ent E k (a_ents a)); [|reflexivity].
  erewrite bind_val by (apply a_remove_ev; eauto). reflexivity.
Qed.

Lemma a_setcap_ev n : a_setcap c n aw =
  Val tt (awith c (MkA (a_ents a) (a_hot a) n (a_stats a) (a_cbs a) (a_ttl a)) aw).
Proof.
  unfold a_setcap. erewrite bind_val by (apply a_get_ev; eauto). apply a_put_ev.
Qed.

End Eval.

Section Eval2.
Context {K V : Type}.
Variable E : env K V.

Notation entry := (entry K V).
Notation acache := (acache K V).
Notation aworld := (aworld K V).
Implicit Types (a : acache) (aw : aworld) (e : entry).

Lemma awith_get c a b aw : slot (aw_caches aw) c = Some a -> slot (aw_caches (awith c b aw)) c = Some b.
Proof. intros H. simpl. erewrite slot_upd_same; eauto. Qed.

(** Range insertion: a fold; [n] counts. *)
Fixpoint inserts_r (c : nat) (l : list (K * V)) (n : nat) a aw : nat * acache * aworld :=
  match l with
  | [] => (n, a, aw)
  | p :: t =>
      let r := insert_c E (fst p) (snd p) (stamp E a aw) a in
      inserts_r c t (if fst (fst r) then S n else n) (snd r)
                (awith c (snd r) (insert_tk E (fst p) a aw))
  end.

Lemma inserts_get c l : forall n a aw, slot (aw_caches aw) c = Some a ->
  slot (aw_caches (snd (inserts_r c l n a aw))) c = Some (snd (fst (inserts_r c l n a aw))).
Proof.
  induction l as [|p l IH]; intros n a aw H; simpl; auto. apply IH.
  eapply awith_get. rewrite insert_tk_caches; eauto.
Qed.

Lemma a_inserts_ev c l : forall n a aw, slot (aw_caches aw) c = Some a ->
  foldM (fun n p => r <- a_insert E c (fst p) (snd p);;
                    ret (if fst r then S n else n)) l n aw =
  Val (fst (fst (inserts_r c l n a aw))) (snd (inserts_r c l n a aw)).
Proof.
  induction l as [|p l IH]; intros n a aw H; simpl; [reflexivity|].
  rewrite bind_assoc. erewrite bind_val by (apply a_insert_ev; eauto).
  rewrite bind_ret. eapply IH. eapply awith_get. rewrite insert_tk_caches; eauto.
Qed.

End Eval2.
