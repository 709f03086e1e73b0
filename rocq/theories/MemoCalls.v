(** The calls a memoised function makes, for any cache, timed or not. *)
From Coq Require Import List Arith ZArith Bool Lia Permutation.
Import ListNotations.
From Verif Require Import Monad Types Model Api Spec SpecStats SpecTimed Ref Lists SimBase SimRel SimOps SimIns SimErase SimIter SimNew SimObs SimExec RefEval SimRun LruProofs CallProofs LruMore Flat Global Safe Frame StatProofs StatMore.
Set Implicit Arguments.
Unset Strict Implicit.
Local Open Scope cpp_scope.

Section Calls.
Context {K V : Type}.
Variable E : env K V.
Hypothesis G : good E.
Notation world := (world K V).
Notation entry := (entry K V).

Variables (c n : nat) (ttl : option Z).
(** Should the insertion times be known to be clock readings? *)
Variable stamps : Prop.
Hypothesis STM : stamps -> ttl <> None.

Definition stamped (e : entry) : Prop := exists i, e_time e = clock E i.

Definition st (w : world) (l : list (K * V)) : Prop :=
  reachable E w /\ exists aw a, rel E w aw /\ slot (aw_caches aw) c = Some a /\ map pair_of (a_ents a) = l /\
    a_cap a = n /\ a_ttl a = ttl /\ (stamps -> Forall stamped (a_ents a)).

Lemma st_reachable w l : st w l -> reachable E w. Proof. intros (H & _). auto. Qed.
Lemma st_contents w l : st w l -> contents E c w l.
Proof. intros (_ & aw & a & R & Ha & <- & _). eapply contents_of; eauto. Qed.
Lemma st_capacity w l : st w l -> capacity_is E c w n.
Proof. intros (_ & aw & a & R & Ha & _ & <- & _). eapply capacity_of; eauto. Qed.
Lemma st_timed w l : st w l -> timed w c = match ttl with Some _ => true | None => false end.
Proof.
  intros (_ & aw & a & R & Ha & _ & _ & <- & _). destruct (rel_get _ R Ha) as (x & s & cl & At & Rp).
  unfold timed. rewrite (at_slot At), (rp_ttl Rp). destruct (a_ttl a); auto.
Qed.

Lemma st_intro w l : reachable E w -> contents E c w l -> capacity_is E c w n -> ttl_of c w ttl ->
  (stamps -> l = []) -> st w l.
Proof.
  intros H C N (x & Hx & T) S. split; auto. destruct (open_cache G H C) as (aw & a & R & Ha & ->).
  exists aw, a. split; auto. split; auto. split; auto. split; [eapply capacity_inv; eauto|]. split.
  - destruct (rel_get _ R Ha) as (x' & s & cl & At & Rp). rewrite <- (rp_ttl Rp). rewrite (at_slot At) in Hx. congruence.
  - intros Z. apply S in Z. destruct (a_ents a); [constructor|discriminate].
Qed.

Lemma local_call o w aw a : rel E w aw -> plain o = true -> target o = Some c -> slot (aw_caches aw) c = Some a ->
  a_well_formed aw o = true ->
  match local E 0 o a (aw_reads aw) with
  | (Val r _, a', x, m) => exists w', exec E o w = Val r w' /\ rel E w' (awith c a' (noted E a x (ticks m aw)))
  | (Exc e _, a', x, m) => exists w', exec E o w = Exc e w' /\ rel E w' (awith c a' (noted E a x (ticks m aw)))
  | _ => True
  end.
Proof.
  intros R P T Ha WF. pose proof (local_ev 0 G T Ha (rel_st R Ha) (rel_dkeys R Ha) WF) as X.
  unfold give in X. destruct (local E 0 o a (aw_reads aw)) as ((([r u|e u|u|e] & a') & x) & m); auto.
  - destruct (call_val G R X P) as (w' & X' & R'). eauto.
  - destruct (call_exc G R X P) as (w' & X' & R'). eauto.
Qed.

Lemma get_after a' a x m aw : slot (aw_caches aw) c = Some a ->
  slot (aw_caches (awith c a' (noted E a x (ticks m aw)))) c = Some a'.
Proof. intros Ha. simpl. rewrite noted_caches. simpl. eapply slot_upd_same; eauto. Qed.

Lemma bump_stamped k e a : In e (a_ents a) -> Forall stamped (a_ents a) -> Forall stamped (a_ents (bump E k e a)).
Proof.
  intros I S. simpl. rewrite Forall_forall in *. intros e' I'. apply in_app_iff in I' as [I'|[<-|[]]]; auto.
  apply S. unfold remove_ent in I'. apply filter_In in I'. tauto.
Qed.

Lemma bumped_twice k e l : dkeys E l -> In e l -> key_equal E k (e_key e) = true ->
  remove_ent E k (remove_ent E k l ++ [e]) ++ [e] = remove_ent E k l ++ [e].
Proof.
  intros D I Q. f_equal. unfold remove_ent. rewrite filter_app. simpl. rewrite Q. simpl. rewrite app_nil_r.
  clear. induction l as [|x l IH]; simpl; auto. destruct (key_equal E k (e_key x)) eqn:B; simpl; auto. rewrite B. simpl. f_equal. auto.
Qed.

(** contains(), and lookup() right after it. *)
Lemma contains_then_lookup k w l : st w l ->
  exists b w1, exec E (Contains c k) w = Val (RBool b) w1 /\
  if b then exists p, look E k l = Some p /\ st w1 (without E k l ++ [p]) /\
    exists w2, st w2 (without E k l ++ [p]) /\
      (exec E (Lookup c k) w1 = Val (RVal (snd p)) w2 \/
       exec E (Lookup c k) w1 = Exc KeyExpired w2 /\ exists d, ttl = Some d /\
         (stamps -> exists i j, ~ young E d (clock E i) (clock E j)))
  else st w1 l /\ (ttl = None -> look E k l = None).
Proof.
  intros (H & aw & a & R & Ha & L & N & T & S).
  assert (AL : a_alive aw c = true) by (eapply slot_alive; eauto).
  pose proof (local_call (o := Contains c k) R eq_refl eq_refl Ha AL) as X.
  pose proof (rel_cinv R Ha) as Ci.
  cbn [local] in X. unfold l_contains in X.
  assert (LK : forall w1 a' x m e, In e (a_ents a) -> lookup_ent E k (a_ents a) = Some e ->
     exec E (Contains c k) w = Val (RBool true) w1 -> rel E w1 (awith c a' (noted E a x (ticks m aw))) ->
     a_ents a' = remove_ent E k (a_ents a) ++ [e] -> a_hot a' = true -> a_cap a' = a_cap a -> a_ttl a' = a_ttl a ->
     exists p, look E k l = Some p /\ st w1 (without E k l ++ [p]) /\
       exists w2, st w2 (without E k l ++ [p]) /\
      (exec E (Lookup c k) w1 = Val (RVal (snd p)) w2 \/
       exec E (Lookup c k) w1 = Exc KeyExpired w2 /\ exists d, ttl = Some d /\
         (stamps -> exists i j, ~ young E d (clock E i) (clock E j)))).
  { intros w1 a' x m e I LE X1 R1 EA HA CA TA. exists (pair_of e).
    assert (LL : look E k l = Some (pair_of e)).
    { rewrite <- L, look_map, LE. auto. }
    split; auto.
    pose proof (reachable_step H (o := Contains c k) eq_refl X1) as H1.
    pose proof (get_after a' x m Ha) as Ha1.
    assert (Q : key_equal E k (e_key e) = true).
    { apply find_some in LE. tauto. }
    assert (L1 : map pair_of (a_ents a') = without E k l ++ [pair_of e]).
    { rewrite EA, map_app, <- L, without_map. auto. }
    assert (S1 : stamps -> Forall stamped (a_ents a')).
    { intros Z. rewrite EA. apply (bump_stamped k (e := e) (a := a)); auto. }
    assert (ST1 : st w1 (without E k l ++ [pair_of e])).
    { split; auto. exists (awith c a' (noted E a x (ticks m aw))), a'. split; auto. split; auto. split; auto.
      split; [congruence|]. split; [congruence|auto]. }
    split; auto.
    set (aw1 := awith c a' (noted E a x (ticks m aw))) in *.
    assert (AL1 : a_alive aw1 c = true) by (eapply slot_alive; eauto).
    pose proof (local_call (o := Lookup c k) R1 eq_refl eq_refl Ha1 AL1) as Y.
    cbn [local] in Y. unfold l_lookup in Y.
    assert (HOT : a_hot_ent E a' k = Some e).
    { unfold a_hot_ent. rewrite HA, EA. rewrite last_ent_app. rewrite Q. auto. }
    rewrite HOT in Y.
    destruct (stale E (a_ttl a') e (aw_reads aw1)) eqn:SE; cbn [then_] in Y; destruct Y as (w2 & Y & R2); exists w2; split.
    - split; [eapply reachable_exc; [exact H1| |exact Y]; auto|].
      eexists _, a'. split; [exact R2|]. split; [apply get_after; auto|]. split; auto. split; [congruence|]. split; [congruence|auto].
    - right. split; auto. rewrite TA, T in SE. unfold stale in SE. destruct ttl as [d|]; [|discriminate].
      exists d. split; auto. intros Z. apply S in Z. rewrite Forall_forall in Z. destruct (Z e I) as (i & TI).
      exists i, (aw_reads aw1). unfold young. rewrite <- TI. apply Z.ltb_lt in SE. lia.
    - split; [eapply reachable_step; [exact H1| |exact Y]; auto|].
      eexists _, a'. split; [exact R2|]. split; [apply get_after; auto|]. split; auto. split; [congruence|]. split; [congruence|auto].
    - left. auto. }
  destruct (a_hot_ent E a k) as [e|] eqn:HOT.
  - pose proof (hot_lookup G Ci HOT) as LE.
    assert (I : In e (a_ents a)) by (apply find_some in LE; tauto).
    destruct (hot_split HOT) as (HH & Q & l0 & EQ).
    destruct (stale E (a_ttl a) e (aw_reads aw)) eqn:SE; cbn [then_] in X; destruct X as (w1 & X1 & R1).
    + exists false, w1. split; auto. split.
      * split; [eapply reachable_step; [exact H| |exact X1]; auto|].
        eexists _, a. split; [exact R1|]. split; [apply get_after; auto|]. auto.
      * intros TN. rewrite T, TN in SE. discriminate.
    + exists true, w1. split; auto. eapply LK; eauto. symmetry. eapply bump_last; eauto. apply Ci.
  - destruct (lookup_ent E k (a_ents a)) as [e|] eqn:LE.
    + assert (I : In e (a_ents a)) by (apply find_some in LE; tauto).
      destruct (stale E (a_ttl a) e (aw_reads aw)) eqn:SE; cbn [then_] in X; destruct X as (w1 & X1 & R1).
      * exists false, w1. split; auto. split.
        -- split; [eapply reachable_step; [exact H| |exact X1]; auto|].
           eexists _, a. split; [exact R1|]. split; [apply get_after; auto|]. auto.
        -- intros TN. rewrite T, TN in SE. discriminate.
      * exists true, w1. split; auto. eapply LK; eauto.
    + cbn [then_] in X; destruct X as (w1 & X1 & R1).
      exists false, w1. split; auto. split.
      * split; [eapply reachable_step; [exact H| |exact X1]; auto|].
        eexists _, a. split; [exact R1|]. split; [apply get_after; auto|]. auto.
      * intros _. rewrite <- L, look_map, LE. auto.
Qed.

(** insert() and emplace(). *)
Definition cput (k : K) (v : V) (l : list (K * V)) : list (K * V) :=
  if Nat.eqb n 0 then l
  else match look E k l with
       | Some (k0, _) => without E k l ++ [(k0, v)]
       | None => newest n (l ++ [(k, v)])
       end.

Lemma in_skipn {A} (x : A) m l : In x (skipn m l) -> In x l.
Proof. intros I. rewrite <- (firstn_skipn m l). apply in_or_app. auto. Qed.
Lemma newest_map {A B} (f : A -> B) m l : map f (lastn m l) = newest m (map f l).
Proof. unfold lastn, newest. rewrite map_length, skipn_map. auto. Qed.

Lemma put_any k v o w l : puts c k v o -> st w l ->
  exists r w', exec E o w = Val r w' /\ st w' (cput k v l) /\
    forall t, totals_are E c w t -> totals_are E c w' t.
Proof.
  intros P (H & aw & a & R & Ha & L & N & T & S).
  assert (TG : plain o = true /\ target o = Some c /\ (forall aw, a_well_formed aw o = a_alive aw c) /\ copy_free o = true)
    by (destruct P; auto).
  destruct TG as (PL & TG & WF & CF).
  assert (AL : a_well_formed aw o = true) by (rewrite WF; eapply slot_alive; eauto).
  pose proof (local_call R PL TG Ha AL) as X.
  replace (local E 0 o a (aw_reads aw)) with (local E 0 (Insert c k v) a (aw_reads aw)) in X by (destruct P; auto).
  cbn [local] in X. destruct X as (w' & X & R'). eexists. exists w'. split; [exact X|].
  set (a' := snd (insert_c E k v (stamp_at E a (aw_reads aw)) a)) in *.
  pose proof (get_after a' Quiet (l_insert_ticks E k a) Ha) as Ha'.
  assert (AT : a_cap a' = a_cap a /\ a_ttl a' = a_ttl a /\ a_stats a' = a_stats a).
  { unfold a', insert_c. destruct (Nat.eqb (a_cap a) 0), (lookup_ent E k (a_ents a)); auto. }
  destruct AT as (A1 & A2 & A3).
  split.
  - split; [eapply reachable_step; eauto|]. eexists _, a'. split; [exact R'|]. split; [exact Ha'|].
    split; [|split; [congruence|split; [congruence|]]].
    + unfold a', cput, insert_c. rewrite <- N, <- L. destruct (Nat.eqb (a_cap a) 0); auto.
      destruct (lookup_ent E k (a_ents a)) as [e|] eqn:LE.
      * assert (LK : look E k (map pair_of (a_ents a)) = Some (pair_of e)) by (rewrite look_map, LE; auto).
        rewrite LK. unfold pair_of at 2. simpl. rewrite map_app, without_map. auto.
      * assert (LK : look E k (map pair_of (a_ents a)) = None) by (rewrite look_map, LE; auto).
        rewrite LK. simpl. rewrite newest_map, map_app. auto.
    + intros Z. specialize (S Z). rewrite Forall_forall in *. intros e' I.
      unfold a', insert_c in I. destruct (Nat.eqb (a_cap a) 0) eqn:Z0; auto.
      destruct (lookup_ent E k (a_ents a)) as [e|] eqn:LE.
      * simpl in I. apply in_app_iff in I as [I|[<-|[]]].
        -- apply S. unfold remove_ent in I. apply filter_In in I. tauto.
        -- apply find_some in LE as (IE & _). destruct (S _ IE) as (i & EI). exists i. auto.
      * simpl in I. unfold lastn in I. apply in_skipn in I.
        apply in_app_iff in I as [I|[<-|[]]]; auto. simpl. unfold stamped, stamp_at. simpl.
        apply STM in Z. destruct (a_ttl a) as [d|]; [eauto|congruence].
  - intros t X'. unfold totals_are in *.
    rewrite (reading_ev (o := Totals c) R Ha eq_refl eq_refl) in X'.
    rewrite (reading_ev (o := Totals c) R' Ha' eq_refl eq_refl). rewrite A3. simpl.
    destruct (a_stats a) as [i|]; [|discriminate]. destruct (slot (aw_stats aw) i) as [x|]; [|discriminate].
    simpl in *. inversion X'. subst. auto.
Qed.

(** The statistics after an access. *)
Lemma read_totals k o oc hit w w' l r : ttl = None -> st w l -> call E o w oc w' -> access_of o oc = Some (c, k, hit) ->
  totals_are E c w r -> totals_are E c w' (counts hit r).
Proof.
  intros U S C A X. pose proof (st_timed S) as T. rewrite U in T.
  destruct (step_totals G (st_reachable S) (or_introl T) C A X) as (Y & _). apply Y. intros SEP.
  destruct S as (H & aw & a & R & Ha & _). unfold totals_are in X.
  rewrite (reading_ev (o := Totals c) R Ha eq_refl eq_refl) in X.
  destruct (rel_get _ R Ha) as (x & s & cl & At & Rp).
  destruct (a_stats a) as [i|] eqn:As; [|discriminate].
  apply (SEP x x i (at_slot At) (at_slot At)); rewrite (rp_stats Rp); auto.
Qed.
End Calls.
