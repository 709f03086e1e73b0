(** The Fibonacci examples: how many hits and misses. *)
From Coq Require Import List Arith ZArith Bool Lia.
Import ListNotations.
From Verif Require Import Monad Types Model Api Spec SpecStats SpecTimed Memo SpecMemo Ref Lists SimBase SimRel LruMore MemoCalls MemoProofs.
Set Implicit Arguments.
Unset Strict Implicit.
Local Open Scope cpp_scope.

Section Trace.
Context {K V : Type}.
Variable E : env K V.
Hypothesis G : good E.
Variable F : K -> V + recipe K V.
Variables (c n : nat).
Variable put : K -> V -> op K V.
Hypothesis PUT : forall k v, puts c k v (put k v).

(** The recursion on the contents of the cache: value, contents after it,
    calls that found their key, calls that did not. *)
Inductive lrec : K -> list (K * V) -> V -> list (K * V) -> nat -> nat -> Prop :=
| lrec_base k v l : F k = inl v -> lrec k l v l 0 0
| lrec_hit k b l p : F k = inr b -> look E k l = Some p -> lrec k l (snd p) (without E k l ++ [p]) 1 0
| lrec_miss k b l v l1 h m : F k = inr b -> look E k l = None -> lfol b l v l1 h m ->
    lrec k l v (cput E n k v l1) h (S m)
with lfol : recipe K V -> list (K * V) -> V -> list (K * V) -> nat -> nat -> Prop :=
| lfol_give v l : lfol (Give v) l v l 0 0
| lfol_need k g l v l1 h1 m1 v2 l2 h2 m2 : lrec k l v l1 h1 m1 -> lfol (g v) l1 v2 l2 h2 m2 ->
    lfol (Need k g) l v2 l2 (h1 + h2) (m1 + m2).
Scheme lrec_ind2 := Minimality for lrec Sort Prop
  with lfol_ind2 := Minimality for lfol Sort Prop.
Combined Scheme lrec_lfol_ind from lrec_ind2, lfol_ind2.

Notation st := (@st K V E c n None False).
Definition tot (a h m : nat) : Z * Z * Z := (size_t (Z.of_nat a), size_t (Z.of_nat h), size_t (Z.of_nat m)).

Lemma size_t_S a : size_t (size_t (Z.of_nat a) + 1) = size_t (Z.of_nat (S a)).
Proof. unfold size_t. rewrite Zplus_mod_idemp_l. f_equal. lia. Qed.
Lemma counts_hit a h m : counts true (tot a h m) = tot (S a) (S h) m.
Proof. unfold counts, tot. rewrite !size_t_S. auto. Qed.
Lemma counts_miss a h m : counts false (tot a h m) = tot (S a) h (S m).
Proof. unfold counts, tot. rewrite !size_t_S. auto. Qed.

Definition step_to (x : res (world K V) V) (w : world K V) (v : V) (l' : list (K * V)) (h m : nat) : Prop :=
  exists w', x = Val v w' /\ st w' l' /\
    forall a0 h0 m0, totals_are E c w (tot a0 h0 m0) -> totals_are E c w' (tot (a0 + (2 * h + m)) (h0 + 2 * h) (m0 + m)).

Lemma lrec_memo :
  (forall k l v l' h m, lrec k l v l' h m -> exists d0, forall d, d0 <= d -> forall w, st w l ->
     step_to (memo E F put d c k w) w v l' h m) /\
  (forall b l v l' h m, lfol b l v l' h m -> exists d0, forall d, d0 <= d -> forall w, st w l ->
     step_to (follow_recipe (memo E F put d c) b w) w v l' h m).
Proof.
  assert (STM : False -> (None : option Z) <> None) by tauto.
  apply lrec_lfol_ind.
  - intros k v l Q. exists 1. intros d LE w S. destruct d as [|d]; [lia|]. simpl. rewrite Q. exists w.
    split; [reflexivity|]. split; auto. intros a0 h0 m0. simpl. rewrite !Nat.add_0_r. auto.
  - intros k b l p Q L. exists 1. intros d LE w S. destruct d as [|d]; [lia|]. simpl. rewrite Q.
    destruct (contains_then_lookup G STM k S) as (hit & w1 & X & Y). destruct hit.
    2:{ destruct Y as (_ & Y). rewrite Y in L by auto. discriminate. }
    destruct Y as (p' & L' & S1 & w2 & S2 & Z). rewrite L in L'. inversion L'; subst p'.
    destruct Z as [Z|(_ & d' & D & _)]; [|discriminate].
    exists w2. rewrite (bind_val _ _ _ X), (bind_val _ _ _ Z). split; [reflexivity|]. split; auto.
    intros a0 h0 m0 T.
    pose proof (read_totals G STM (k := k) (o := Contains c k) (oc := Returned (RBool true)) (hit := true) eq_refl S X eq_refl T) as T1.
    rewrite counts_hit in T1.
    pose proof (read_totals G STM (k := k) (o := Lookup c k) (oc := Returned (RVal (snd p))) (hit := true) eq_refl S1 Z eq_refl T1) as T2.
    rewrite counts_hit in T2. replace (a0 + (2 * 1 + 0)) with (Datatypes.S (Datatypes.S a0)) by lia.
    replace (h0 + 2 * 1) with (Datatypes.S (Datatypes.S h0)) by lia. rewrite Nat.add_0_r. auto.
  - intros k b l v l1 h m Q L _ (d0 & IH). exists (S d0). intros d LE w S. destruct d as [|d]; [lia|]. simpl. rewrite Q.
    destruct (contains_then_lookup G STM k S) as (hit & w1 & X & Y). destruct hit.
    { destruct Y as (p' & L' & _). congruence. }
    destruct Y as (S1 & _). destruct (IH d ltac:(lia) w1 S1) as (w2 & X2 & S2 & T2).
    destruct (put_any G STM (PUT k v) S2) as (r & w3 & P & S3 & T3).
    exists w3. rewrite (bind_val _ _ _ X), (bind_val _ _ _ X2), (bind_val _ _ _ P). split; [reflexivity|]. split; auto.
    intros a0 h0 m0 T. apply T3.
    pose proof (read_totals G STM (k := k) (o := Contains c k) (oc := Returned (RBool false)) (hit := false) eq_refl S X eq_refl T) as T1.
    rewrite counts_miss in T1. apply T2 in T1. replace (a0 + (2 * h + Datatypes.S m)) with (Datatypes.S a0 + (2 * h + m)) by lia.
    replace (m0 + Datatypes.S m) with (Datatypes.S m0 + m) by lia. auto.
  - intros v l. exists 0. intros d _ w S. exists w. split; [reflexivity|]. split; auto.
    intros a0 h0 m0. simpl. rewrite !Nat.add_0_r. auto.
  - intros k g l v l1 h1 m1 v2 l2 h2 m2 _ (d1 & IH1) _ (d2 & IH2). exists (Nat.max d1 d2). intros d LE w S.
    destruct (IH1 d ltac:(lia) w S) as (w1 & X1 & S1 & T1). destruct (IH2 d ltac:(lia) w1 S1) as (w2 & X2 & S2 & T2).
    exists w2. simpl follow_recipe. rewrite (bind_val _ _ _ X1). split; auto. split; auto.
    intros a0 h0 m0 T. apply T1, T2 in T.
    replace (a0 + (2 * (h1 + h2) + (m1 + m2))) with (a0 + (2 * h1 + m1) + (2 * h2 + m2)) by lia.
    replace (h0 + 2 * (h1 + h2)) with (h0 + 2 * h1 + 2 * h2) by lia.
    replace (m0 + (m1 + m2)) with (m0 + m1 + m2) by lia. auto.
Qed.
End Trace.

(** ** Fibonacci: the keys suffice *)
Section Fib.
Variable E : env nat Z.
Hypothesis PK : plain_keys E.
Variable lf : nat -> bool.
Variable cap : nat.
Notation F := (fibonacci lf).
Notation lrec := (@lrec nat Z E F cap).

Definition fv (n : nat) : Z := wrap64 (fib n).
Definition tag (ks : list nat) : list (nat * Z) := map (fun k => (k, fv k)) ks.
Definition rm (k : nat) (ks : list nat) : list nat := filter (fun j => negb (Nat.eqb k j)) ks.
Definition kput (k : nat) (ks : list nat) : list nat :=
  if Nat.eqb cap 0 then ks else if existsb (Nat.eqb k) ks then rm k ks ++ [k] else newest cap (ks ++ [k]).

Lemma positive_fib n : (0 < fib n)%Z.
Proof.
  assert (X : (0 < fst (fib_pair n) /\ 0 < snd (fib_pair n))%Z).
  { induction n as [|n IH]; simpl; [lia|]. destruct (fib_pair n); simpl in *. lia. }
  apply X.
Qed.
Lemma fib_rec n : 2 <= n -> fib n = (fib (n - 1) + fib (n - 2))%Z.
Proof.
  intros H. assert (Q : forall m, snd (fib_pair m) = fib (S m)) by (intros m; unfold fib; simpl; destruct (fib_pair m); auto).
  destruct n as [|[|m]]; try lia. replace (S (S m) - 1) with (S m) by lia. replace (S (S m) - 2) with m by lia.
  rewrite <- (Q (S m)). simpl. rewrite <- (Q m). unfold fib. destruct (fib_pair m); simpl. lia.
Qed.
Lemma fv_rec n : 2 <= n -> wrap64 (fv (n - 1) + fv (n - 2)) = fv n.
Proof. intros H. unfold fv, wrap64. rewrite (fib_rec H). rewrite <- Zplus_mod. auto. Qed.

Lemma look_tag k ks : look E k (tag ks) = if existsb (Nat.eqb k) ks then Some (k, fv k) else None.
Proof.
  unfold look, tag. induction ks as [|j ks IH]; simpl; auto. rewrite PK.
  destruct (Nat.eqb_spec k j); simpl; [subst; auto|auto].
Qed.
Lemma without_tag k ks : without E k (tag ks) = tag (rm k ks).
Proof.
  unfold without, tag, rm. induction ks as [|j ks IH]; simpl; auto. rewrite PK. destruct (Nat.eqb k j); simpl; auto.
  f_equal. auto.
Qed.
Lemma tag_app a b : tag (a ++ b) = tag a ++ tag b. Proof. apply map_app. Qed.
Lemma newest_tag ks : newest cap (tag ks) = tag (newest cap ks).
Proof. unfold newest, tag. rewrite map_length, skipn_map. auto. Qed.
Lemma cput_tag k ks : cput E cap k (fv k) (tag ks) = tag (kput k ks).
Proof.
  unfold cput, kput. destruct (Nat.eqb cap 0); auto. rewrite look_tag. destruct (existsb (Nat.eqb k) ks).
  - rewrite without_tag, tag_app. auto.
  - rewrite <- newest_tag, tag_app. auto.
Qed.

(** On keys: contents before and after, hits, misses. *)
Definition kr (n : nat) (ks ks' : list nat) (h m : nat) : Prop := lrec n (tag ks) (fv n) (tag ks') h m.

Lemma kr_eq n ks ks' h m h' m' : kr n ks ks' h m -> h = h' -> m = m' -> kr n ks ks' h' m'.
Proof. intros A -> ->. auto. Qed.
Lemma kr_base n ks : n < 2 -> kr n ks ks 0 0.
Proof.
  intros H. assert (Q : fv n = 1%Z) by (destruct n as [|[|n]]; [reflexivity|reflexivity|lia]).
  unfold kr. rewrite Q. apply lrec_base. unfold fibonacci. destruct (Nat.ltb_spec n 2); [auto|lia].
Qed.
Lemma fib_body n : 2 <= n -> exists b, F n = inr b.
Proof. intros H. unfold fibonacci. destruct (Nat.ltb_spec n 2); [lia|eauto]. Qed.
Lemma kr_hit n ks : 2 <= n -> In n ks -> kr n ks (rm n ks ++ [n]) 1 0.
Proof.
  intros H I. destruct (fib_body H) as (b & Q). unfold kr. rewrite tag_app, <- without_tag.
  change (fv n) with (snd (n, fv n)). eapply lrec_hit; eauto. rewrite look_tag.
  replace (existsb (Nat.eqb n) ks) with true; auto. symmetry. apply existsb_exists. exists n. split; auto. apply Nat.eqb_refl.
Qed.
Lemma not_in k ks : ~ In k ks -> existsb (Nat.eqb k) ks = false.
Proof.
  intros H. destruct (existsb (Nat.eqb k) ks) eqn:X; auto. apply existsb_exists in X as (j & I & X).
  apply Nat.eqb_eq in X. subst. tauto.
Qed.
Lemma kr_left n ks k1 k2 h1 m1 h2 m2 : 2 <= n -> lf n = true -> ~ In n ks ->
  kr (n - 1) ks k1 h1 m1 -> kr (n - 2) k1 k2 h2 m2 -> kr n ks (kput n k2) (h1 + h2) (S (m1 + m2)).
Proof.
  intros H L I A B. unfold kr. rewrite <- cput_tag, <- (fv_rec H). eapply lrec_miss.
  - unfold fibonacci. destruct (Nat.ltb_spec n 2); [lia|]. rewrite L. reflexivity.
  - rewrite look_tag, not_in; auto.
  - eapply lfol_need; [exact A|]. rewrite <- (Nat.add_0_r h2), <- (Nat.add_0_r m2). eapply lfol_need; [exact B|]. apply lfol_give.
Qed.
Lemma kr_right n ks k1 k2 h1 m1 h2 m2 : 2 <= n -> lf n = false -> ~ In n ks ->
  kr (n - 2) ks k1 h1 m1 -> kr (n - 1) k1 k2 h2 m2 -> kr n ks (kput n k2) (h1 + h2) (S (m1 + m2)).
Proof.
  intros H L I A B. unfold kr. rewrite <- cput_tag, <- (fv_rec H). eapply lrec_miss.
  - unfold fibonacci. destruct (Nat.ltb_spec n 2); [lia|]. rewrite L. reflexivity.
  - rewrite look_tag, not_in; auto.
  - eapply lfol_need; [exact A|]. rewrite <- (Nat.add_0_r h2), <- (Nat.add_0_r m2). eapply lfol_need; [exact B|]. apply lfol_give.
Qed.

Lemma rm_notin k ks : ~ In k ks -> rm k ks = ks.
Proof.
  unfold rm. induction ks as [|j ks IH]; simpl; auto. intros H. destruct (Nat.eqb_spec k j); [subst; tauto|].
  simpl. f_equal. apply IH. tauto.
Qed.
Lemma rm_app k a b : rm k (a ++ b) = rm k a ++ rm k b. Proof. apply filter_app. Qed.

(** Enough room, any order of evaluation: after asking for [k] when the keys are
    2 ... m, the keys are 2 ... max k m. *)
Definition upto (m : nat) (ks : list nat) : Prop := NoDup ks /\ forall j, In j ks <-> 2 <= j <= m.
(** Calls for keys >= 2 made by the computations of 2 ... m. *)
Definition calls (m : nat) : nat := 2 * m - 5.

Lemma upto_length m ks : upto m ks -> length ks = m - 1.
Proof.
  intros (N & I). assert (L : length ks <= length (seq 2 (m - 1))).
  { apply NoDup_incl_length; auto. intros j J. apply I in J. apply in_seq. lia. }
  assert (L' : length (seq 2 (m - 1)) <= length ks).
  { apply NoDup_incl_length; [apply seq_NoDup|]. intros j J. apply in_seq in J. apply I. lia. }
  rewrite seq_length in *. lia.
Qed.
Lemma NoDup_snoc {A} (l : list A) x : NoDup l -> ~ In x l -> NoDup (l ++ [x]).
Proof. intros N I. eapply Permutation.Permutation_NoDup; [apply Permutation.Permutation_cons_append|]. constructor; auto. Qed.
Lemma upto_bump m k ks : upto m ks -> In k ks -> upto m (rm k ks ++ [k]).
Proof.
  intros (N & I) J.
  assert (X : forall j, In j (rm k ks) <-> In j ks /\ k <> j).
  { intros j. unfold rm. rewrite filter_In. destruct (Nat.eqb_spec k j); simpl; split; intros (A & B); split; auto; congruence. }
  split.
  - apply NoDup_snoc; [apply NoDup_filter; auto|]. rewrite X. tauto.
  - intros j. rewrite in_app_iff, X. simpl. rewrite <- I. split; [intros [(A & _)|[<-|[]]]; auto|].
    intros A. destruct (Nat.eq_dec k j); auto.
Qed.
Lemma newest_all {A} m (l : list A) : length l <= m -> newest m l = l.
Proof. intros H. unfold newest. replace (length l - m) with 0 by lia. auto. Qed.
Lemma upto_put k ks : upto (k - 1) ks -> 2 <= k -> k - 1 <= cap -> upto k (kput k ks).
Proof.
  intros U H C. pose proof (upto_length U) as L. destruct U as (N & I).
  assert (NI : ~ In k ks) by (rewrite I; lia).
  unfold kput. destruct (Nat.eqb_spec cap 0); [lia|]. rewrite (not_in NI).
  rewrite newest_all by (rewrite app_length; simpl; lia). split; [apply NoDup_snoc; auto|].
  intros j. rewrite in_app_iff, I. simpl. lia.
Qed.
Definition one (j : nat) : nat := if Nat.leb 2 j then 1 else 0.

Lemma fib_roomy k : forall m ks, 1 <= m -> upto m ks -> Nat.max k m - 1 <= cap ->
  exists ks' h, kr k ks ks' h (k - m) /\ upto (Nat.max k m) ks' /\ h + (k - m) + calls m = one k + calls (Nat.max k m).
Proof.
  induction k as [k IH] using (well_founded_induction lt_wf). intros m ks M U C.
  destruct (le_lt_dec 2 k) as [K|K].
  2:{ exists ks, 0. replace (k - m) with 0 by lia. replace (Nat.max k m) with m by lia. split; [apply kr_base; auto|].
      split; auto. unfold one. destruct (Nat.leb_spec 2 k); lia. }
  destruct (le_lt_dec k m) as [KM|KM].
  { assert (I : In k ks) by (apply U; lia). exists (rm k ks ++ [k]), 1. replace (k - m) with 0 by lia.
    replace (Nat.max k m) with m by lia. split; [apply kr_hit; auto|]. split; [apply upto_bump; auto|].
    unfold one. destruct (Nat.leb_spec 2 k); lia. }
  assert (NI : ~ In k ks) by (intros I; apply U in I; lia).
  assert (OK : one k = 1) by (unfold one; destruct (Nat.leb_spec 2 k); lia).
  assert (O12 : one (k - 1) + one (k - 2) + calls (k - 1) = calls k).
  { unfold one, calls. destruct (Nat.leb_spec 2 (k - 1)), (Nat.leb_spec 2 (k - 2)); lia. }
  assert (O1 : one (k - 2) + one (k - 3) + calls (k - 2) = calls (k - 1)).
  { unfold one, calls. destruct (Nat.leb_spec 2 (k - 2)), (Nat.leb_spec 2 (k - 3)); lia. }
  replace (Nat.max k m) with k in * by lia.
  destruct (lf k) eqn:LF.
  - destruct (IH (k - 1) ltac:(lia) m ks M U ltac:(lia)) as (k1 & h1 & A1 & U1 & C1).
    replace (Nat.max (k - 1) m) with (k - 1) in * by lia.
    destruct (IH (k - 2) ltac:(lia) (k - 1) k1 ltac:(lia) U1 ltac:(lia)) as (k2 & h2 & A2 & U2 & C2).
    replace (Nat.max (k - 2) (k - 1)) with (k - 1) in * by lia.
    exists (kput k k2), (h1 + h2). split; [|split; [apply upto_put; auto|lia]].
    replace (k - m) with (S ((k - 1 - m) + (k - 2 - (k - 1)))) by lia. eapply kr_left; eauto.
  - destruct (IH (k - 2) ltac:(lia) m ks M U ltac:(lia)) as (k1 & h1 & A1 & U1 & C1).
    destruct (IH (k - 1) ltac:(lia) (Nat.max (k - 2) m) k1 ltac:(lia) U1 ltac:(lia)) as (k2 & h2 & A2 & U2 & C2).
    replace (Nat.max (k - 1) (Nat.max (k - 2) m)) with (k - 1) in * by lia.
    exists (kput k k2), (h1 + h2). split; [|split; [apply upto_put; auto|lia]].
    replace (k - m) with (S ((k - 2 - m) + (k - 1 - Nat.max (k - 2) m))) by lia. eapply kr_right; eauto.
Qed.
Lemma fib_enough n : n - 1 <= cap -> exists ks, kr n [] ks (n - 3) (n - 1).
Proof.
  intros C. destruct (@fib_roomy n 1 []) as (ks & h & A & _ & Q); [lia| |lia|].
  { split; [constructor|]. simpl. intros j. lia. }
  exists ks. replace (n - 3) with h; auto. unfold one, calls in Q. destruct (Nat.leb_spec 2 n); lia.
Qed.

(** ** Little room *)
Lemma newest_app {A} m (q r : list A) : length r <= m -> newest m (q ++ r) = newest (m - length r) q ++ r.
Proof.
  intros H. unfold newest. rewrite app_length, skipn_app.
  replace (length q + length r - m) with (length q - (m - length r)) by lia. f_equal.
  replace (length q - (m - length r) - length q) with 0 by lia. auto.
Qed.
Definition bounded (b : nat) (ks : list nat) : Prop := Forall (fun j => j <= b) ks.
Lemma bounded_sub b ks ks' : incl ks' ks -> bounded b ks -> bounded b ks'.
Proof. unfold bounded. rewrite !Forall_forall. auto. Qed.
Lemma rm_incl k ks : incl (rm k ks) ks.
Proof. intros j I. unfold rm in I. apply filter_In in I. tauto. Qed.
Lemma newest_incl {A} m (l : list A) : incl (newest m l) l.
Proof. intros j I. unfold newest in I. eapply in_skipn; eauto. Qed.
Lemma bounded_app b a a' : bounded b (a ++ a') <-> bounded b a /\ bounded b a'.
Proof. apply Forall_app. Qed.
Lemma bounded_weak b b' ks : b <= b' -> bounded b ks -> bounded b' ks.
Proof. intros H. apply Forall_impl. intros; lia. Qed.
Lemma above b k ks : bounded b ks -> b < k -> ~ In k ks.
Proof. unfold bounded. rewrite Forall_forall. intros B H I. apply B in I. lia. Qed.
Lemma kput_above b k ks : bounded b ks -> b < k -> cap <> 0 -> kput k ks = newest cap (ks ++ [k]).
Proof. intros B H C. unfold kput. destruct (Nat.eqb_spec cap 0); [lia|]. rewrite not_in; auto. eapply above; eauto. Qed.

Ltac rms := repeat match goal with
  | |- context [rm ?k (?a ++ ?b)] => rewrite (rm_app k a b)
  | |- context [rm ?k (?a :: ?l)] => unfold rm at 1; simpl filter
  end.
Lemma rm_cons_same k ks : rm k (k :: ks) = rm k ks.
Proof. unfold rm. simpl. rewrite Nat.eqb_refl. auto. Qed.
Lemma rm_cons_other k j ks : k <> j -> rm k (j :: ks) = j :: rm k ks.
Proof. intros H. unfold rm. simpl. destruct (Nat.eqb_spec k j); [congruence|auto]. Qed.

(** Room for three, any order: [n] is the most recent key and [n - 1] one of the
    two before it. *)
Definition near (n : nat) (ks : list nat) : Prop :=
  bounded n ks /\ exists p xs, ks = p ++ (n - 1) :: xs ++ [n] /\ length xs <= 1.
Lemma near_in n ks : near n ks -> In n ks /\ In (n - 1) ks.
Proof. intros (_ & p & xs & -> & _). split; apply in_app_iff; right; simpl; auto. right. apply in_app_iff. simpl. auto. Qed.
Lemma bounded_rm b k ks : bounded b ks -> bounded b (rm k ks).
Proof. apply bounded_sub, rm_incl. Qed.
Lemma bounded_one b k : k <= b -> bounded b [k]. Proof. repeat constructor; auto. Qed.
Lemma bounded_newest b m ks : bounded b ks -> bounded b (newest m ks).
Proof. apply bounded_sub, newest_incl. Qed.
(** The older one is used. *)
Lemma near_hit n ks : 1 <= n -> near n ks -> exists q, rm (n - 1) ks ++ [n - 1] = q ++ [n; n - 1] /\ bounded n q.
Proof.
  intros N (B & p & xs & -> & _). exists (rm (n - 1) p ++ rm (n - 1) xs).
  rewrite rm_app, rm_cons_same, rm_app, rm_cons_other by lia. split; [rewrite <- !app_assoc; auto|].
  apply bounded_app in B as (B1 & B2). inversion B2; subst. apply bounded_app in H2 as (B3 & _).
  apply bounded_app. split; apply bounded_rm; auto.
Qed.
(** Both are used, in whatever order. *)
Lemma near_both n ks : 3 <= n -> near n ks ->
  exists q a b, bounded n (q ++ [a; b]) /\
    kr (if lf (S n) then n else n - 1) ks (rm (if lf (S n) then n else n - 1) ks ++ [if lf (S n) then n else n - 1]) 1 0 /\
    kr (if lf (S n) then n - 1 else n) (rm (if lf (S n) then n else n - 1) ks ++ [if lf (S n) then n else n - 1]) (q ++ [a; b]) 1 0.
Proof.
  intros N NR. destruct (near_in NR) as (I1 & I2). pose proof NR as (B & _). destruct (lf (S n)).
  - assert (I3 : In (n - 1) (rm n ks)).
    { unfold rm. apply filter_In. split; auto. destruct (Nat.eqb_spec n (n - 1)); auto; lia. }
    exists (rm (n - 1) (rm n ks)), n, (n - 1). split.
    { apply bounded_app. split; [do 2 apply bounded_rm; auto|]. repeat constructor; lia. }
    split; [apply kr_hit; auto; lia|].
    replace (rm (n - 1) (rm n ks) ++ [n; n - 1]) with (rm (n - 1) (rm n ks ++ [n]) ++ [n - 1]).
    + apply kr_hit; [lia|]. apply in_app_iff. auto.
    + rewrite rm_app, rm_cons_other by lia. simpl. rewrite <- app_assoc. auto.
  - assert (I3 : In n (rm (n - 1) ks)).
    { unfold rm. apply filter_In. split; auto. destruct (Nat.eqb_spec (n - 1) n); auto; lia. }
    exists (rm n (rm (n - 1) ks)), (n - 1), n. split.
    { apply bounded_app. split; [do 2 apply bounded_rm; auto|]. repeat constructor; lia. }
    split; [apply kr_hit; auto; lia|].
    replace (rm n (rm (n - 1) ks) ++ [n - 1; n]) with (rm n (rm (n - 1) ks ++ [n - 1]) ++ [n]).
    + apply kr_hit; [lia|]. apply in_app_iff. auto.
    + rewrite rm_app, rm_cons_other by lia. simpl. rewrite <- app_assoc. auto.
Qed.
Lemma kr_next n ks : 3 <= cap -> 3 <= n -> near n ks ->
  exists q a b, bounded n (q ++ [a; b]) /\ kr (S n) ks (newest (cap - 3) q ++ [a; b; S n]) 2 1.
Proof.
  intros C N NR. destruct (near_both N NR) as (q & a & b & B & A1 & A2). exists q, a, b. split; auto.
  assert (NI : ~ In (S n) ks) by (destruct NR as (B' & _); eapply above; eauto).
  replace (newest (cap - 3) q ++ [a; b; S n]) with (kput (S n) (q ++ [a; b])).
  - destruct (lf (S n)) eqn:L.
    + replace n with (S n - 1) in A1 by lia. replace (n - 1) with (S n - 2) in A2 by lia.
      apply (@kr_left (S n) ks _ _ 1 0 1 0 ltac:(lia) L NI A1). replace (S n - 1) with n by lia. exact A2.
    + apply (@kr_right (S n) ks (rm (n - 1) ks ++ [n - 1]) _ 1 0 1 0); auto; try lia.
      replace (S n - 1) with n by lia. exact A2.
  - rewrite (@kput_above n); auto; try lia. rewrite <- app_assoc. simpl. rewrite newest_app by (simpl; lia). auto.
Qed.
Lemma fib_three n : 3 <= cap -> 3 <= n -> exists ks, near n ks /\ kr n [] ks (n - 3) (n - 1).
Proof.
  intros C. induction n as [n IH] using (well_founded_induction lt_wf). intros N.
  assert (P1 : kput 2 [] = [2]).
  { unfold kput. destruct (Nat.eqb_spec cap 0); [lia|]. simpl. apply newest_all. simpl; lia. }
  assert (P2 : kput 3 [2] = [2; 3]).
  { unfold kput. destruct (Nat.eqb_spec cap 0); [lia|]. simpl. apply newest_all. simpl; lia. }
  assert (A2 : kr 2 [] [2] 0 1).
  { rewrite <- P1. destruct (lf 2) eqn:L;
      [apply (@kr_left 2 [] [] [] 0 0 0 0)|apply (@kr_right 2 [] [] [] 0 0 0 0)]; auto; apply kr_base; lia. }
  assert (H2 : kr 2 [2] [2] 1 0) by (apply (@kr_hit 2 [2]); simpl; auto).
  assert (A3 : kr 3 [2] [2; 3] 1 1).
  { rewrite <- P2. destruct (lf 3) eqn:L;
      [apply (@kr_left 3 [2] [2] [2] 1 0 0 0)|apply (@kr_right 3 [2] [2] [2] 0 0 1 0)]; auto; simpl; try (apply kr_base); lia. }
  assert (A3' : kr 3 [] [2; 3] 0 2).
  { rewrite <- P2. destruct (lf 3) eqn:L;
      [apply (@kr_left 3 [] [2] [2] 0 1 0 0)|apply (@kr_right 3 [] [] [2] 0 0 0 1)]; auto; apply kr_base; lia. }
  destruct (le_lt_dec n 3) as [N3|N3].
  { assert (n = 3) as -> by lia. exists [2; 3]. split; [split; [repeat constructor; lia|]|auto]. exists [], []. auto. }
  assert (PN : forall q a b, bounded (n - 1) (q ++ [a; b]) -> kput n (q ++ [a; b]) = newest (cap - 3) q ++ [a; b; n]).
  { intros q a b B. rewrite (@kput_above (n - 1)); auto; try lia. rewrite <- app_assoc. simpl.
    rewrite newest_app by (simpl; lia). auto. }
  assert (BN : forall q a b, bounded (n - 1) (q ++ [a; b]) -> bounded n (newest (cap - 3) q ++ [a; b; n])).
  { intros q a b B. apply bounded_app in B as (B1 & B2). apply bounded_app. split.
    - apply bounded_newest. eapply bounded_weak; [|exact B1]. lia.
    - inversion B2; subst. inversion H3; subst. repeat constructor; lia. }
  assert (NI : ~ In n []) by (simpl; tauto).
  destruct (lf n) eqn:L.
  - destruct (IH (n - 1) ltac:(lia) ltac:(lia)) as (ks & NR & A).
    destruct (@near_hit (n - 1) ks ltac:(lia) NR) as (q & Q & B). destruct (near_in NR) as (_ & I).
    replace (n - 1 - 1) with (n - 2) in * by lia.
    assert (A' : kr (n - 2) ks (q ++ [n - 1; n - 2]) 1 0) by (rewrite <- Q; apply kr_hit; auto; lia).
    assert (B' : bounded (n - 1) (q ++ [n - 1; n - 2])) by (apply bounded_app; split; auto; repeat constructor; lia).
    exists (kput n (q ++ [n - 1; n - 2])). split.
    + rewrite PN by auto. split; [apply BN; auto|]. exists (newest (cap - 3) q), [n - 2]. auto.
    + eapply kr_eq; [eapply kr_left; eauto; lia|lia|lia].
  - destruct (Nat.eq_dec n 4) as [->|N4].
    + exists (kput 4 [2; 3]). split.
      * change [2; 3] with ([] ++ [2; 3]). rewrite PN; [|repeat constructor; lia].
        split; [apply BN; repeat constructor; lia|]. unfold newest. simpl. exists [2], []. auto.
      * apply (@kr_right 4 [] [2] [2; 3] 0 1 1 1); auto.
    + destruct (IH (n - 2) ltac:(lia) ltac:(lia)) as (ks & NR & A).
      destruct (@kr_next (n - 2) ks C ltac:(lia) NR) as (q & a & b & B & A').
      replace (S (n - 2)) with (n - 1) in * by lia.
      assert (B' : bounded (n - 1) ((newest (cap - 3) q ++ [a]) ++ [b; n - 1])).
      { rewrite <- app_assoc. apply bounded_app in B as (B1 & B2). inversion B2; subst. inversion H3; subst.
        apply bounded_app. split; [apply bounded_newest; eapply bounded_weak; [|exact B1]; lia|]. repeat constructor; lia. }
      assert (Q : newest (cap - 3) q ++ [a; b; n - 1] = (newest (cap - 3) q ++ [a]) ++ [b; n - 1]) by (rewrite <- app_assoc; auto).
      rewrite Q in A'. exists (kput n ((newest (cap - 3) q ++ [a]) ++ [b; n - 1])). split.
      * rewrite PN by auto. split; [apply BN; auto|].
        exists (newest (cap - 3) (newest (cap - 3) q ++ [a]) ++ [b]), []. split; auto. rewrite <- app_assoc. auto.
      * eapply kr_eq; [eapply kr_right; eauto; lia|lia|lia].
Qed.

(** Right operand first, room for two. *)
Lemma fib_right n : (forall i, lf i = false) -> 2 <= cap -> 3 <= n ->
  exists p, bounded n p /\ kr n [] (p ++ [n - 1; n]) (n - 3) (n - 1).
Proof.
  intros L C. induction n as [n IH] using (well_founded_induction lt_wf). intros N.
  assert (A2 : kr 2 [] [2] 0 1).
  { replace [2] with (kput 2 []). apply (@kr_right 2 [] [] [] 0 0 0 0); auto; try (apply kr_base; lia).
    unfold kput. destruct (Nat.eqb_spec cap 0); [lia|]. simpl. apply newest_all. simpl; lia. }
  destruct (le_lt_dec n 4) as [N4|N4].
  - destruct (Nat.eq_dec n 3) as [->|N3].
    + exists []. split; [constructor|]. simpl. replace [2; 3] with (kput 3 [2]).
      * apply (@kr_right 3 [] [] [2] 0 0 0 1); auto; try (apply kr_base; lia).
      * unfold kput. destruct (Nat.eqb_spec cap 0); [lia|]. simpl. apply newest_all. simpl; lia.
    + assert (n = 4) as -> by lia.
      assert (A3 : kr 3 [2] [2; 3] 1 1).
      { replace [2; 3] with (kput 3 [2]).
        - apply (@kr_right 3 [2] [2] [2] 0 0 1 0); auto; try (apply kr_base; lia); simpl; try lia.
          apply (@kr_hit 2 [2]); simpl; auto.
        - unfold kput. destruct (Nat.eqb_spec cap 0); [lia|]. simpl. apply newest_all. simpl; lia. }
      exists (newest (cap - 2) [2]). split; [eapply bounded_sub; [apply newest_incl|]; repeat constructor; lia|].
      replace (newest (cap - 2) [2] ++ [4 - 1; 4]) with (kput 4 [2; 3]).
      * apply (@kr_right 4 [] [2] [2; 3] 0 1 1 1); auto.
      * unfold kput. destruct (Nat.eqb_spec cap 0); [lia|]. simpl existsb. cbn iota.
        change ([2; 3] ++ [4]) with ([2] ++ [3; 4]). rewrite newest_app by (simpl; lia). auto.
  - destruct (IH (n - 2) ltac:(lia) ltac:(lia)) as (p & B & A).
    replace (n - 2 - 1) with (n - 3) in * by lia. replace (n - 2 - 3) with (n - 5) in * by lia.
    set (q := rm (n - 2) (rm (n - 3) p)).
    assert (Bq : bounded (n - 2) q).
    { eapply bounded_sub; [|exact B]. intros j I. apply rm_incl in I. apply rm_incl in I. auto. }
    assert (H3 : kr (n - 3) (p ++ [n - 3; n - 2]) (rm (n - 3) p ++ [n - 2; n - 3]) 1 0).
    { replace (rm (n - 3) p ++ [n - 2; n - 3]) with (rm (n - 3) (p ++ [n - 3; n - 2]) ++ [n - 3]).
      - apply kr_hit; [lia|]. apply in_app_iff. simpl. auto.
      - rewrite rm_app, rm_cons_same, rm_cons_other by lia. simpl. rewrite <- app_assoc. auto. }
    assert (H2 : kr (n - 2) (rm (n - 3) p ++ [n - 2; n - 3]) (q ++ [n - 3; n - 2]) 1 0).
    { replace (q ++ [n - 3; n - 2]) with (rm (n - 2) (rm (n - 3) p ++ [n - 2; n - 3]) ++ [n - 2]).
      - apply kr_hit; [lia|]. apply in_app_iff. simpl. auto.
      - rewrite rm_app, rm_cons_same, rm_cons_other by lia. simpl. rewrite <- app_assoc. auto. }
    set (q1 := newest (cap - 2) (q ++ [n - 3])).
    assert (Bq1 : bounded (n - 2) q1).
    { eapply bounded_sub; [apply newest_incl|]. apply bounded_app. split; auto. repeat constructor; lia. }
    assert (H1 : kr (n - 1) (p ++ [n - 3; n - 2]) (q1 ++ [n - 2; n - 1]) 2 1).
    { replace (q1 ++ [n - 2; n - 1]) with (kput (n - 1) (q ++ [n - 3; n - 2])).
      - apply (@kr_right (n - 1) _ (rm (n - 3) p ++ [n - 2; n - 3]) (q ++ [n - 3; n - 2]) 1 0 1 0); auto; try lia.
        + eapply (@above (n - 2)); [|lia]. apply bounded_app. split; auto. repeat constructor; lia.
        + replace (n - 1 - 2) with (n - 3) by lia. auto.
        + replace (n - 1 - 1) with (n - 2) by lia. auto.
      - rewrite (@kput_above (n - 2)); try lia.
        + replace ((q ++ [n - 3; n - 2]) ++ [n - 1]) with ((q ++ [n - 3]) ++ [n - 2; n - 1]) by (rewrite <- !app_assoc; auto).
          rewrite newest_app by (simpl; lia). auto.
        + apply bounded_app. split; auto. repeat constructor; lia. }
    exists (newest (cap - 2) (q1 ++ [n - 2])). split.
    + eapply bounded_sub; [apply newest_incl|]. apply bounded_app. split; [eapply bounded_weak; [|exact Bq1]; lia|].
      repeat constructor; lia.
    + replace (newest (cap - 2) (q1 ++ [n - 2]) ++ [n - 1; n]) with (kput n (q1 ++ [n - 2; n - 1])).
      * eapply kr_eq; [eapply kr_right; eauto; lia|lia|lia].
      * rewrite (@kput_above (n - 1)); try lia.
        -- replace ((q1 ++ [n - 2; n - 1]) ++ [n]) with ((q1 ++ [n - 2]) ++ [n - 1; n]) by (rewrite <- !app_assoc; auto).
           rewrite newest_app by (simpl; lia). auto.
        -- apply bounded_app. split; [eapply bounded_weak; [|exact Bq1]; lia|]. repeat constructor; lia.
Qed.

(** Left operand first, room for two only: from any state without the keys needed. *)
Lemma left_counts n : 5 <= n ->
  left_hits n = left_hits (n - 1) + left_hits (n - 4) + 1 /\
  left_misses n = left_misses (n - 1) + left_misses (n - 4) + 2.
Proof.
  intros H. do 5 (destruct n as [|n]; [lia|]).
  replace (S (S (S (S (S n)))) - 1) with (S (S (S (S n)))) by lia.
  replace (S (S (S (S (S n)))) - 4) with (S n) by lia. split; reflexivity.
Qed.
Definition two_left (n : nat) (ks : list nat) : list nat :=
  match n with
  | O | 1 => ks
  | 2 => newest 1 ks ++ [2]
  | 3 => [2; 3]
  | _ => [n - 2; n]
  end.
Definition over (n : nat) (ks : list nat) : Prop := forall j, In j ks -> n < j.
Lemma over_not n k ks : over n ks -> k <= n -> ~ In k ks.
Proof. intros O H I. apply O in I. lia. Qed.
Lemma two_put k l : cap = 2 -> ~ In k l -> kput k l = newest 1 l ++ [k].
Proof.
  intros C I. unfold kput. destruct (Nat.eqb_spec cap 0); [lia|]. rewrite (not_in I), C.
  rewrite newest_app by (simpl; lia). reflexivity.
Qed.
Lemma newest_last {A} (p : list A) x : newest 1 (p ++ [x]) = [x].
Proof. rewrite newest_app by (simpl; lia). simpl. unfold newest. rewrite Nat.sub_0_r, skipn_all. reflexivity. Qed.
Lemma fib_two n : (forall i, lf i = true) -> cap = 2 -> forall ks, over n ks ->
  kr n ks (two_left n ks) (left_hits n) (left_misses n).
Proof.
  intros L C. induction n as [n IH] using (well_founded_induction lt_wf). intros ks O.
  destruct (le_lt_dec n 1) as [N1|N1].
  { destruct n as [|[|n]]; [apply kr_base; lia|apply kr_base; lia|lia]. }
  destruct (Nat.eq_dec n 2) as [->|N2].
  { simpl. rewrite <- two_put; auto; [|eapply over_not; eauto].
    apply (@kr_left 2 ks ks ks 0 0 0 0); auto; [eapply over_not; eauto|apply kr_base; lia|apply kr_base; lia]. }
  assert (NI : ~ In n ks) by (eapply over_not; eauto).
  assert (A1 : kr (n - 1) ks (two_left (n - 1) ks) (left_hits (n - 1)) (left_misses (n - 1))).
  { apply IH; [lia|]. intros j I. apply O in I. lia. }
  destruct (Nat.eq_dec n 3) as [->|N3].
  { replace (two_left 3 ks) with (kput 3 (newest 1 ks ++ [2])).
    - apply (@kr_left 3 ks (newest 1 ks ++ [2]) _ 0 1 0 0); auto. apply kr_base. lia.
    - rewrite two_put; auto; [rewrite newest_last; reflexivity|].
      rewrite in_app_iff. intros [I|[I|[]]]; [|lia]. apply newest_incl in I. auto. }
  destruct (Nat.eq_dec n 4) as [->|N4].
  { change (two_left 4 ks) with (newest 1 [3; 2] ++ [4]). rewrite <- two_put; auto; [|simpl; lia].
    apply (@kr_left 4 ks [2; 3] [3; 2] 0 2 1 0); auto. apply (@kr_hit 2 [2; 3]); simpl; auto. }
  assert (Q : two_left (n - 1) ks = [n - 3; n - 1]).
  { do 5 (destruct n as [|n]; [lia|]). simpl. reflexivity. }
  rewrite Q in A1.
  destruct (@left_counts n ltac:(lia)) as (-> & ->).
  assert (OV : over (n - 4) [n - 1; n - 3]) by (intros j [<-|[<-|[]]]; lia).
  assert (A4 : kr (n - 4) [n - 1; n - 3] (two_left (n - 4) [n - 1; n - 3]) (left_hits (n - 4)) (left_misses (n - 4)))
    by (apply IH; [lia|exact OV]).
  assert (A3 : kr (n - 3) [n - 3; n - 1] [n - 1; n - 3] 1 0).
  { replace [n - 1; n - 3] with (rm (n - 3) [n - 3; n - 1] ++ [n - 3]).
    - apply kr_hit; [lia|]. simpl. auto.
    - rewrite rm_cons_same, rm_cons_other by lia. reflexivity. }
  set (k4 := two_left (n - 4) [n - 1; n - 3]) in *.
  assert (B4 : forall j, In j k4 -> j = n - 1 \/ j = n - 3 \/ j <= n - 4).
  { intros j. unfold k4. destruct (n - 4) as [|[|[|[|m]]]] eqn:W; simpl.
    - intuition lia.
    - intuition lia.
    - unfold newest. simpl. intuition lia.
    - intuition lia.
    - intuition lia. }
  assert (A2 : kr (n - 2) [n - 3; n - 1] (newest 1 k4 ++ [n - 2]) (1 + left_hits (n - 4)) (S (0 + left_misses (n - 4)))).
  { rewrite <- two_put; auto.
    - apply (@kr_left (n - 2) _ [n - 1; n - 3] k4); auto; try lia.
      + simpl. lia.
      + replace (n - 2 - 1) with (n - 3) by lia. exact A3.
      + replace (n - 2 - 2) with (n - 4) by lia. exact A4.
    - intros I. apply B4 in I. lia. }
  replace (two_left n ks) with (kput n (newest 1 k4 ++ [n - 2])).
  - eapply kr_eq; [eapply kr_left; eauto; lia|lia|lia].
  - rewrite two_put; auto.
    + rewrite newest_last. do 5 (destruct n as [|n]; [lia|]). reflexivity.
    + rewrite in_app_iff. intros [I|[I|[]]]; [|lia]. apply newest_incl, B4 in I. lia.
Qed.
Lemma left_more n : 4 <= n -> n - 1 <= left_misses n /\ (5 <= n -> n <= left_misses n).
Proof.
  intros H. induction n as [|n IH]; [lia|]. destruct (Nat.eq_dec n 3) as [->|N]; [simpl; lia|].
  destruct (@left_counts (S n) ltac:(lia)) as (_ & ->). replace (S n - 1) with n by lia.
  specialize (IH ltac:(lia)). lia.
Qed.

(** No room, or room for one and the left operand first: every call but those for 0
    and 1 misses. *)
Definition one_left (n : nat) (ks : list nat) : list nat :=
  if Nat.eqb cap 0 then ks else if Nat.ltb n 2 then ks else [n].
Lemma fib_less n : cap = 0 \/ cap = 1 /\ (forall i, lf i = true) -> forall ks, over n ks -> (cap = 0 -> ks = []) ->
  kr n ks (one_left n ks) 0 (Z.to_nat (fib n) - 1).
Proof.
  intros CL. induction n as [n IH] using (well_founded_induction lt_wf). intros ks O Z0.
  destruct (le_lt_dec 2 n) as [H|H].
  2:{ replace (one_left n ks) with ks.
      - destruct n as [|[|n]]; [apply kr_base; lia|apply kr_base; lia|lia].
      - unfold one_left. destruct (Nat.eqb cap 0), (Nat.ltb_spec n 2); auto; lia. }
  assert (NI : ~ In n ks) by (eapply over_not; eauto).
  assert (Q : Z.to_nat (fib n) - 1 = S (Z.to_nat (fib (n - 1)) - 1 + (Z.to_nat (fib (n - 2)) - 1)) /\ True).
  { split; auto. rewrite (fib_rec H).
    assert (P : forall m, (0 < fib m)%Z) by (intros m; apply positive_fib).
    pose proof (P (n - 1)). pose proof (P (n - 2)). lia. }
  destruct Q as (-> & _).
  destruct CL as [C|(C & L)].
  - specialize (Z0 C). subst ks.
    assert (ON : forall m l, one_left m l = l) by (intros m l; unfold one_left; rewrite C; reflexivity).
    assert (A : forall m, m < n -> kr m [] [] 0 (Z.to_nat (fib m) - 1)).
    { intros m LT. rewrite <- (ON m []) at 2. apply IH; auto. intros j []. }
    rewrite ON. replace (@nil nat) with (kput n []) at 2 by (unfold kput; rewrite C; reflexivity).
    destruct (lf n) eqn:LF.
    + eapply (@kr_left n [] [] [] 0 _ 0 _); auto; apply A; lia.
    + eapply kr_eq; [eapply (@kr_right n [] [] [] 0 _ 0 _); auto; apply A; lia|auto|lia].
  - assert (O1 : over (n - 1) ks) by (intros j I; apply O in I; lia).
    pose proof (IH (n - 1) ltac:(lia) ks O1 ltac:(lia)) as A1.
    assert (O2 : over (n - 2) (one_left (n - 1) ks)).
    { unfold one_left. rewrite C. simpl. destruct (Nat.ltb (n - 1) 2); intros j I; [apply O in I; lia|].
      destruct I as [<-|[]]. lia. }
    pose proof (IH (n - 2) ltac:(lia) (one_left (n - 1) ks) O2 ltac:(lia)) as A2.
    set (k2 := one_left (n - 2) (one_left (n - 1) ks)) in *.
    replace (one_left n ks) with (kput n k2).
    + apply (@kr_left n ks (one_left (n - 1) ks) k2 0 _ 0 _); auto.
    + unfold kput. rewrite C. simpl. rewrite not_in.
      * rewrite newest_last. unfold one_left. rewrite C. simpl. destruct (Nat.ltb_spec n 2); [lia|auto].
      * unfold k2, one_left. rewrite C. simpl. intros I.
        destruct (Nat.ltb (n - 2) 2); [destruct (Nat.ltb (n - 1) 2)|]; [auto| |]; destruct I as [I|[]]; lia.
Qed.
End Fib.

(** ** The function *)
Lemma means_fib lf n : means (fibonacci lf) n (inl (wrap64 (fib n))).
Proof.
  induction n as [n IH] using (well_founded_induction lt_wf). destruct (le_lt_dec 2 n) as [H|H].
  - assert (Q : wrap64 (fib n) = wrap64 (wrap64 (fib (n - 1)) + wrap64 (fib (n - 2)))) by (symmetry; apply (@fv_rec n H)).
    rewrite Q. eapply means_computed.
    { unfold fibonacci. destruct (Nat.ltb_spec n 2); [lia|]. reflexivity. }
    destruct (lf n); repeat (eapply yields_need; [apply IH; lia|]); apply yields_give.
  - destruct n as [|[|n]]; [apply means_base; reflexivity|apply means_base; reflexivity|lia].
Qed.
Lemma fib_respectful lf E : plain_keys E -> respectful (fibonacci lf) E.
Proof. intros PK a b X. rewrite PK in X. apply Nat.eqb_eq in X. congruence. Qed.
Lemma fib_pos n : (0 < fst (fib_pair n) <= snd (fib_pair n))%Z.
Proof. induction n; simpl; [lia|]. destruct (fib_pair n); simpl in *. lia. Qed.
Lemma fib_step n : (fib n <= fib (S n))%Z.
Proof. pose proof (@fib_pos n). unfold fib. simpl. destruct (fib_pair n); simpl in *. lia. Qed.
Lemma fib_mono a b : a <= b -> (fib a <= fib b)%Z.
Proof. induction 1; [lia|]. pose proof (@fib_step m). lia. Qed.
Lemma fib_fits n : (fib n < 2 ^ 64)%Z <-> n <= 92.
Proof.
  split; intros H.
  - destruct (le_lt_dec n 92); auto. pose proof (@fib_mono 93 n ltac:(lia)) as X.
    assert (Y : fib 93 = 19740274219868223167%Z) by (vm_compute; reflexivity). rewrite Y in X.
    assert (2 ^ 64 = 18446744073709551616)%Z by reflexivity. lia.
  - pose proof (@fib_mono n 92 H) as X.
    assert (Y : fib 92 = 12200160415121876738%Z) by (vm_compute; reflexivity). rewrite Y in X.
    assert (2 ^ 64 = 18446744073709551616)%Z by reflexivity. lia.
Qed.
Lemma fib_unwrapped n : n <= 92 -> wrap64 (fib n) = fib n.
Proof. intros H. apply fib_fits in H. unfold wrap64. apply Z.mod_small. pose proof (@fib_pos n). unfold fib in *. lia. Qed.

(** ** Worlds *)
Section Worlds.
Variable E : env nat Z.
Hypothesis G : good E.
Hypothesis PK : plain_keys E.
Variable lf : nat -> bool.
Notation F := (fibonacci lf).

Variable c : nat.
Variable put : nat -> Z -> op nat Z.
Hypothesis PUT : forall k v, puts c k v (put k v).

(** Any cache that is not timed and has correct contents: the number, modulo
    2^64. *)
Lemma fib_any w l n : reachable E w -> timed w c = false -> contents E c w l -> correct F l ->
  exists d0, forall d, d0 <= d -> exists w', memo E F put d c n w = Val (wrap64 (fib n)) w'.
Proof.
  intros H T C CR.
  destruct (memo_cache G (fib_respectful lf PK) PUT H T C CR (means_fib lf n)) as (d0 & X).
  exists d0. intros d LE. destruct (X d LE) as (w' & l' & Q & _). exists w'. exact Q.
Qed.

(** Calling fibonacci(n) with the fresh monitored cache. *)
Notation outcome_is w n h m := (fib_outcome E lf put c w n h m).

Lemma kr_outcome cap w n ks h m : monitored E cap c w -> kr E lf cap n [] ks h m -> outcome_is w n (2 * h) m.
Proof.
  intros (H & T & C & N & TT) A.
  destruct (alive_facts G H C) as (n' & ttl & _ & TL). pose proof (untimed_ttl T TL) as ->.
  assert (ST : st E c cap None False w []) by (apply st_intro; auto; tauto).
  destruct (proj1 (lrec_memo G F cap PUT) _ _ _ _ _ _ A) as (d0 & X).
  exists d0. intros d LE. destruct (X d LE w ST) as (w' & X1 & _ & X2). exists w'. split; auto.
  specialize (X2 0 0 0 TT). exact X2.
Qed.

Lemma fib_room cap w n : monitored E cap c w -> n - 1 <= cap -> outcome_is w n (2 * (n - 3)) (n - 1).
Proof. intros M C. destruct (fib_enough PK lf C) as (ks & A). eapply kr_outcome; eauto. Qed.
Lemma fib_from_three cap w n : monitored E cap c w -> 3 <= cap -> outcome_is w n (2 * (n - 3)) (n - 1).
Proof.
  intros M C. destruct (le_lt_dec 3 n) as [H|H].
  - destruct (fib_three PK lf C H) as (p & _ & A). eapply kr_outcome; eauto.
  - eapply fib_room; eauto. lia.
Qed.
Lemma fib_right_two cap w n : monitored E cap c w -> (forall i, lf i = false) -> 2 <= cap ->
  outcome_is w n (2 * (n - 3)) (n - 1).
Proof.
  intros M L C. destruct (le_lt_dec 3 n) as [H|H].
  - destruct (fib_right PK L C H) as (p & _ & A). eapply kr_outcome; eauto.
  - eapply fib_room; eauto. lia.
Qed.
Lemma fib_left_two w n : monitored E 2 c w -> (forall i, lf i = true) ->
  outcome_is w n (2 * left_hits n) (left_misses n) /\ (5 <= n -> n <= left_misses n).
Proof.
  intros M L. split; [|intros H; apply (proj2 (@left_more n ltac:(lia))); auto].
  eapply kr_outcome; eauto. apply (@fib_two E PK lf 2 n L eq_refl). intros j [].
Qed.
Lemma fib_no_room cap w n : monitored E cap c w -> cap = 0 \/ cap = 1 /\ (forall i, lf i = true) ->
  outcome_is w n 0 (Z.to_nat (fib n) - 1).
Proof.
  intros M L. apply (@kr_outcome cap w n (one_left cap n []) 0 (Z.to_nat (fib n) - 1) M). apply (@fib_less E PK lf cap n L); auto. intros j [].
Qed.
End Worlds.
