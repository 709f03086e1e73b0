(** What holds of every cache in every world a history can reach, copies of caches
    included: the map and the list of a cache describe the same keys, each once, and
    no more than the capacity.  Nothing is said of the list iterators stored in the
    nodes of a copy, nor of the record of the last accessed element, except that they
    never refer to a region made later than the one they are kept in. *)
From Coq Require Import List Arith ZArith Bool Permutation Lia.
Import ListNotations.
From Verif Require Import Monad Types Model Api Spec Ref Lists SimBase SimRel Effects.
Set Implicit Arguments.
Unset Strict Implicit.
Local Open Scope cpp_scope.

Section Any.
Context {K V : Type}.
Variable E : env K V.
Hypothesis G : good E.

Notation world := (world K V).
Notation store := (store K V).
Notation mnode := (mnode K V).
Notation M := (M world).
Implicit Types (w : world) (s : store).

(** A list node, its map node and the key. *)
Record lc : Type := LC { lq : nat; lm : nat; lk : K }.
Definition row (p : nat * mnode) : nat * K := (fst p, n_key (snd p)).
Definition lrow (c : lc) : nat * K := (lm c, lk c).
Definition orow (r : nat) (c : lc) : nat * mptr := (lq c, (r, lm c)).

Fixpoint dk (l : list K) : Prop :=
  match l with [] => True | k :: t => Forall (fun k' => key_equal E k k' = false) t /\ dk t end.

Lemma dk_mid a k b : dk (a ++ k :: b) <-> dk (a ++ b) /\ Forall (fun k' => key_equal E k k' = false) (a ++ b).
Proof.
  induction a as [|x a IH]; simpl; [tauto|]. rewrite !Forall_app. simpl. split.
  - intros ((Fa & Fb) & D). inversion Fb; subst. apply IH in D as (D & F).
    split; [split; auto|]. constructor; auto. rewrite (good_sym G); auto.
  - intros (((Fa & Fb) & D) & F). inversion F; subst. split.
    + split; auto. constructor; auto. rewrite (good_sym G); auto.
    + apply IH; auto.
Qed.
Lemma dk_perm l l' : Permutation l l' -> dk l -> dk l'.
Proof.
  induction 1; simpl; auto.
  - intros (F & D); split; auto. eapply Permutation_Forall; eauto.
  - intros (F & F' & D). inversion F; subst. repeat split; auto.
    constructor; auto. rewrite (good_sym G); auto.
Qed.

Record ws (r : nat) (s : store) (l : list lc) : Prop := {
  ws_ord : s_ord s = map (orow r) l;
  ws_map : Permutation (map row (s_map s)) (map lrow l);
  ws_nq : NoDup (map lq l);
  ws_nm : NoDup (map lm l);
  ws_lt : Forall (fun c => lq c < s_next s /\ lm c < s_next s) l;
  ws_keys : dk (map lk l);
  ws_n : forall i n r' q, In (i, n) (s_map s) -> n_ord n = Some (r', q) ->
         r' <= r /\ (r' = r -> exists c, In c l /\ lm c = i /\ lq c = q)
}.

Lemma nd_mid {A} (f : lc -> A) a c b :
  NoDup (map f (a ++ c :: b)) <-> NoDup (map f (a ++ b)) /\ ~ In (f c) (map f (a ++ b)).
Proof.
  rewrite !map_app; simpl. split.
  - intros H; split; [eapply NoDup_remove_1|eapply NoDup_remove_2]; eauto.
  - intros (H & N). eapply Permutation_NoDup; [apply Permutation_middle|]. constructor; auto.
Qed.
Lemma nd_inj {A} (f : lc -> A) l x y : NoDup (map f l) -> In x l -> In y l -> f x = f y -> x = y.
Proof.
  intros N I J Q. apply in_split in I as (a & b & ->). apply nd_mid in N as (_ & N).
  apply in_app_or in J. destruct J as [J|[J|J]]; auto; exfalso; apply N; rewrite Q; apply in_map, in_or_app; auto.
Qed.
Lemma row_fst l : map fst (map row l) = map fst l.
Proof. rewrite map_map; auto. Qed.
Lemma lrow_fst l : map fst (map lrow l) = map lm l.
Proof. rewrite map_map; auto. Qed.
Lemma orow_fst r l : map fst (map (orow r) l) = map lq l.
Proof. rewrite map_map; auto. Qed.
Lemma ws_nodup r s l : ws r s l -> NoDup (map fst (s_map s)).
Proof.
  intros W. rewrite <- row_fst. eapply Permutation_NoDup; [apply Permutation_sym, Permutation_map, (ws_map W)|].
  rewrite lrow_fst. apply (ws_nm W).
Qed.
Lemma ws_size r s l : ws r s l -> length (s_map s) = length l.
Proof. intros W. pose proof (Permutation_length (ws_map W)) as P. rewrite !map_length in P. auto. Qed.
Lemma ws_cell r s l i n : ws r s l -> In (i, n) (s_map s) -> exists c, In c l /\ lm c = i /\ lk c = n_key n.
Proof.
  intros W I. apply (in_map row) in I. apply (Permutation_in _ (ws_map W)) in I.
  apply in_map_iff in I as (c & Hc & I). unfold lrow, row in Hc. simpl in Hc. injection Hc as H1 H2. eauto.
Qed.
Lemma ws_node r s l c : ws r s l -> In c l -> exists n, In (lm c, n) (s_map s) /\ n_key n = lk c.
Proof.
  intros W I. apply (in_map lrow) in I. apply (Permutation_in _ (Permutation_sym (ws_map W))) in I.
  apply in_map_iff in I as ((i & n) & Hc & I). unfold lrow, row in Hc. simpl in Hc. injection Hc as -> H2. eauto.
Qed.
Lemma ws_keys_inj r s l k c d : ws r s l -> In c l -> In d l -> key_equal E k (lk c) = true -> key_equal E k (lk d) = true -> c = d.
Proof.
  intros W I J X Y. apply in_split in I as (a & b & ->). pose proof (ws_keys W) as D.
  rewrite map_app in D. simpl in D. apply dk_mid in D as (_ & F). rewrite <- map_app in F.
  rewrite Forall_map, Forall_forall in F.
  assert (N : In d (a ++ b) -> False).
  { intros I. specialize (F _ I). simpl in F. rewrite (good_sym G) in X. rewrite (good_trans G _ _ _ X Y) in F. discriminate. }
  apply in_app_or in J. destruct J as [J|[J|J]]; auto; exfalso; apply N, in_or_app; auto.
Qed.
Lemma find_ws r s l k i n : ws r s l -> node_with E k (s_map s) = Some (i, n) ->
  In (i, n) (s_map s) /\ exists c, In c l /\ lm c = i /\ lk c = n_key n /\ key_equal E k (lk c) = true.
Proof.
  intros W H. apply find_some in H as (I & H). simpl in H. split; auto.
  destruct (ws_cell W I) as (c & Ic & Hm & Hk). exists c. rewrite Hk. auto.
Qed.
Lemma find_none_ws r s l k : ws r s l -> node_with E k (s_map s) = None -> Forall (fun k' => key_equal E k k' = false) (map lk l).
Proof.
  intros W H. rewrite Forall_map, Forall_forall. intros c I. destruct (ws_node W I) as (n & In_ & Hk).
  pose proof (find_none _ _ H _ In_) as F. simpl in F. congruence.
Qed.
Lemma find_ws_of r s l k c : ws r s l -> In c l -> key_equal E k (lk c) = true ->
  exists n, node_with E k (s_map s) = Some (lm c, n) /\ n_key n = lk c /\ In (lm c, n) (s_map s).
Proof.
  intros W I H. destruct (node_with E k (s_map s)) as [[i n]|] eqn:F.
  - destruct (find_ws W F) as (J & d & Id & Hm & Hk & Hq). rewrite <- (ws_keys_inj W I Id H Hq) in *.
    exists n. subst i. split; auto.
  - exfalso. pose proof (find_none_ws W F) as Q. rewrite Forall_map, Forall_forall in Q. specialize (Q _ I). simpl in Q. congruence.
Qed.
Lemma ws_assoc r s l i n : ws r s l -> assoc i (s_map s) = Some n <-> In (i, n) (s_map s).
Proof. intros W. split; [apply assoc_in|apply in_assoc, (ws_nodup W)]. Qed.

(** ** Steps on one store *)
Lemma in_unassoc {A} (l : list (nat * A)) i p : In p (unassoc i l) -> In p l.
Proof.
  induction l as [|[j a] l IH]; simpl; auto. destruct (Nat.eqb i j); simpl; auto. intros [H|H]; auto.
Qed.
Lemma not_in_unassoc {A} (l : list (nat * A)) i a : NoDup (map fst l) -> ~ In (i, a) (unassoc i l).
Proof.
  induction l as [|[j b] l IH]; simpl; auto. intros N. inversion N; subst. destruct (Nat.eqb_spec i j).
  - subst. intros I. apply H1. apply (in_map fst) in I. auto.
  - intros [H|H]; [injection H; congruence|]. apply IH; auto.
Qed.
Lemma map_row_unassoc i (l : list (nat * mnode)) : map row (unassoc i l) = unassoc i (map row l).
Proof.
  induction l as [|[j n] l IH]; simpl; auto. destruct (Nat.eqb i j); simpl; auto. f_equal; auto.
Qed.

(** Removing one element. *)
Lemma ws_remove r s a c b : ws r s (a ++ c :: b) ->
  ws r (MkStore (unassoc (lm c) (s_map s)) (unassoc (lq c) (s_ord s)) (s_next s) (s_epoch s)) (a ++ b).
Proof.
  intros W. pose proof (ws_nq W) as NQ. pose proof (ws_nm W) as NM.
  apply nd_mid in NQ as (NQ & IQ). apply nd_mid in NM as (NM & IM). constructor; simpl; auto.
  - rewrite (ws_ord W), !map_app; simpl. unfold orow at 2. rewrite unassoc_mid; auto.
    rewrite orow_fst. intro; apply IQ. rewrite map_app. apply in_or_app; auto.
  - rewrite map_row_unassoc. rewrite (unassoc_perm (lm c) (l' := map lrow (a ++ c :: b))).
    + rewrite !map_app. simpl. unfold lrow at 2. rewrite unassoc_mid; auto.
      rewrite lrow_fst. intro; apply IM. rewrite map_app. apply in_or_app; auto.
    + rewrite row_fst. apply (ws_nodup W).
    + apply (ws_map W).
  - pose proof (ws_lt W) as L. rewrite Forall_app in *. destruct L as (La & Lb). inversion Lb; subst. auto.
  - pose proof (ws_keys W) as D. rewrite map_app in *. simpl in D. apply dk_mid in D. tauto.
  - intros i n r' q I H. destruct (ws_n W (in_unassoc I) H) as (L & J). split; auto. intros Q.
    destruct (J Q) as (d & Id & Hm & Hq). exists d. split; auto. apply in_app_or in Id. apply in_or_app.
    destruct Id as [|[<-|]]; auto. exfalso. rewrite <- Hm in I. apply (not_in_unassoc (ws_nodup W) I).
Qed.
(** Moving one list node to the back. *)
Lemma ws_move r s a c b : ws r s (a ++ c :: b) ->
  ws r (MkStore (s_map s) (unassoc (lq c) (s_ord s) ++ [(lq c, (r, lm c))]) (s_next s) (s_epoch s)) (a ++ b ++ [c]).
Proof.
  intros W. assert (P : Permutation (a ++ c :: b) (a ++ b ++ [c])).
  { apply Permutation_app_head. apply (Permutation_app_comm [c] b). }
  constructor; simpl.
  - rewrite (ws_ord W), !map_app; simpl. unfold orow at 2. rewrite unassoc_mid.
    + rewrite <- app_assoc; auto.
    + rewrite orow_fst. pose proof (ws_nq W) as N. apply nd_mid in N as (_ & N).
      intro; apply N; rewrite map_app; apply in_or_app; auto.
  - rewrite (ws_map W). apply Permutation_map; auto.
  - eapply Permutation_NoDup; [apply Permutation_map; eauto|apply (ws_nq W)].
  - eapply Permutation_NoDup; [apply Permutation_map; eauto|apply (ws_nm W)].
  - eapply Permutation_Forall; eauto. apply (ws_lt W).
  - eapply dk_perm; [apply Permutation_map; eauto|apply (ws_keys W)].
  - intros i n r' q I H. destruct (ws_n W I H) as (L & J). split; auto. intros Q.
    destruct (J Q) as (d & Id & Hm & Hq). exists d. split; auto. eapply Permutation_in; eauto.
Qed.
(** Changing what a node holds, but not its key or its place. *)
Lemma ws_alter r s l i f : (forall n, n_key (f n) = n_key n) -> (forall n, n_ord (f n) = n_ord n) -> ws r s l ->
  ws r (MkStore (alter i f (s_map s)) (s_ord s) (s_next s) (s_epoch s)) l.
Proof.
  intros Fk Fo W. destruct W. constructor; simpl; auto.
  - replace (map row (alter i f (s_map s))) with (map row (s_map s)); auto.
    unfold alter. rewrite map_map. apply map_ext. intros (j & n). simpl. destruct (Nat.eqb i j); unfold row; simpl; auto. rewrite Fk; auto.
  - intros j n r' q I H. unfold alter in I. apply in_map_iff in I as ((j' & n') & Q & I). simpl in Q.
    destruct (Nat.eqb_spec i j').
    + injection Q as <- <-. rewrite Fo in H. eauto.
    + injection Q as <- <-. eauto.
Qed.
(** A new element, in list node [q] and map node [m]. *)
Lemma ws_push r s l m q k M' nx' ep' : ws r s l ->
  Permutation (map row M') ((m, k) :: map row (s_map s)) ->
  (forall i n, In (i, n) M' -> In (i, n) (s_map s) \/ (i = m /\ n_ord n = Some (r, q))) ->
  ~ In m (map lm l) -> ~ In q (map lq l) -> m < nx' -> q < nx' -> s_next s <= nx' ->
  Forall (fun k' => key_equal E k k' = false) (map lk l) ->
  ws r (MkStore M' (s_ord s ++ [(q, (r, m))]) nx' ep') (l ++ [LC q m k]).
Proof.
  intros W P I Fm Fq Lm Lq Ln Fk. constructor; simpl.
  - rewrite (ws_ord W), map_app; auto.
  - rewrite P, map_app. simpl. rewrite <- Permutation_cons_append. apply perm_skip, (ws_map W).
  - rewrite map_app; simpl. eapply Permutation_NoDup; [apply Permutation_cons_append|]. constructor; auto. apply (ws_nq W).
  - rewrite map_app; simpl. eapply Permutation_NoDup; [apply Permutation_cons_append|]. constructor; auto. apply (ws_nm W).
  - apply Forall_app; split; [|constructor; auto].
    eapply Forall_impl; [|apply (ws_lt W)]. simpl. intros; lia.
  - rewrite map_app; simpl. apply dk_mid. rewrite app_nil_r. split; [apply (ws_keys W)|auto].
  - intros i n r' q' J H. destruct (I _ _ J) as [J'|(-> & H')].
    + destruct (ws_n W J' H) as (L & X). split; auto. intros Q. destruct (X Q) as (c & Ic & Hc).
      exists c. split; auto. apply in_or_app; auto.
    + rewrite H' in H. injection H as <- <-. split; auto. intros _. exists (LC q m k).
      split; [apply in_or_app; simpl; auto|auto].
Qed.
Definition with_ord (q : qptr) (n : mnode) : mnode := MkNode (n_key n) (n_val n) (Some q) (n_time n).
Lemma in_alter m (f : mnode -> mnode) l i n : In (i, n) (alter m f l) -> (i <> m /\ In (i, n) l) \/ (i = m /\ exists n', n = f n').
Proof.
  intros I. unfold alter in I. apply in_map_iff in I as ((j & n') & Q & I). simpl in Q.
  destruct (Nat.eqb_spec m j); injection Q as <- <-; [right; eauto|left; auto].
Qed.
Lemma row_alter m q l : map row (alter m (with_ord q) l) = map row l.
Proof.
  unfold alter. rewrite map_map. apply map_ext. intros (j & n). simpl. destruct (Nat.eqb m j); auto.
Qed.
Lemma ws_fresh r s l : ws r s l -> ~ In (s_next s) (map lm l) /\ ~ In (s_next s) (map lq l) /\ ~ In (S (s_next s)) (map lq l).
Proof.
  intros W. pose proof (ws_lt W) as F. rewrite Forall_forall in F.
  split; [|split]; intro I; apply in_map_iff in I as (c & Hc & I); specialize (F _ I); lia.
Qed.
(** _map.emplace, _order.emplace_back and the assignment of the list iterator. *)
Lemma ws_append r s l n e : ws r s l -> node_with E (n_key n) (s_map s) = None ->
  ws r (MkStore (alter (s_next s) (with_ord (r, S (s_next s))) (place E (s_map s) (s_next s, n)))
             (s_ord s ++ [(S (s_next s), (r, s_next s))]) (S (S (s_next s))) e) (l ++ [LC (S (s_next s)) (s_next s) (n_key n)]).
Proof.
  intros W N. destruct (ws_fresh W) as (F1 & F2 & F3). apply ws_push; auto; try lia.
  - rewrite row_alter. rewrite (Permutation_map row (good_place G _ _)). auto.
  - intros i m I. apply in_alter in I as [(D & I)|(-> & m' & ->)]; [|right; auto].
    left. apply (Permutation_in _ (good_place G _ _)) in I as [I|I]; auto. injection I; congruence.
  - apply (find_none_ws W N).
Qed.
(** _map.emplace, then _evict_lru_for, then the assignment of the list iterator. *)
Lemma ws_evict r s c0 l n e : ws r s (c0 :: l) -> node_with E (n_key n) (s_map s) = None ->
  ws r (MkStore (alter (s_next s) (with_ord (r, lq c0)) (unassoc (lm c0) (place E (s_map s) (s_next s, n))))
             (map (orow r) l ++ [(lq c0, (r, s_next s))]) (S (s_next s)) e) (l ++ [LC (lq c0) (s_next s) (n_key n)]).
Proof.
  intros W N. destruct (ws_fresh W) as (F1 & F2 & F3). pose proof (ws_lt W) as L. inversion L as [|? ? (L1 & L2) L']; subst.
  pose proof (ws_remove (a := []) W) as W'. simpl in W'. rewrite (ws_ord W) in W'. simpl in W'. rewrite Nat.eqb_refl in W'.
  set (s1 := MkStore (unassoc (lm c0) (s_map s)) (map (orow r) l) (s_next s) (s_epoch s)) in *.
  assert (NM : NoDup (map fst (place E (s_map s) (s_next s, n)))).
  { eapply Permutation_NoDup; [apply Permutation_sym, Permutation_map, (good_place G)|]. simpl.
    constructor; [|apply (ws_nodup W)]. intro I. apply in_map_iff in I as ((i & n') & Q & I). simpl in Q.
    destruct (ws_cell W I) as (d & Id & Hd & _). apply F1. rewrite <- Q, <- Hd. apply in_map; auto. }
  assert (P : Permutation (unassoc (lm c0) (place E (s_map s) (s_next s, n))) ((s_next s, n) :: unassoc (lm c0) (s_map s))).
  { rewrite (unassoc_perm (lm c0) NM (good_place G _ _)). simpl. destruct (Nat.eqb_spec (lm c0) (s_next s)); [lia|]. auto. }
  pose proof (ws_nq W) as NQ. simpl in NQ. inversion NQ; subst.
  change (map (orow r) l) with (s_ord s1). apply ws_push; auto; simpl; try lia.
  - rewrite row_alter. rewrite (Permutation_map row P). auto.
  - intros i m I. apply in_alter in I as [(D & I)|(-> & m' & ->)]; [|right; auto].
    left. apply (Permutation_in _ P) in I as [I|I]; auto. injection I; congruence.
  - intro I. apply F1. simpl. auto.
  - pose proof (find_none_ws W N) as F. inversion F; auto.
Qed.
End Any.
