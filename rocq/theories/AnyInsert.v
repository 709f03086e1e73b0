(** Insertion of a new key, in any world. *)
From Coq Require Import List Arith ZArith Bool Permutation Lia.
Import ListNotations.
From Verif Require Import Monad Types Model Api Spec Ref Lists SimBase SimRel Effects AnyWorld AnyKeep.
Set Implicit Arguments.
Unset Strict Implicit.
Local Open Scope cpp_scope.

Section Insert.
Context {K V : Type}.
Variable E : env K V.
Hypothesis G : good E.

Notation world := (world K V).
Notation store := (store K V).
Notation mnode := (mnode K V).
Notation M := (M world).
Notation ws := (ws E).
Notation lc := (@lc K).
Implicit Types (w : world) (s : store).

(** The cells after a new one is put in. *)
Definition grown (cap : nat) (l : list lc) (q m : nat) (k : K) : list lc :=
  if Nat.ltb (length l) cap then l ++ [LC q m k] else tl l ++ [LC q m k].
Definition inherited (nx cap : nat) (l : list lc) : nat :=
  if Nat.ltb (length l) cap then S nx else match l with [] => 0 | c :: _ => lq c end.

Lemma place_assoc s l r n i m : ws r s l -> In (i, m) (s_map s) -> assoc i (place E (s_map s) (s_next s, n)) = Some m.
Proof.
  intros W I. apply in_assoc.
  - eapply Permutation_NoDup; [apply Permutation_sym, Permutation_map, (good_place G)|]. simpl.
    constructor; [|apply (ws_nodup W)]. intro J. apply in_map_iff in J as ((j & n') & Q & J). simpl in Q.
    destruct (ws_cell W J) as (d & Id & Hd & _). destruct (ws_fresh W) as (F & _). apply F. rewrite <- Q, <- Hd. apply in_map; auto.
  - eapply Permutation_in; [apply Permutation_sym, (good_place G)|]. simpl; auto.
Qed.
Lemma place_new s l r n : ws r s l -> assoc (s_next s) (place E (s_map s) (s_next s, n)) = Some n.
Proof.
  intros W. apply in_assoc.
  - eapply Permutation_NoDup; [apply Permutation_sym, Permutation_map, (good_place G)|]. simpl.
    constructor; [|apply (ws_nodup W)]. intro J. apply in_map_iff in J as ((j & n') & Q & J). simpl in Q.
    destruct (ws_cell W J) as (d & Id & Hd & _). destruct (ws_fresh W) as (F & _). apply F. rewrite <- Q, <- Hd. apply in_map; auto.
  - eapply Permutation_in; [apply Permutation_sym, (good_place G)|]. simpl; auto.
Qed.
Lemma assoc_alter_same {A} i (f : A -> A) l : assoc i (alter i f l) = option_map f (assoc i l).
Proof. induction l as [|[j a] l IH]; simpl; auto. destruct (Nat.eqb_spec i j); simpl; [subst; rewrite Nat.eqb_refl; auto|]. destruct (Nat.eqb_spec i j); [congruence|auto]. Qed.
Lemma assoc_alter_other {A} i j (f : A -> A) l : i <> j -> assoc i (alter j f l) = assoc i l.
Proof.
  intros N. induction l as [|[j' a] l IH]; simpl; auto. destruct (Nat.eqb_spec j j'); simpl.
  - subst. destruct (Nat.eqb_spec i j'); [congruence|auto].
  - destruct (Nat.eqb i j'); auto.
Qed.
Lemma place_find s l r n c : ws r s l -> node_with E (n_key n) (s_map s) = None -> In c l ->
  exists m, node_with E (lk c) (place E (s_map s) (s_next s, n)) = Some (lm c, m).
Proof.
  intros W N I. destruct (ws_node W I) as (n0 & In0 & Hk).
  pose proof (find_none_ws W N) as F. rewrite Forall_map, Forall_forall in F.
  destruct (node_with E (lk c) (place E (s_map s) (s_next s, n))) as [[i m]|] eqn:X.
  - exists m. apply find_some in X as (J & X). simpl in X. apply (Permutation_in _ (good_place G _ _)) in J as [J|J].
    + injection J as <- <-. specialize (F _ I). simpl in F. rewrite (good_sym G) in X. congruence.
    + destruct (ws_cell W J) as (d & Id & <- & Hd). rewrite <- Hd in X.
      rewrite (ws_keys_inj G W I Id (good_refl G _) X). auto.
  - exfalso. pose proof (find_none _ _ X (lm c, n0)) as Q. simpl in Q. rewrite Hk, (good_refl G) in Q.
    discriminate Q. eapply Permutation_in; [apply Permutation_sym, (good_place G)|]. simpl; auto.
Qed.

Record placed (w w' : world) (x : cache) (s : store) (l : list lc) (n : mnode) (q : qptr) (s' : store) : Prop := {
  pl_caches : w_caches w' = w_caches w;
  pl_stores : w_stores w' = upd (w_stores w) (c_rid x) (Some s');
  pl_rest : w_stats w' = w_stats w /\ w_log w' = w_log w /\ w_reads w' = w_reads w;
  pl_q : q = (c_rid x, inherited (s_next s) (c_cap x) l);
  pl_ws : ws (c_rid x) s' (grown (c_cap x) l (inherited (s_next s) (c_cap x) l) (s_next s) (n_key n));
  pl_ep : s_epoch s' = if rehash E s then S (s_epoch s) else s_epoch s;
  pl_new : assoc (s_next s) (s_map s') = Some (with_ord q n);
  pl_old : forall c, In c (grown (c_cap x) l (inherited (s_next s) (c_cap x) l) (s_next s) (n_key n)) -> lm c <> s_next s ->
           assoc (lm c) (s_map s') = assoc (lm c) (s_map s)
}.

Lemma alter_ext {A} i (f g : A -> A) l : (forall a, f a = g a) -> alter i f l = alter i g l.
Proof. intros H. unfold alter. apply map_ext. intros [j a]. simpl. rewrite H. auto. Qed.
Lemma grown_length cap l q m k : length l <= cap -> 0 < cap -> length (grown cap l q m k) <= cap.
Proof.
  intros L P. unfold grown. destruct (Nat.ltb_spec (length l) cap); rewrite app_length; simpl; [lia|].
  destruct l; simpl in *; lia.
Qed.

Lemma new_key_ev w c x s l n : at_ w c x s -> ws (c_rid x) s l -> length l <= c_cap x -> 0 < c_cap x ->
  node_with E (n_key n) (s_map s) = None ->
  exists w1 q w2 w3 s', map_emplace E c n w = Val (((c_rid x, s_next s), if rehash E s then S (s_epoch s) else s_epoch s), true) w1 /\
    insert_new_key E c (c_rid x, s_next s) w1 = Val q w2 /\
    set_node_order (c_rid x, s_next s) q w2 = Val tt w3 /\ placed w w3 x s l n q s'.
Proof.
  intros A Hl L P N. pose proof A as (Hx & Hs). set (r := c_rid x) in *. set (e := if rehash E s then S (s_epoch s) else s_epoch s).
  set (m1 := place E (s_map s) (s_next s, n)). set (s1 := MkStore m1 (s_ord s) (S (s_next s)) e).
  set (tk := fun w : world => MkWorld (w_caches w) (w_stores w) (w_stats w) (w_log w) (w_reads w) (S (w_steps w))).
  assert (At : at_ (tk w) c x s) by exact A.
  assert (A1 : at_ (setS r s1 (tk w)) c x s1) by (apply (at_setS (s := s)); auto).
  exists (setS r s1 (tk w)).
  assert (Em : map_emplace E c n w = Val (((r, s_next s), e), true) (setS r s1 (tk w))).
  { unfold map_emplace. erewrite bind_val; [|apply (own_ev A)]. cbv iota beta. rewrite N.
    erewrite bind_val; [|apply (fallible_ev G)]. cbv zeta. erewrite bind_val; [|apply put_store_ev]. reflexivity. }
  assert (Sz : length m1 = S (length l)).
  { unfold m1. rewrite (Permutation_length (good_place G _ _)). simpl. rewrite (ws_size Hl). auto. }
  assert (Tf : is_too_full c (setS r s1 (tk w)) = Val (Nat.ltb (c_cap x) (S (length l))) (setS r s1 (tk w))).
  { unfold is_too_full. erewrite bind_val; [|apply (size_ev A1)]. erewrite bind_val; [|apply capacity_ev, A1]. simpl. rewrite Sz. auto. }
  unfold insert_new_key. erewrite bind_val; [|exact Tf].
  destruct (Nat.ltb_spec (c_cap x) (S (length l))) as [Lt|Lt].
  - (* full *)
    destruct l as [|c1 l]; [simpl in L, Lt; lia|]. assert (Lc : S (length l) = c_cap x) by (simpl in L, Lt; lia).
    assert (I0 : In c1 (c1 :: l)) by (simpl; auto).
    destruct (ws_node Hl I0) as (n0 & In0 & Hk0).
    set (m2 := unassoc (lm c1) m1). set (s2 := MkStore m2 (map (orow r) l ++ [(lq c1, (r, s_next s))]) (S (s_next s)) e).
    assert (Fr : s_next s <> lm c1).
    { pose proof (ws_lt Hl) as F. inversion F; subst. lia. }
    assert (Mf : exists m, node_with E (n_key n0) m1 = Some (lm c1, m)).
    { rewrite Hk0. apply (place_find (n := n) Hl N I0). }
    assert (Dr : deref (r, lm c1) (setS r s1 (tk w)) = Val n0 (setS r s1 (tk w))).
    { unfold deref, bind. simpl fst. simpl snd. erewrite get_store_ev; [|apply A1]. cbn [s_map s1 fst snd]. unfold m1. rewrite (place_assoc n Hl In0). auto. }
    assert (Sz2 : length m2 = S (length l)).
    { unfold m2. pose proof (place_assoc n Hl In0) as Q. pose proof (unassoc_length _ _ Q) as U. fold m1 in U. simpl in Sz. lia. }
    assert (Ev : evict_lru_for E c (r, s_next s) (setS r s1 (tk w)) = Val tt (setS r s2 (tk w))).
    { unfold evict_lru_for. erewrite bind_val with (a := (r, lm c1)).
      2: { unfold list_front. erewrite bind_val; [|apply (own_ev A1)]. simpl. rewrite (ws_ord Hl). reflexivity. }
      erewrite bind_val; [|exact Dr].
      destruct Mf as (m & Mf). erewrite bind_val.
      2: { unfold map_erase_key. erewrite bind_val; [|apply (own_ev A1)]. cbv iota beta. cbn [s_map s1]. rewrite Mf. rewrite put_store_ev, setS_setS. reflexivity. }
      cbn [s_ord s_next s_epoch s1]. fold m2. rewrite (ws_ord Hl). simpl map. unfold orow at 1.
      erewrite bind_val.
      2: { unfold list_set_front. erewrite bind_val; [|apply own_ev, (at_setS (s := s)); auto]. cbv iota beta. cbn [s_ord s_map s_next s_epoch]. cbv iota beta.
           rewrite put_store_ev, setS_setS. reflexivity. }
      cbn [s_map s_next s_epoch]. erewrite bind_val with (a := Some (r, lq c1)).
      2: { unfold list_begin. erewrite bind_val; [|apply own_ev, (at_setS (s := s)); auto]. cbv iota beta. cbn [s_ord s_map s_next s_epoch]. cbv iota beta. reflexivity. }
      unfold move_to_front. erewrite bind_val; [|eapply size_ev, (at_setS (s := s)); exact At]. cbn [s_map]. rewrite Sz2.
      destruct (Nat.eqb_spec (S (length l)) 1) as [One|More].
      - unfold s2. destruct l; [|simpl in One; lia]. reflexivity.
      - unfold list_splice_back. erewrite bind_val; [|apply own_ev, (at_setS (s := s)); auto]. cbv iota beta. rewrite Nat.eqb_refl.
        cbn [s_ord assoc]. simpl assoc. rewrite Nat.eqb_refl. rewrite put_store_ev, setS_setS. simpl unassoc. rewrite Nat.eqb_refl. reflexivity. }
    erewrite bind_val; [|exact Ev].
    assert (A2 : at_ (setS r s2 (tk w)) c x s2) by (apply (at_setS (s := s)); auto).
    assert (Pe : list_prev_end c (setS r s2 (tk w)) = Val (r, lq c1) (setS r s2 (tk w))).
    { unfold list_prev_end. erewrite bind_val; [|apply (own_ev A2)]. cbv iota beta. cbn [s_ord s2]. rewrite rev_app_distr. reflexivity. }
    assert (Nw : assoc (s_next s) m2 = Some n).
    { unfold m2. rewrite assoc_unassoc_other by auto. apply (place_new n Hl). }
    exists (r, lq c1), (setS r s2 (tk w)).
    set (s3 := MkStore (alter (s_next s) (with_ord (r, lq c1)) m2) (s_ord s2) (s_next s2) (s_epoch s2)).
    exists (setS r s3 (tk w)), s3. split; [exact Em|]. split; [exact Pe|]. split.
    { unfold set_node_order, update_node. simpl fst. simpl snd. erewrite bind_val; [|apply get_store_ev, A2]. cbn [s_map s2 fst snd]. rewrite Nw.
      rewrite put_store_ev, setS_setS. reflexivity. }
    assert (Inh : inherited (s_next s) (c_cap x) (c1 :: l) = lq c1).
    { unfold inherited. destruct (Nat.ltb_spec (length (c1 :: l)) (c_cap x)); [simpl in *; lia|auto]. }
    assert (Gr : grown (c_cap x) (c1 :: l) (lq c1) (s_next s) (n_key n) = l ++ [LC (lq c1) (s_next s) (n_key n)]).
    { unfold grown. destruct (Nat.ltb_spec (length (c1 :: l)) (c_cap x)); [simpl in *; lia|auto]. }
    constructor; try rewrite !Inh; try rewrite Gr; auto.
    + apply (ws_evict G e Hl N).
    + simpl. rewrite assoc_alter_same, Nw. auto.
    + intros d Id Nd. simpl. rewrite assoc_alter_other by auto. apply in_app_or in Id as [Id|[<-|[]]]; [|simpl in Nd; congruence].
      unfold m2. rewrite assoc_unassoc_other.
      * destruct (ws_node Hl (or_intror Id)) as (nd & J & _). unfold m1. rewrite (place_assoc n Hl J). symmetry. apply (ws_assoc _ _ Hl); auto.
      * intros Q. pose proof (ws_nm Hl) as NM. simpl in NM. inversion NM; subst. apply H1. rewrite <- Q. apply in_map; auto.
  - (* not full *)
    assert (Lt' : length l < c_cap x) by lia.
    set (s2 := MkStore m1 (s_ord s ++ [(S (s_next s), (r, s_next s))]) (S (S (s_next s))) e).
    assert (A1' : at_ (setS r s1 (tk (tk w))) c x s1) by (apply (at_setS (s := s)); auto).
    erewrite bind_val with (s' := setS r s2 (tk (tk w))).
    2: { unfold list_emplace_back. erewrite bind_val; [|apply (fallible_ev G)].
         change (MkWorld (w_caches (setS r s1 (tk w))) (w_stores (setS r s1 (tk w))) (w_stats (setS r s1 (tk w))) (w_log (setS r s1 (tk w))) (w_reads (setS r s1 (tk w))) (S (w_steps (setS r s1 (tk w)))))
           with (setS r s1 (tk (tk w))). erewrite bind_val; [|apply (own_ev A1')]. cbv iota beta. rewrite put_store_ev, setS_setS. reflexivity. }
    assert (A2 : at_ (setS r s2 (tk (tk w))) c x s2) by (apply (at_setS (s := s)); auto).
    assert (Pe : list_prev_end c (setS r s2 (tk (tk w))) = Val (r, S (s_next s)) (setS r s2 (tk (tk w)))).
    { unfold list_prev_end. erewrite bind_val; [|apply (own_ev A2)]. cbv iota beta. cbn [s_ord s2]. rewrite rev_app_distr. reflexivity. }
    assert (Nw : assoc (s_next s) m1 = Some n) by apply (place_new n Hl).
    exists (r, S (s_next s)), (setS r s2 (tk (tk w))).
    set (s3 := MkStore (alter (s_next s) (with_ord (r, S (s_next s))) m1) (s_ord s2) (s_next s2) (s_epoch s2)).
    exists (setS r s3 (tk (tk w))), s3. split; [exact Em|]. split; [exact Pe|]. split.
    { unfold set_node_order, update_node. simpl fst. simpl snd. erewrite bind_val; [|apply get_store_ev, A2]. cbn [s_map s2 fst snd]. rewrite Nw.
      rewrite put_store_ev, setS_setS. reflexivity. }
    assert (Inh : inherited (s_next s) (c_cap x) l = S (s_next s)).
    { unfold inherited. destruct (Nat.ltb_spec (length l) (c_cap x)); [auto|lia]. }
    assert (Gr : grown (c_cap x) l (S (s_next s)) (s_next s) (n_key n) = l ++ [LC (S (s_next s)) (s_next s) (n_key n)]).
    { unfold grown. destruct (Nat.ltb_spec (length l) (c_cap x)); [auto|lia]. }
    constructor; try rewrite !Inh; try rewrite Gr; auto.
    + apply (ws_append G e Hl N).
    + simpl. rewrite assoc_alter_same, Nw. auto.
    + intros d Id Nd. simpl. rewrite assoc_alter_other by auto. apply in_app_or in Id as [Id|[<-|[]]]; [|simpl in Nd; congruence].
      destruct (ws_node Hl Id) as (nd & J & _). unfold m1. rewrite (place_assoc n Hl J). symmetry. apply (ws_assoc _ _ Hl); auto.
Qed.
End Insert.
