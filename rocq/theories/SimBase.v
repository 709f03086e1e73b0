(** Representation of a sequence of entries by a map and a list, and evaluation
    of the primitive operations of Model.v on represented caches. *)
From Coq Require Import List Arith ZArith Bool Permutation Lia.
Import ListNotations.
From Verif Require Import Monad Types Model Api Spec Ref Lists.
Set Implicit Arguments.
Local Open Scope cpp_scope.

Section Base.
Context {K V : Type}.
Variable E : env K V.
Hypothesis G : good E.

Notation entry := (entry K V).
Notation world := (world K V).
Notation store := (store K V).
Notation mnode := (mnode K V).

Lemma bind_val {S A B} (m : M S A) (k : A -> M S B) s a s' :
  m s = Val a s' -> bind m k s = k a s'.
Proof. unfold bind; intros ->; auto. Qed.
Lemma bind_exc {S A B} (m : M S A) (k : A -> M S B) s e s' :
  m s = Exc e s' -> bind m k s = Exc e s'.
Proof. unfold bind; intros ->; auto. Qed.
Lemma bind_undef {S A B} (m : M S A) (k : A -> M S B) s u :
  m s = Undef u -> bind m k s = Undef u.
Proof. unfold bind; intros ->; auto. Qed.

(* ---------------------------------------------------------------- *)
(** ** Keys *)

Lemma keq_false_l a b c : key_equal E a b = true ->
  key_equal E b c = false -> key_equal E a c = false.
Proof.
  intros H N. destruct (key_equal E a c) eqn:X; auto.
  rewrite (good_sym G) in H. rewrite (good_trans G _ _ _ H X) in N; discriminate.
Qed.
Lemma keq_cong a b c : key_equal E a b = true -> key_equal E a c = key_equal E b c.
Proof.
  intros H. destruct (key_equal E b c) eqn:X.
  - eapply good_trans; eauto.
  - eapply keq_false_l; eauto.
Qed.

(** Pairwise different keys. *)
Fixpoint dkeys (l : list entry) : Prop :=
  match l with
  | [] => True
  | e :: t => Forall (fun e' => key_equal E (e_key e) (e_key e') = false) t /\ dkeys t
  end.

Lemma dkeys_mid a e b :
  dkeys (a ++ e :: b) <->
  dkeys (a ++ b) /\ Forall (fun e' => key_equal E (e_key e) (e_key e') = false) (a ++ b).
Proof.
  induction a as [|x a IH]; simpl.
  - tauto.
  - rewrite !Forall_app. simpl. split.
    + intros ((Fa & Fb) & D). inversion Fb; subst. apply IH in D as (D & F).
      split; [split; auto|].
      constructor; auto. rewrite (good_sym G); auto.
    + intros (((Fa & Fb) & D) & F). inversion F; subst. split.
      * split; auto. constructor; auto. rewrite (good_sym G); auto.
      * apply IH; auto.
Qed.

Lemma dkeys_app_l a b : dkeys (a ++ b) -> dkeys a.
Proof.
  induction a as [|x a IH]; simpl; auto.
  intros (F & D). apply Forall_app in F as (F & _). auto.
Qed.
Lemma dkeys_app_r a b : dkeys (a ++ b) -> dkeys b.
Proof. induction a as [|x a IH]; simpl; auto. intros (F & D); auto. Qed.

Lemma dkeys_perm l l' : Permutation l l' -> dkeys l -> dkeys l'.
Proof.
  induction 1; simpl; auto.
  - intros (F & D); split; auto. eapply Permutation_Forall; eauto.
  - intros (F & F' & D). inversion F; subst. repeat split; auto.
    constructor; auto. rewrite (good_sym G); auto.
Qed.

Lemma lookup_none_forall k (l : list entry) :
  lookup_ent E k l = None <-> Forall (fun e => key_equal E k (e_key e) = false) l.
Proof.
  unfold lookup_ent. induction l as [|x l IH]; simpl.
  - split; auto.
  - destruct (key_equal E k (e_key x)) eqn:X.
    + split; [discriminate|]. intros H; inversion H; congruence.
    + rewrite IH. split; intros H; [constructor; auto|inversion H; auto].
Qed.

Lemma lookup_mid k a e b :
  dkeys (a ++ e :: b) -> key_equal E k (e_key e) = true ->
  lookup_ent E k (a ++ e :: b) = Some e.
Proof.
  intros D H. apply dkeys_mid in D as (_ & F). apply Forall_app in F as (F & _).
  unfold lookup_ent. induction a as [|x a IH]; simpl.
  - rewrite H; auto.
  - inversion F; subst. rewrite (keq_false_l _ _ _ H H2). apply IH; auto.
Qed.

Lemma remove_absent k l : lookup_ent E k l = None -> remove_ent E k l = l.
Proof.
  rewrite lookup_none_forall. induction 1; simpl; auto. rewrite H; simpl; f_equal; auto.
Qed.

Lemma remove_app k a b : remove_ent E k (a ++ b) = remove_ent E k a ++ remove_ent E k b.
Proof. apply filter_app. Qed.

Lemma remove_mid k a e b :
  dkeys (a ++ e :: b) -> key_equal E k (e_key e) = true ->
  remove_ent E k (a ++ e :: b) = a ++ b.
Proof.
  intros D H. apply dkeys_mid in D as (_ & F). apply Forall_app in F as (Fa & Fb).
  rewrite remove_app. simpl. rewrite H; simpl. f_equal.
  - apply remove_absent, lookup_none_forall.
    eapply Forall_impl; [|apply Fa]. simpl; intros. eapply keq_false_l; eauto.
  - apply remove_absent, lookup_none_forall.
    eapply Forall_impl; [|apply Fb]. simpl; intros. eapply keq_false_l; eauto.
Qed.

Lemma lookup_split k l e : lookup_ent E k l = Some e ->
  exists a b, l = a ++ e :: b /\ key_equal E k (e_key e) = true.
Proof. intros H. apply find_split in H as (a & b & -> & F & _). eauto. Qed.

(* ---------------------------------------------------------------- *)
(** ** Cells *)

(** An entry with its list node and map node. *)
Record cell : Type := Cell { cl_q : nat; cl_m : nat; cl_e : entry }.

Definition node_of (r : nat) (c : cell) : mnode :=
  MkNode (e_key (cl_e c)) (e_val (cl_e c)) (Some (r, cl_q c)) (e_time (cl_e c)).
Definition mrow (r : nat) (c : cell) : nat * mnode := (cl_m c, node_of r c).
Definition qrow (r : nat) (c : cell) : nat * mptr := (cl_q c, (r, cl_m c)).
Definition ents (l : list cell) : list entry := map cl_e l.

Record rep_store (r : nat) (s : store) (l : list cell) : Prop := {
  rs_ord : s_ord s = map (qrow r) l;
  rs_map : Permutation (s_map s) (map (mrow r) l);
  rs_nq : NoDup (map cl_q l);
  rs_nm : NoDup (map cl_m l);
  rs_lt : Forall (fun c => cl_q c < s_next s /\ cl_m c < s_next s) l;
  rs_keys : dkeys (ents l)
}.

Lemma mrow_fst r l : map fst (map (mrow r) l) = map cl_m l.
Proof. rewrite map_map; auto. Qed.
Lemma qrow_fst r l : map fst (map (qrow r) l) = map cl_q l.
Proof. rewrite map_map; auto. Qed.
Lemma ents_app a b : ents (a ++ b) = ents a ++ ents b.
Proof. apply map_app. Qed.

Lemma rep_map_nodup r s l : rep_store r s l -> NoDup (map fst (s_map s)).
Proof.
  intros R. eapply Permutation_NoDup; [apply Permutation_sym, Permutation_map, (rs_map R)|].
  rewrite mrow_fst; apply (rs_nm R).
Qed.

Lemma rep_size r s l : rep_store r s l -> length (s_map s) = length l.
Proof. intros R. rewrite (Permutation_length (rs_map R)), map_length; auto. Qed.

Lemma rep_assoc_m r s l c : rep_store r s l -> In c l ->
  assoc (cl_m c) (s_map s) = Some (node_of r c).
Proof.
  intros R I. apply in_assoc; [eapply rep_map_nodup; eauto|].
  eapply Permutation_in; [apply Permutation_sym, (rs_map R)|].
  apply (in_map (mrow r)) in I; auto.
Qed.

Lemma rep_assoc_q r s l c : rep_store r s l -> In c l ->
  assoc (cl_q c) (s_ord s) = Some (r, cl_m c).
Proof.
  intros R I. rewrite (rs_ord R). apply in_assoc; [rewrite qrow_fst; apply (rs_nq R)|].
  apply (in_map (qrow r)) in I; auto.
Qed.

Definition find_cell (k : K) (l : list cell) : option cell :=
  List.find (fun c => key_equal E k (e_key (cl_e c))) l.

Lemma find_cell_ents k l : lookup_ent E k (ents l) = option_map cl_e (find_cell k l).
Proof. unfold lookup_ent, ents, find_cell. rewrite find_map. reflexivity. Qed.

Lemma find_cell_split k l c : find_cell k l = Some c ->
  exists a b, l = a ++ c :: b /\ key_equal E k (e_key (cl_e c)) = true.
Proof. intros H. apply find_split in H as (a & b & -> & F & _). eauto. Qed.

Lemma dkeys_unique (l : list cell) k x y : dkeys (ents l) -> In x l -> In y l ->
  key_equal E k (e_key (cl_e x)) = true -> key_equal E k (e_key (cl_e y)) = true -> x = y.
Proof.
  intros D I J X Y. apply in_split in I as (a & b & ->).
  unfold ents in D; rewrite map_app in D; simpl in D. apply dkeys_mid in D as (_ & F).
  apply in_app_or in J; simpl in J.
  assert (N : In y (a ++ b) -> False).
  { intros I. rewrite <- map_app in F. rewrite Forall_map in F. rewrite Forall_forall in F.
    specialize (F _ I). rewrite <- (keq_cong _ _ _ X) in F. congruence. }
  destruct J as [J|[J|J]]; auto; exfalso; apply N; apply in_or_app; auto.
Qed.

Lemma rep_node_with r s l k : rep_store r s l ->
  node_with E k (s_map s) = option_map (mrow r) (find_cell k l).
Proof.
  intros R. unfold node_with.
  rewrite (find_perm _ (l := s_map s) (l' := map (mrow r) l)).
  - rewrite find_map. reflexivity.
  - intros x y I J X Y.
    apply (Permutation_in _ (rs_map R)), in_map_iff in I as (c & <- & I).
    apply (Permutation_in _ (rs_map R)), in_map_iff in J as (d & <- & J).
    f_equal. eapply dkeys_unique; eauto. apply (rs_keys R).
  - apply (rs_map R).
Qed.

Lemma find_cell_mid k a c b :
  dkeys (ents (a ++ c :: b)) -> key_equal E k (e_key (cl_e c)) = true ->
  find_cell k (a ++ c :: b) = Some c.
Proof.
  intros D H. destruct (find_cell k (a ++ c :: b)) as [d|] eqn:F.
  - f_equal. apply find_some in F as (I & F).
    eapply dkeys_unique; eauto. apply in_or_app; simpl; auto.
  - exfalso. pose proof (find_none _ _ F c (in_elt _ _ _)). simpl in *. congruence.
Qed.

Lemma nodup_mid {A} (f : cell -> A) a c b :
  NoDup (map f (a ++ c :: b)) <-> NoDup (map f (a ++ b)) /\ ~ In (f c) (map f (a ++ b)).
Proof.
  rewrite !map_app; simpl. split.
  - intros H; split; [eapply NoDup_remove_1|eapply NoDup_remove_2]; eauto.
  - intros (H & N). eapply Permutation_NoDup; [apply Permutation_middle|]. constructor; auto.
Qed.

(** Representation only depends on the parts of the store; reordering cells. *)
Lemma rep_move r s a c b : rep_store r s (a ++ c :: b) ->
  rep_store r (MkStore (s_map s) (unassoc (cl_q c) (s_ord s) ++ [qrow r c]) (s_next s) (s_epoch s))
    (a ++ b ++ [c]).
Proof.
  intros R.
  assert (P : Permutation (a ++ c :: b) (a ++ b ++ [c])).
  { apply Permutation_app_head. apply (Permutation_app_comm [c] b). }
  constructor; simpl.
  - rewrite (rs_ord R), !map_app; simpl. unfold qrow at 2.
    rewrite unassoc_mid.
    + rewrite <- app_assoc; auto.
    + rewrite qrow_fst. pose proof (rs_nq R) as N. apply nodup_mid in N as (_ & N).
      intro; apply N; rewrite map_app; apply in_or_app; auto.
  - rewrite (rs_map R). apply Permutation_map; auto.
  - eapply Permutation_NoDup; [apply Permutation_map; eauto|apply (rs_nq R)].
  - eapply Permutation_NoDup; [apply Permutation_map; eauto|apply (rs_nm R)].
  - eapply Permutation_Forall; eauto. apply (rs_lt R).
  - eapply dkeys_perm; [apply Permutation_map; eauto|apply (rs_keys R)].
Qed.

Lemma rep_erase r s a c b : rep_store r s (a ++ c :: b) ->
  rep_store r (MkStore (unassoc (cl_m c) (s_map s)) (unassoc (cl_q c) (s_ord s))
                       (s_next s) (s_epoch s)) (a ++ b).
Proof.
  intros R. pose proof (rs_nq R) as NQ. pose proof (rs_nm R) as NM.
  apply nodup_mid in NQ as (NQ & IQ). apply nodup_mid in NM as (NM & IM).
  constructor; simpl; auto.
  - rewrite (rs_ord R), !map_app; simpl. unfold qrow at 2. rewrite unassoc_mid; auto.
    rewrite qrow_fst. intro; apply IQ; rewrite map_app; apply in_or_app; auto.
  - rewrite (unassoc_perm _ (rep_map_nodup R) (rs_map R)).
    rewrite !map_app; simpl. unfold mrow at 2. rewrite unassoc_mid; auto.
    rewrite mrow_fst. intro; apply IM; rewrite map_app; apply in_or_app; auto.
  - pose proof (rs_lt R) as F. apply Forall_app in F as (Fa & Fb). inversion Fb; subst.
    apply Forall_app; auto.
  - pose proof (rs_keys R) as D. rewrite ents_app in D; simpl in D.
    apply dkeys_mid in D as (D & _). rewrite ents_app; auto.
Qed.

Definition set_val (v : V) (e : entry) : entry := Ent (e_key e) v (e_time e).
Definition cell_val (v : V) (c : cell) : cell := Cell (cl_q c) (cl_m c) (set_val v (cl_e c)).

Lemma dkeys_map_key (l l' : list entry) : map e_key l = map e_key l' -> dkeys l -> dkeys l'.
Proof.
  revert l'; induction l as [|x l IH]; intros [|y l'] H; simpl in *; try discriminate; auto.
  inversion H as [[HX HL]]. intros (F & D); split; eauto.
  clear -F HL HX. revert l' HL; induction F; intros [|z l'] HL; simpl in *;
    try discriminate; auto. inversion HL. constructor; auto. congruence.
Qed.

Lemma rep_setval r s a c b v : rep_store r s (a ++ c :: b) ->
  rep_store r (MkStore (alter (cl_m c) (fun n => MkNode (n_key n) v (n_ord n) (n_time n)) (s_map s))
                       (s_ord s) (s_next s) (s_epoch s)) (a ++ cell_val v c :: b).
Proof.
  intros R. pose proof (rs_nm R) as NM. apply nodup_mid in NM as (NM & IM).
  rewrite map_app in IM.
  constructor; simpl.
  - rewrite (rs_ord R), !map_app; auto.
  - rewrite (alter_perm _ _ (rs_map R)). rewrite !map_app; simpl. rewrite alter_app.
    simpl. unfold mrow at 2, mrow at 4; simpl. rewrite Nat.eqb_refl.
    rewrite !alter_none; auto; rewrite mrow_fst; intro; apply IM; apply in_or_app; auto.
  - pose proof (rs_nq R) as N. rewrite map_app in *; auto.
  - pose proof (rs_nm R) as N. rewrite map_app in *; auto.
  - pose proof (rs_lt R) as F. apply Forall_app in F as (Fa & Fb). inversion Fb; subst.
    apply Forall_app; auto.
  - eapply dkeys_map_key; [|apply (rs_keys R)]. unfold ents. rewrite !map_app; auto.
Qed.

(** A new entry, list node after map node. *)
Lemma rep_append r s l k v t e : rep_store r s l ->
  lookup_ent E k (ents l) = None ->
  rep_store r
    (MkStore (alter (s_next s) (fun n => MkNode (n_key n) (n_val n) (Some (r, S (s_next s))) (n_time n))
                (place E (s_map s) (s_next s, MkNode k v None t)))
             (s_ord s ++ [(S (s_next s), (r, s_next s))]) (S (S (s_next s))) e)
    (l ++ [Cell (S (s_next s)) (s_next s) (Ent k v t)]).
Proof.
  intros R N. pose proof (rs_lt R) as F. rewrite Forall_forall in F.
  constructor; simpl.
  - rewrite (rs_ord R), map_app; auto.
  - rewrite (alter_perm _ _ (good_place G _ _)). simpl. rewrite Nat.eqb_refl; simpl.
    rewrite map_app; simpl. rewrite <- Permutation_cons_append. apply perm_skip.
    rewrite (alter_perm _ _ (rs_map R)). rewrite alter_none; auto.
    rewrite mrow_fst. intro I; apply in_map_iff in I as (c & Hc & I).
    specialize (F _ I). lia.
  - rewrite map_app; simpl. eapply Permutation_NoDup; [apply Permutation_cons_append|].
    constructor; [|apply (rs_nq R)]. intro I; apply in_map_iff in I as (c & Hc & I).
    specialize (F _ I). lia.
  - rewrite map_app; simpl. eapply Permutation_NoDup; [apply Permutation_cons_append|].
    constructor; [|apply (rs_nm R)]. intro I; apply in_map_iff in I as (c & Hc & I).
    specialize (F _ I). lia.
  - apply Forall_app; split; [|constructor; auto; simpl; lia].
    rewrite Forall_forall; intros c I. specialize (F _ I). lia.
  - rewrite ents_app; simpl. apply dkeys_mid. rewrite app_nil_r. split; [apply (rs_keys R)|].
    simpl. apply lookup_none_forall; auto.
Qed.

(** A new entry that takes over the list node of the first one. *)
Lemma rep_evict r s c0 l k v t e : rep_store r s (c0 :: l) ->
  lookup_ent E k (ents (c0 :: l)) = None ->
  rep_store r
    (MkStore (alter (s_next s) (fun n => MkNode (n_key n) (n_val n) (Some (r, cl_q c0)) (n_time n))
                (unassoc (cl_m c0) (place E (s_map s) (s_next s, MkNode k v None t))))
             (map (qrow r) l ++ [(cl_q c0, (r, s_next s))]) (S (s_next s)) e)
    (l ++ [Cell (cl_q c0) (s_next s) (Ent k v t)]).
Proof.
  intros R N. pose proof (rs_lt R) as F. inversion F as [|? ? F0 F1]; subst.
  pose proof (rs_nq R) as NQ; simpl in NQ; inversion NQ as [|? ? IQ NQ']; subst.
  pose proof (rs_nm R) as NM; simpl in NM; inversion NM as [|? ? IM NM']; subst.
  rewrite Forall_forall in F1.
  constructor; simpl.
  - rewrite map_app; auto.
  - rewrite map_app; simpl. rewrite <- Permutation_cons_append.
    assert (P : Permutation (place E (s_map s) (s_next s, MkNode k v None t))
                            ((s_next s, MkNode k v None t) :: map (mrow r) (c0 :: l))).
    { rewrite (good_place G _ _). apply perm_skip. apply (rs_map R). }
    rewrite (alter_perm (l := unassoc _ _) _ _ (unassoc_perm _
       (l := place E (s_map s) (s_next s, MkNode k v None t)) (l' := _) ltac:(
         eapply Permutation_NoDup; [apply Permutation_sym, Permutation_map, P|];
         simpl; constructor; [rewrite mrow_fst; intros [I|I];
           [simpl in I; lia | apply in_map_iff in I as (c & Hc & I); specialize (F1 _ I); lia]
          |rewrite mrow_fst; auto]) P)).
    simpl. destruct (Nat.eqb_spec (cl_m c0) (s_next s)); [lia|].
    rewrite Nat.eqb_refl. simpl. rewrite Nat.eqb_refl. simpl.
    apply perm_skip. rewrite alter_none; auto.
    rewrite mrow_fst. intro I; apply in_map_iff in I as (c & Hc & I).
    specialize (F1 _ I). lia.
  - rewrite map_app; simpl. eapply Permutation_NoDup; [apply Permutation_cons_append|].
    constructor; auto.
  - rewrite map_app; simpl. eapply Permutation_NoDup; [apply Permutation_cons_append|].
    constructor; auto. intro I; apply in_map_iff in I as (c & Hc & I).
    specialize (F1 _ I). lia.
  - apply Forall_app; split; [|constructor; auto; simpl; lia].
    rewrite Forall_forall; intros c I. specialize (F1 _ I). lia.
  - rewrite ents_app; simpl. apply dkeys_mid. rewrite app_nil_r.
    pose proof (rs_keys R) as D; simpl in D. split; [apply D|].
    simpl. apply lookup_none_forall in N; inversion N; auto.
Qed.

(* ---------------------------------------------------------------- *)
(** ** Worlds *)

Implicit Types (w : world) (s : store).

Definition setS (r : nat) (s : store) (w : world) : world :=
  with_stores (fun l => upd l r (Some s)) w.
Definition setC (c : nat) (x : cache) (w : world) : world :=
  with_caches (fun l => upd l c (Some x)) w.

Definition at_ (w : world) (c : nat) (x : cache) (s : store) : Prop :=
  slot (w_caches w) c = Some x /\ slot (w_stores w) (c_rid x) = Some s.

Lemma setS_same r s w : slot (w_stores w) r = Some s -> setS r s w = w.
Proof. intros H. destruct w; unfold setS, with_stores; simpl in *. rewrite upd_slot; auto. Qed.
Lemma setC_same c x w : slot (w_caches w) c = Some x -> setC c x w = w.
Proof. intros H. destruct w; unfold setC, with_caches; simpl in *. rewrite upd_slot; auto. Qed.
Lemma setS_setS r s s' w : setS r s (setS r s' w) = setS r s w.
Proof. destruct w; unfold setS, with_stores; simpl. rewrite upd_upd; auto. Qed.
Lemma setC_setC c x x' w : setC c x (setC c x' w) = setC c x w.
Proof. destruct w; unfold setC, with_caches; simpl. rewrite upd_upd; auto. Qed.
Lemma setS_setC r s c x w : setS r s (setC c x w) = setC c x (setS r s w).
Proof. destruct w; auto. Qed.

Lemma at_setS w c x s s' : at_ w c x s -> at_ (setS (c_rid x) s' w) c x s'.
Proof. intros (H & H'); split; simpl; auto. erewrite slot_upd_same; eauto. Qed.
Lemma at_setC w c x s x' : at_ w c x s -> c_rid x' = c_rid x -> at_ (setC c x' w) c x' s.
Proof. intros (H & H') R; split; simpl; [erewrite slot_upd_same; eauto|]. rewrite R; auto. Qed.

Lemma get_cache_ev w c x : slot (w_caches w) c = Some x -> get_cache c w = Val x w.
Proof. unfold get_cache; intros ->; auto. Qed.
Lemma get_store_ev w r s : slot (w_stores w) r = Some s -> get_store r w = Val s w.
Proof. unfold get_store; intros ->; auto. Qed.
Lemma own_ev w c x s : at_ w c x s -> own c w = Val (c_rid x, s) w.
Proof.
  intros (H & H'). unfold own, bind. erewrite get_cache_ev by eauto.
  erewrite get_store_ev by eauto. auto.
Qed.
Lemma put_store_ev r s w : put_store r s w = Val tt (setS r s w).
Proof. auto. Qed.
Lemma put_cache_ev c x w : put_cache c x w = Val tt (setC c x w).
Proof. auto. Qed.
Lemma fallible_ev w : fallible E w = Val tt (MkWorld (w_caches w) (w_stores w) (w_stats w)
   (w_log w) (w_reads w) (S (w_steps w))).
Proof. unfold fallible. rewrite (good_fails G); auto. Qed.

End Base.
