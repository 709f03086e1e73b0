(** Iterator variables are cursors. *)
From Coq Require Import List Arith ZArith Bool Permutation Lia.
Import ListNotations.
From Verif Require Import Monad Types Model Api IterObj Spec SpecTimed Ref Lists SimBase SimRel SimOps SimIns SimErase SimIter SimNew SimObs SimExec RefEval SimRun LruProofs CallProofs LruMore Flat Global Safe Frame SpecStats StatProofs TimedTrack NodeTrack SpecIter IterProofs SpecCursor.
Set Implicit Arguments.
Unset Strict Implicit.
Local Open Scope cpp_scope.

Section Cursor.
Context {K V : Type}.
Variable E : env K V.
Hypothesis G : good E.
Notation world := (world K V).
Notation aworld := (aworld K V).
Notation cell := (@cell K V).
Notation cursor := (@cursor K).
Implicit Types (en : option mptr) (w : world) (aw : aworld) (cl : cell) (cu : cursor) (cs : list cursor).

Inductive stands w : ivar -> cursor -> Prop :=
| st_stray v b c : ordered_var v = b -> stands w v (MkCur b c (@Stray K))
| st_end_o c : alive w c = true -> stands w (VO (ordered_end c)) (MkCur true c (@AtEnd K))
| st_end_u c : alive w c = true -> stands w (VU (unordered_end c)) (MkCur false c (@AtEnd K))
| st_at_o k c r s cl en : lives E k c w r s cl -> en = None \/ en = Some (r, cl_m cl) ->
    stands w (VO (MkO c (OAt (r, cl_q cl)) en)) (MkCur true c (AtKey k))
| st_at_u k c r s cl en : lives E k c w r s cl -> en = None \/ en = Some (r, cl_m cl) ->
    stands w (VU (MkU c (UAt ((r, cl_m cl), s_epoch s)) en)) (MkCur false c (AtKey k)).

Lemma stands_kind w v cu : stands w v cu -> ordered_var v = cu_ord cu.
Proof. destruct 1; auto. Qed.
Lemma stands_bare w v cu : stands w v cu -> stands w (bare v) cu.
Proof.
  destruct 1 as [v b c H|c H|c H|k c r s cl en L H|k c r s cl en L H]; simpl.
  - constructor. destruct v; auto.
  - apply (st_end_o H).
  - apply (st_end_u H).
  - econstructor; eauto.
  - econstructor; eauto.
Qed.
Lemma bare_kind v : ordered_var (bare v) = ordered_var v.
Proof. destruct v; auto. Qed.

Lemma lives_alive k c w r s cl : lives E k c w r s cl -> alive w c = true.
Proof. intros (x & l & H & _). unfold alive. rewrite H; auto. Qed.

(** Calls. *)
Lemma present_lives k c w aw : rel E w aw -> present E k c w = true -> exists r s cl, lives E k c w r s cl.
Proof.
  intros R. unfold present. destruct (exec E (Ordered c) w) as [[] w1| | |] eqn:X; try discriminate.
  intros H. eapply lives_of; eauto. unfold contents. rewrite X.
  assert (w1 = w); [|subst; auto].
  unfold exec in X. destruct (well_formed w (Ordered c)) eqn:WF; [|congruence].
  simpl in WF. destruct (alive_inv R WF) as (a & Ha). pose proof (contents_of G R Ha) as CT.
  unfold contents, exec in CT. simpl in CT. rewrite WF in CT. cbn [body] in X. congruence.
Qed.

Lemma stands_call o oc w w1 aw aw1 v cu : rel E w aw -> rel E w1 aw1 -> copy_free o = true ->
  call E o w oc w1 -> stands w v cu -> stands w1 v (after_call E o oc w1 cu).
Proof.
  intros R R1 CF C S. pose proof (stands_kind S) as SK. unfold after_call, moved.
  destruct (Nat.eqb_spec (follow o oc (cu_cache cu)) (cu_cache cu)) as [F|]; simpl; [|constructor; auto].
  destruct S as [v b c H|c H|c H|k c r s cl en L H|k c r s cl en L H]; simpl in *; try (constructor; auto; fail).
  - rewrite andb_true_r. destruct (alive w1 c) eqn:A; constructor; auto.
  - destruct (alive w1 c && negb (new_end c o)) eqn:A; [|constructor; auto].
    apply andb_true_iff in A. constructor; tauto.
  - rewrite andb_true_r. destruct (present E k c w1 && negb (has E k (range_into c o))) eqn:A; [|constructor; auto].
    apply andb_true_iff in A. destruct A as (A & B). apply negb_true_iff in B.
    destruct (present_lives R1 A) as (r1 & s1 & cl1 & L1).
    destruct (cell_step G CF R R1 C B L (eq_sym F) L1) as (-> & M & Q & _ & _).
    rewrite <- Q. eapply st_at_o; eauto. rewrite M; auto.
  - destruct (present E k c w1 && negb (has E k (range_into c o)) && negb (grows E c k o)) eqn:A; [|constructor; auto].
    apply andb_true_iff in A. destruct A as (A & GR). apply andb_true_iff in A. destruct A as (A & B).
    apply negb_true_iff in B, GR.
    destruct (present_lives R1 A) as (r1 & s1 & cl1 & L1).
    destruct (cell_step G CF R R1 C B L (eq_sym F) L1) as (-> & M & Q & _ & EP).
    rewrite <- M, <- EP by auto. eapply st_at_u; eauto. rewrite M; auto.
Qed.

(** Marks. *)
Lemma next_mark_mid k (l1 : list (K * V)) p l2 : (forall q, In q l1 -> key_equal E k (fst q) = false) ->
  key_equal E k (fst p) = true -> next_mark E k (l1 ++ p :: l2) = first_mark l2.
Proof.
  induction l1 as [|q l1 IH]; simpl; intros H Q.
  - rewrite Q; auto.
  - rewrite (H q) by auto. apply IH; auto.
Qed.
Lemma index_mid k (l1 : list (K * V)) p l2 : (forall q, In q l1 -> key_equal E k (fst q) = false) ->
  key_equal E k (fst p) = true -> index E k (l1 ++ p :: l2) = length l1.
Proof.
  induction l1 as [|q l1 IH]; simpl; intros H Q.
  - rewrite Q; auto.
  - rewrite (H q) by auto. f_equal. apply IH; auto.
Qed.
Lemma look_mid k (l1 : list (K * V)) p l2 : (forall q, In q l1 -> key_equal E k (fst q) = false) ->
  key_equal E k (fst p) = true -> look E k (l1 ++ p :: l2) = Some p.
Proof.
  unfold look. induction l1 as [|q l1 IH]; simpl; intros H Q.
  - rewrite Q; auto.
  - rewrite (H q) by auto. apply IH; auto.
Qed.

Notation pairs l := (map pair_of (ents l)).
Lemma others_differ k (l1 l2 : list cell) cl : dkeys E (ents (l1 ++ cl :: l2)) ->
  key_equal E k (e_key (cl_e cl)) = true ->
  forall q, In q (pairs l1) \/ In q (pairs l2) -> key_equal E k (fst q) = false.
Proof.
  intros D Q q I. rewrite ents_app in D. simpl in D. apply (dkeys_mid G) in D. destruct D as (_ & F).
  assert (I' : exists e, In e (ents l1 ++ ents l2) /\ q = pair_of e).
  { destruct I as [I|I]; apply in_map_iff in I; destruct I as (e & <- & I); exists e; split; auto; apply in_or_app; auto. }
  destruct I' as (e & I' & ->). rewrite Forall_forall in F. apply F in I'. simpl.
  destruct (key_equal E k (e_key e)) eqn:X; auto. rewrite (good_sym G) in Q.
  rewrite (good_trans G _ _ _ Q X) in I'. discriminate.
Qed.

(** The cells around an element. *)
Lemma lives_cells k c w r s cl aw : rel E w aw -> lives E k c w r s cl ->
  exists x a l1 l2, at_ w c x s /\ c_rid x = r /\ slot (aw_caches aw) c = Some a /\ rep E x s a (l1 ++ cl :: l2) /\
    key_equal E k (e_key (cl_e cl)) = true /\ contents E c w (pairs (l1 ++ cl :: l2)) /\
    (forall q, In q (pairs l1) \/ In q (pairs l2) -> key_equal E k (fst q) = false).
Proof.
  intros R L. destruct (lives_at G R L) as (x & a & l & At & Rx & Ha & Rp & I & Q & CT).
  apply in_split in I. destruct I as (l1 & l2 & ->). exists x, a, l1, l2. repeat (split; auto).
  eapply others_differ; [exact (rs_keys (rp_store Rp))|auto].
Qed.
Lemma pairs_mid (l1 l2 : list cell) cl : pairs (l1 ++ cl :: l2) = pairs l1 ++ pair_of (cl_e cl) :: pairs l2.
Proof. rewrite ents_app, map_app. auto. Qed.

Lemma cell_lives c w x s a l1 l2 cl : at_ w c x s -> rep E x s a (l1 ++ cl :: l2) ->
  lives E (e_key (cl_e cl)) c w (c_rid x) s cl.
Proof.
  intros (A1 & A2) Rp. exists x, (l1 ++ cl :: l2). split; auto. split; auto. split; auto. split; [apply (rp_store Rp)|].
  split; [apply in_mid|apply (good_refl G)].
Qed.
Lemma at_alive w c (x : cache) s : at_ w c x s -> alive w c = true.
Proof. intros (A & _). unfold alive. rewrite A; auto. Qed.

Lemma stands_opos c w x s a l1 l2 : at_ w c x s -> rep E x s a (l1 ++ l2) ->
  stands w (VO (MkO c (opos_of c (c_rid x) l2) None)) (MkCur true c (first_mark (pairs l2))).
Proof.
  intros At Rp. destruct l2 as [|cl l2]; simpl.
  - apply st_end_o. eapply at_alive; eauto.
  - eapply st_at_o; auto. eapply cell_lives; eauto.
Qed.

(** Rows of the map. *)
Lemma map_mid c w x s a (cs : list cell) m1 p m2 : at_ w c x s -> rep E x s a cs -> s_map s = m1 ++ p :: m2 ->
  exists cl, In cl cs /\ p = mrow (c_rid x) cl.
Proof.
  intros At Rp M. assert (I : In p (map (mrow (c_rid x)) cs)).
  { eapply Permutation_in; [apply (rs_map (rp_store Rp))|]. rewrite M. apply in_elt. }
  apply in_map_iff in I. destruct I as (cl & <- & I). eauto.
Qed.
Lemma stands_upos c w x s a (cs : list cell) m1 m2 : at_ w c x s -> rep E x s a cs -> s_map s = m1 ++ m2 ->
  stands w (VU (MkU c (upos_of c (c_rid x) (s_epoch s) m2) None)) (MkCur false c (first_mark (map (@npair K V) m2))).
Proof.
  intros At Rp M. destruct m2 as [|p m2]; simpl.
  - apply st_end_u. eapply at_alive; eauto.
  - destruct (map_mid At Rp M) as (cl & I & ->). simpl. eapply st_at_u; auto.
    apply in_split in I. destruct I as (l1 & l2 & ->). eapply cell_lives; eauto.
Qed.
Lemma lives_rows k c w r s cl aw : rel E w aw -> lives E k c w r s cl ->
  exists x a (cs : list cell) m1 m2, at_ w c x s /\ c_rid x = r /\ slot (aw_caches aw) c = Some a /\ rep E x s a cs /\ In cl cs /\
    s_map s = m1 ++ mrow r cl :: m2 /\ hash_order E c w (map (@npair K V) (s_map s)) /\
    (forall q, In q (map (@npair K V) m1) -> key_equal E k (fst q) = false).
Proof.
  intros R L. destruct (lives_at G R L) as (x & a & l & At & Rx & Ha & Rp & I & Q & CT).
  pose proof (rp_store Rp) as RS. destruct (cell_row RS I) as (i & N).
  apply nth_error_split in N. destruct N as (m1 & m2 & M & _). rewrite Rx in M.
  exists x, a, l, m1, m2. split; auto. split; auto. split; auto. split; auto. split; auto. split; auto. split.
  - unfold hash_order, exec. simpl. rewrite (at_alive At). cbn [body]. unfold bind.
    assert (T : traverse_unordered c w = Val (map (@npair K V) (s_map s)) w).
    { unfold traverse_unordered, bind. rewrite (size_ev At), (unordered_begin_ev At).
      eapply (u_collect_ev (m1 := [])); eauto. eapply rep_map_nodup; eauto. }
    rewrite T. reflexivity.
  - intros q J. apply in_map_iff in J. destruct J as (p & <- & J).
    apply in_split in J. destruct J as (m3 & m4 & ->).
    rewrite <- app_assoc in M. simpl in M. destruct (map_mid At Rp M) as (cl' & I' & ->). simpl.
    destruct (key_equal E k (e_key (cl_e cl'))) eqn:X; auto. exfalso.
    assert (cl' = cl) by (eapply (dkeys_unique G); [exact (rs_keys RS)| | |exact X|exact Q]; auto). subst cl'.
    pose proof (rep_map_nodup RS) as ND. rewrite M, map_app in ND. simpl in ND.
    apply NoDup_remove_2 in ND. apply ND. apply in_or_app. right. rewrite map_app. apply in_or_app. simpl; auto.
Qed.

(** Advancing. *)
Lemma next_o k c w r s cl en aw : rel E w aw -> lives E k c w r s cl -> exists it l,
  o_next (MkO c (OAt (r, cl_q cl)) en) w = Val it w /\ contents E c w l /\
  stands w (VO it) (MkCur true c (next_mark E k l)).
Proof.
  intros R L. destruct (lives_cells R L) as (x & a & l1 & l2 & At & <- & Ha & Rp & Q & CT & D).
  eexists _, _. split; [exact (o_next_ev en At (rp_store Rp))|]. split; [exact CT|].
  rewrite pairs_mid, next_mark_mid by auto.
  eapply (stands_opos (l1 := l1 ++ [cl])); eauto. rewrite <- app_assoc. exact Rp.
Qed.
Lemma next_u k c w r s cl en aw : rel E w aw -> lives E k c w r s cl -> exists it l,
  u_next (MkU c (UAt ((r, cl_m cl), s_epoch s)) en) w = Val it w /\ hash_order E c w l /\
  stands w (VU it) (MkCur false c (next_mark E k l)).
Proof.
  intros R L. destruct (lives_rows R L) as (x & a & cs & m1 & m2 & At & <- & Ha & Rp & I & M & HO & D).
  eexists _, _. split; [exact (u_next_ev en At M (rep_map_nodup (rp_store Rp)))|]. split; [exact HO|].
  assert (QQ : key_equal E k (e_key (cl_e cl)) = true) by (destruct L as (? & ? & L); tauto).
  rewrite M, map_app. simpl map. rewrite next_mark_mid; auto.
  eapply (stands_upos (m1 := m1 ++ [mrow (c_rid x) cl])); eauto. rewrite <- app_assoc. exact M.
Qed.
Lemma rev_pairs (l : list cell) : rev (pairs l) = pairs (rev l).
Proof. unfold ents. rewrite <- !map_rev. auto. Qed.
Lemma prev_at k c w r s cl en aw l : rel E w aw -> lives E k c w r s cl -> contents E c w l ->
  prev_mark E (AtKey k) l <> @Stray K -> exists it,
  o_prev (MkO c (OAt (r, cl_q cl)) en) w = Val it w /\ stands w (VO it) (MkCur true c (prev_mark E (AtKey k) l)).
Proof.
  intros R L CT0 P. destruct (lives_cells R L) as (x & a & l1 & l2 & At & <- & Ha & Rp & Q & CT & D).
  assert (l = pairs (l1 ++ cl :: l2)) by (unfold contents in *; congruence). subst l.
  unfold prev_mark in *. rewrite pairs_mid, rev_app_distr in *. simpl in P |- *.
  rewrite <- app_assoc in *. simpl in P |- *.
  rewrite next_mark_mid in *; auto; try (intros q I; apply D; right; apply in_rev; auto).
  destruct l1 as [|d l1 _] using rev_ind; [simpl in P; congruence|].
  rewrite ents_app, map_app, rev_app_distr. simpl.
  eexists. split.
  - exact (o_prev_at en At (rp_store Rp)).
  - eapply st_at_o; auto. rewrite <- app_assoc in Rp. eapply cell_lives; eauto.
Qed.
Lemma prev_end c w aw l : rel E w aw -> contents E c w l -> prev_mark E (@AtEnd K) l <> @Stray K -> exists it,
  o_prev (ordered_end c) w = Val it w /\ stands w (VO it) (MkCur true c (prev_mark E (@AtEnd K) l)).
Proof.
  intros R CT P. destruct (cells_at G R CT) as (x & s & a & cs & At & Ha & Rp & ->).
  destruct cs as [|d l1 _] using rev_ind; [exfalso; apply P; reflexivity|].
  unfold prev_mark. rewrite ents_app, map_app, rev_app_distr. simpl. eexists. split.
  - exact (o_prev_end None At (rp_store Rp)).
  - eapply st_at_o; auto. eapply cell_lives; eauto.
Qed.

(** Dereferencing. *)
Lemma deref_o k c w r s cl en : lives E k c w r s cl -> en = None \/ en = Some (r, cl_m cl) ->
  o_deref E (MkO c (OAt (r, cl_q cl)) en) w =
  Val ((r, cl_m cl), MkO c (OAt (r, cl_q cl)) (Some (r, cl_m cl))) w.
Proof. intros L [-> | ->]; [apply (lives_o_deref G L)|reflexivity]. Qed.
Lemma deref_u k c w r s cl en : lives E k c w r s cl -> en = None \/ en = Some (r, cl_m cl) ->
  u_deref (MkU c (UAt ((r, cl_m cl), s_epoch s)) en) w =
  Val ((r, cl_m cl), MkU c (UAt ((r, cl_m cl), s_epoch s)) (Some (r, cl_m cl))) w.
Proof. intros L [-> | ->]; [apply (lives_u_deref c L)|reflexivity]. Qed.

Lemma lives_same k c w w' r s cl : w_caches w' = w_caches w -> w_stores w' = w_stores w ->
  lives E k c w r s cl -> lives E k c w' r s cl.
Proof. intros C S (x & l & H). exists x, l. rewrite C, S. exact H. Qed.
Lemma stands_same w w' v cu : w_caches w' = w_caches w -> w_stores w' = w_stores w ->
  stands w v cu -> stands w' v cu.
Proof.
  intros C S. destruct 1; econstructor; eauto using lives_same; unfold alive in *; rewrite C; auto.
Qed.

(** Validity checks. *)
Definition wa (x : cache) w : world := match c_ttl x with None => w | Some _ => tock w end.
Definition late (x : cache) cl w : bool :=
  match c_ttl x with None => false | Some d => Z.ltb d (dcast E (clock E (w_reads w) - e_time (cl_e cl))) end.
Lemma wa_caches x w : w_caches (wa x w) = w_caches w.
Proof. unfold wa. destruct (c_ttl x); auto. Qed.
Lemma wa_stores x w : w_stores (wa x w) = w_stores w.
Proof. unfold wa. destruct (c_ttl x); auto. Qed.
Lemma wa_rel x w aw : rel E w aw -> exists aw', rel E (wa x w) aw'.
Proof. unfold wa. destruct (c_ttl x); intros; eauto using rel_tock. Qed.
Lemma info_ev d r cl w : has_expired_info E d (node_of r cl) w =
  Val (Z.ltb d (dcast E (clock E (w_reads w) - e_time (cl_e cl)))) (tock w).
Proof. reflexivity. Qed.

Lemma lives_cache k c w r s cl : lives E k c w r s cl -> exists x, slot (w_caches w) c = Some x /\ c_rid x = r.
Proof. intros (x & l & H & H' & _). eauto. Qed.
Lemma lives_deref k c w r s cl : lives E k c w r s cl -> deref (r, cl_m cl) w = Val (node_of r cl) w.
Proof. intros (x & l & Hx & Rx & Hs & R & I & Q). exact (deref_ev _ _ Hs R I). Qed.
Lemma lives_deref_it k c w r s cl : lives E k c w r s cl ->
  deref_it ((r, cl_m cl), s_epoch s) w = Val (node_of r cl) w.
Proof. intros (x & l & Hx & Rx & Hs & R & I & Q). exact (deref_it_ev _ _ Hs R I). Qed.
Lemma lives_find k c w r s cl : lives E k c w r s cl ->
  map_find E c (e_key (cl_e cl)) w = Val (Some ((r, cl_m cl), s_epoch s)) w.
Proof.
  intros (x & l & Hx & Rx & Hs & R & I & Q). subst r.
  rewrite (map_find_ev G (e_key (cl_e cl)) (conj Hx Hs) R).
  rewrite (find_cell_in G (rs_keys R) I (k := e_key (cl_e cl))); [reflexivity|apply (good_refl G)].
Qed.
Lemma lives_list k c w r s cl : lives E k c w r s cl -> list_deref (r, cl_q cl) w = Val (r, cl_m cl) w.
Proof. intros (x & l & Hx & Rx & Hs & R & I & Q). exact (list_deref_ev _ _ Hs R I). Qed.

Lemma expired_o k c w r s cl en d : lives E k c w r s cl -> en = None \/ en = Some (r, cl_m cl) ->
  has_expired_o E c d (MkO c (OAt (r, cl_q cl)) en) w =
  Val (Z.ltb d (dcast E (clock E (w_reads w) - e_time (cl_e cl)))) (tock w).
Proof.
  intros L H. unfold has_expired_o, o_eq. simpl. unfold bind. rewrite (deref_o L (or_introl eq_refl)).
  rewrite (lives_deref L). simpl. rewrite (lives_find L), (lives_deref_it L). apply info_ev.
Qed.
Lemma expired_u k c w r s cl en d : lives E k c w r s cl ->
  has_expired_u E c d (MkU c (UAt ((r, cl_m cl), s_epoch s)) en) w =
  Val (Z.ltb d (dcast E (clock E (w_reads w) - e_time (cl_e cl)))) (tock w).
Proof.
  intros L. unfold has_expired_u, u_eq. simpl. unfold bind. rewrite (lives_deref_it L). apply info_ev.
Qed.

Definition checked (x : cache) cl w : res world unit :=
  if late x cl w then Exc KeyExpired (wa x w) else Val tt (wa x w).
Lemma check_o k c w r s cl en x : lives E k c w r s cl -> en = None \/ en = Some (r, cl_m cl) ->
  slot (w_caches w) c = Some x ->
  throw_if_invalid_o E c (MkO c (OAt (r, cl_q cl)) en) w = checked x cl w.
Proof.
  intros L H Hx. unfold throw_if_invalid_o, bind, get_cache. rewrite Hx. unfold o_eq; simpl.
  unfold checked, late, wa. destruct (c_ttl x) as [d|]; [|reflexivity].
  rewrite (expired_o d L H). destruct (Z.ltb d _); auto.
Qed.
Lemma check_u k c w r s cl en x : lives E k c w r s cl -> slot (w_caches w) c = Some x ->
  throw_if_invalid_u E c (MkU c (UAt ((r, cl_m cl), s_epoch s)) en) w = checked x cl w.
Proof.
  intros L Hx. unfold throw_if_invalid_u, bind, get_cache. rewrite Hx. unfold u_eq; simpl.
  unfold checked, late, wa. destruct (c_ttl x) as [d|]; [|reflexivity].
  rewrite (expired_u en d L). destruct (Z.ltb d _); auto.
Qed.
Lemma valid_o k c w r s cl en x : lives E k c w r s cl -> en = None \/ en = Some (r, cl_m cl) ->
  slot (w_caches w) c = Some x ->
  is_valid_o E c (MkO c (OAt (r, cl_q cl)) en) w = Val (negb (late x cl w)) (wa x w).
Proof.
  intros L H Hx. unfold is_valid_o, bind, get_cache. rewrite Hx. unfold o_eq; simpl.
  unfold late, wa. destruct (c_ttl x) as [d|]; [|reflexivity]. rewrite (expired_o d L H). auto.
Qed.
Lemma valid_u k c w r s cl en x : lives E k c w r s cl -> slot (w_caches w) c = Some x ->
  is_valid_u E c (MkU c (UAt ((r, cl_m cl), s_epoch s)) en) w = Val (negb (late x cl w)) (wa x w).
Proof.
  intros L Hx. unfold is_valid_u, bind, get_cache. rewrite Hx. unfold u_eq; simpl.
  unfold late, wa. destruct (c_ttl x) as [d|]; [|reflexivity]. rewrite (expired_u en d L). auto.
Qed.

(** The positions. *)
Lemma position_at k c w r s cl aw : rel E w aw -> lives E k c w r s cl -> exists l, contents E c w l /\
  ordered_nth c (position E (AtKey k) l) w = Val (MkO c (OAt (r, cl_q cl)) None) w.
Proof.
  intros R L. destruct (lives_cells R L) as (x & a & l1 & l2 & At & <- & Ha & Rp & Q & CT & D).
  eexists. split; [exact CT|]. simpl. rewrite pairs_mid, index_mid by auto.
  unfold ents. rewrite !map_length. eapply (ordered_nth_at At Rp). rewrite nth_error_app2, Nat.sub_diag; auto.
Qed.
Lemma hash_order_is c w x s a (cs : list cell) : at_ w c x s -> rep E x s a cs ->
  hash_order E c w (map (@npair K V) (s_map s)).
Proof.
  intros At Rp. unfold hash_order, exec. simpl. rewrite (at_alive At). cbn [body]. unfold bind.
  assert (T : traverse_unordered c w = Val (map (@npair K V) (s_map s)) w).
  { unfold traverse_unordered, bind. rewrite (size_ev At), (unordered_begin_ev At).
    eapply (u_collect_ev (m1 := [])); eauto. eapply rep_map_nodup, (rp_store Rp). }
  rewrite T. reflexivity.
Qed.
Lemma position_u k c w r s cl aw : rel E w aw -> lives E k c w r s cl -> exists l, hash_order E c w l /\
  unordered_nth c (position E (AtKey k) l) w = Val (MkU c (UAt ((r, cl_m cl), s_epoch s)) None) w.
Proof.
  intros R L. destruct (lives_rows R L) as (x & a & cs & m1 & m2 & At & <- & Ha & Rp & I & M & HO & D).
  eexists. split; [exact HO|]. simpl.
  assert (QQ : key_equal E k (e_key (cl_e cl)) = true) by (destruct L as (? & ? & L); tauto).
  rewrite M, map_app. simpl map. rewrite index_mid by auto. rewrite map_length.
  eapply (unordered_nth_at At (rp_store Rp)). rewrite M, nth_error_app2, Nat.sub_diag; auto. reflexivity.
Qed.
Lemma cells_alive c w aw : rel E w aw -> alive w c = true ->
  exists x s a (cs : list cell), at_ w c x s /\ slot (aw_caches aw) c = Some a /\ rep E x s a cs /\
  contents E c w (pairs cs).
Proof.
  intros R A. destruct (alive_inv R A) as (a & Ha). pose proof (contents_of G R Ha) as CT.
  destruct (rel_get _ R Ha) as (x & s & l & At & Rp). exists x, s, a, l. rewrite (rp_ents Rp) in CT. auto.
Qed.
Lemma position_end c w aw : rel E w aw -> alive w c = true -> exists l, contents E c w l /\
  ordered_nth c (position E (@AtEnd K) l) w = Val (ordered_end c) w.
Proof.
  intros R A. destruct (cells_alive R A) as (x & s & a & cs & At & Ha & Rp & CT).
  eexists. split; [exact CT|]. simpl. unfold ents. rewrite !map_length.
  apply (ordered_nth_end At (rp_store Rp)). apply nth_error_None. auto.
Qed.
Lemma position_end_u c w aw : rel E w aw -> alive w c = true -> exists l, hash_order E c w l /\
  unordered_nth c (position E (@AtEnd K) l) w = Val (unordered_end c) w.
Proof.
  intros R A. destruct (cells_alive R A) as (x & s & a & cs & At & Ha & Rp & CT).
  eexists. split; [exact (hash_order_is At Rp)|]. simpl. rewrite map_length.
  apply (unordered_nth_end At (rp_store Rp)). apply nth_error_None. auto.
Qed.

(** Calls are defined. *)
Lemma defined o w aw : rel E w aw -> copy_free o = true ->
  match o with Move _ | FindEntry _ _ | Front _ | Back _ => False | _ => True end ->
  exists oc w' aw', call E o w oc w' /\ rel E w' aw'.
Proof.
  intros R CF NB. destruct (exec_step G R CF) as (ch & S). pose proof (step_safe ch o (awf_rel R)) as A.
  destruct (astep E ch o aw) as [r' aw'|e' aw'|u|e'].
  - destruct (exec E o w) as [r w'|e w'|u'|e] eqn:X; simpl in S; try easy.
    exists (Returned r), w', aw'. split; [exact X|tauto].
  - destruct (exec E o w) as [r w'|e w'|u'|e] eqn:X; simpl in S; try easy.
    exists (Threw e), w', aw'. split; [exact X|tauto].
  - exfalso. destruct A as [(c & -> & _)|(c & k & -> & _)]; auto.
  - exfalso. destruct A as (_ & c & a & [->| ->] & _); auto.
Qed.
Lemma call_rel o oc w w' aw : rel E w aw -> copy_free o = true -> call E o w oc w' -> exists aw', rel E w' aw'.
Proof. intros R CF C. destruct (call_any G R CF C) as (ch & oc' & aw' & R' & _). eauto. Qed.

(** Writing. *)
Lemma rewrites_mid k v (l1 : list (K * V)) p l2 :
  (forall q, In q l1 \/ In q l2 -> key_equal E k (fst q) = false) -> key_equal E k (fst p) = true ->
  rewrites E k v (l1 ++ p :: l2) = l1 ++ (fst p, v) :: l2.
Proof.
  intros D Q. unfold rewrites. rewrite map_app. simpl. rewrite Q. f_equal; [|f_equal].
  - rewrite <- (map_id l1) at 2. apply map_ext_in. intros q I. rewrite D; auto.
  - rewrite <- (map_id l2) at 2. apply map_ext_in. intros q I. rewrite D; auto.
Qed.
End Cursor.
