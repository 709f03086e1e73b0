(** What moving out of a cache leaves behind, and "c = d" for a cache d that is not
    const. *)
From Coq Require Import List Arith ZArith Bool Permutation Lia.
Import ListNotations.
From Verif Require Import Monad Types Model Api Spec SpecIter Ref Lists SimBase SimRel SimOps SimIns SimErase SimIter SimNew SimObs SimExec RefEval SimRun LruProofs CallProofs LruMore Flat Global Safe IterProofs CursorProofs CopyFrame Refs SpecRefs RefsProofs FillFrame FillProofs.
Set Implicit Arguments.
Unset Strict Implicit.
Local Open Scope cpp_scope.

Section FillMore.
Context {K V : Type}.
Variable E : env K V.
Hypothesis G : good E.
Variable husk : V -> V.
Variable khusk : K -> K.

Notation world := (world K V).
Notation store := (store K V).
Notation aworld := (aworld K V).
Notation cell := (@cell K V).
Notation top := (fun _ => True).
Implicit Types (w : world) (s : store) (aw : aworld) (o : op K V).
Notation rexec := (rexec E husk khusk).
Notation hn := (hn husk).
Notation hrow := (hrow husk).
Notation hollow := (hollow husk).

(** ** Hollow caches *)

Lemma hollow_at w d x s : at_ w d x s ->
  hollow d w = setS (c_rid x) (with_map (map hrow (s_map s)) s) w.
Proof.
  intros (Hx & Hs). unfold SpecRefs.hollow. rewrite Hx. unfold setS, with_stores. f_equal. rewrite Hs. reflexivity.
Qed.

Lemma reach_hollow w d : reachable E w -> reachable E (hollow d w).
Proof.
  intros H. destruct (slot (w_caches w) d) as [x|] eqn:Hx.
  2: { unfold SpecRefs.hollow. rewrite Hx. auto. }
  destruct (reach_rel G H) as (aw & R). destruct (rel_get' _ R Hx) as (a & s & l & Ha & At & Rp).
  rewrite (hollow_at At).
  enough (X : forall m2 m1, NoDup (map fst (m1 ++ m2)) -> reachable E (setS (c_rid x) (with_map (m1 ++ m2) s) w) ->
                reachable E (setS (c_rid x) (with_map (m1 ++ map hrow m2) s) w)).
  { apply (X (s_map s) []); simpl.
    - apply (rep_map_nodup (rp_store Rp)).
    - replace (with_map (s_map s) s) with s by (destruct s; auto). rewrite setS_same; auto. apply At. }
  assert (L : c_rid x < length (w_stores w)) by (eapply slot_lt; apply At).
  clear R Ha Rp aw a l. induction m2 as [|[i n] m2 IH]; intros m1 N X; auto.
  cbn [map]. unfold FillFrame.hrow at 1. cbn [fst snd].
  replace (m1 ++ (i, hn n) :: map hrow m2) with ((m1 ++ [(i, hn n)]) ++ map hrow m2) by (rewrite <- app_assoc; auto).
  apply IH.
  { rewrite <- app_assoc. simpl. rewrite map_app in *. exact N. }
  apply (@reach_write _ _ E _ (c_rid x, i) (husk (n_val n)) _ X).
  unfold update_node, bind, get_store. cbn [fst snd]. unfold setS. simpl. rewrite slot_upd_lt by auto. cbn [s_map with_map].
  rewrite (@in_assoc _ (m1 ++ (i, n) :: m2) i n); [|auto|apply in_elt].
  unfold put_store, modify. simpl. f_equal. unfold with_stores. simpl. rewrite upd_upd. f_equal. f_equal.
  f_equal. unfold with_map. simpl. f_equal. rewrite alter_app.
  rewrite map_app in N. simpl in N. pose proof (NoDup_remove_2 _ _ _ N) as N2. rewrite in_app_iff in N2.
  rewrite alter_none by tauto. rewrite <- app_assoc. f_equal.
  unfold alter at 1. cbn [map fst snd]. rewrite Nat.eqb_refl. cbn [app]. f_equal.
  apply (@alter_none _ m2 i (fun n0 => MkNode (n_key n0) (husk (n_val n)) (n_ord n0) (n_time n0))). tauto.
Qed.

Definition hcell (c : cell) : cell := cell_val (husk (e_val (cl_e c))) c.
Lemma rep_hollow r s l : rep_store E r s l -> rep_store E r (with_map (map hrow (s_map s)) s) (map hcell l).
Proof.
  intros R. constructor; simpl.
  - rewrite (rs_ord R), map_map. apply map_ext. auto.
  - rewrite (Permutation_map hrow (rs_map R)), !map_map. apply Permutation_refl'. apply map_ext. auto.
  - rewrite map_map. apply (rs_nq R).
  - rewrite map_map. apply (rs_nm R).
  - rewrite Forall_map. apply (rs_lt R).
  - pose proof (rs_keys R) as D. clear R. induction l as [|c l IH]; simpl in *; auto. destruct D as (D1 & D2).
    split; [|apply IH; auto]. unfold ents in *. rewrite map_map. rewrite Forall_map in *. exact D1.
Qed.
Lemma rep_hollowed x s a l : rep E x s a l ->
  exists a', rep E x (with_map (map hrow (s_map s)) s) a' (map hcell l).
Proof.
  intros R. exists (set_ents (ents (map hcell l)) (a_hot a) a). constructor; simpl; try apply R.
  - apply rep_hollow, R.
  - reflexivity.
  - rewrite map_length. apply R.
  - rewrite (rp_last R). unfold last_cell. rewrite <- map_rev. destruct (rev l); auto.
  - intros Q Q2. apply map_eq_nil in Q2. revert Q2. apply (rp_hot R). auto.
Qed.

Notation hpair := (fun p : K * V => (fst p, husk (snd p))).

Lemma hollow_elements w ord d l : reachable E w -> elements E ord d w l -> elements E ord d (hollow d w) (map hpair l).
Proof.
  intros H El. destruct (elements_alive El) as (x & Hx).
  destruct (reach_rel G H) as (aw & R). destruct (rel_get' _ R Hx) as (a & s & cs & Ha & At & Rp).
  rewrite (elements_inv G At Rp El), (hollow_at At).
  pose proof (at_setS (with_map (map hrow (s_map s)) s) At) as At'.
  destruct (rep_hollowed Rp) as (a' & Rp').
  assert (Q : listed ord (with_map (map hrow (s_map s)) s) (map hcell cs) = map hpair (listed ord s cs)).
  { unfold listed. destruct ord; simpl; unfold ents; rewrite !map_map; apply map_ext; auto. }
  rewrite <- Q. unfold elements, listed. destruct ord.
  - unfold exec. simpl. rewrite (at_alive At'). cbn [body]. unfold bind.
    rewrite (traverse_ordered_ev G At' (rp_store Rp')). reflexivity.
  - apply (hash_order_is At' Rp').
Qed.

(** Calls that do not name [d] do not notice. *)
Lemma hollow_frame w d o : reachable E w -> alive w d = true -> copy_free o = true ->
  existsb (Nat.eqb d) (mentions o) = false ->
  exec E o (hollow d w) =
  match exec E o w with
  | Val r w' => Val r (hollow d w')
  | Exc e w' => Exc e (hollow d w')
  | Undef u => Undef u
  | Term e => Term e
  end.
Proof.
  intros H Al CF Nm. unfold alive in Al. destruct (slot (w_caches w) d) as [x|] eqn:Hx; [|discriminate].
  destruct (split_world G H Hx) as (w0 & aw & a & s & cs & F & -> & H0 & R & Ha & At & Rp & O).
  rewrite <- free_hollow by auto.
  pose proof (exec_frame (good_cb G) x s (o := o) Nm F) as X1.
  pose proof (exec_frame (good_cb G) x (with_map (map hrow (s_map s)) s) (o := o) Nm F) as X2.
  destruct (reach_rel G H0) as (aw0 & R0). destruct (exec_step G R0 CF) as (ch & S).
  pose proof (step_safe ch o (awf_rel R0)) as Y.
  unfold framed in *. destruct (exec E o w0) as [r w1|e w1|u|e].
  - destruct X1 as (F1 & _ & ->), X2 as (_ & _ & ->). rewrite free_hollow; auto.
  - destruct X1 as (F1 & ->), X2 as (_ & ->). rewrite free_hollow; auto.
  - assert (NG : ~ gone u).
    { destruct (astep E ch o aw0); simpl in S; try easy. subst.
      destruct Y as [(c & _ & -> & _)|(c & k & _ & -> & _)]; intros [Q|Q]; discriminate. }
    destruct X1 as [X1| ->]; [tauto|]. destruct X2 as [X2| ->]; [tauto|]. reflexivity.
  - rewrite X1, X2. reflexivity.
Qed.

(** ** c = d *)

Lemma clear_inc_cap c n w u w' : clear_and_increase_capacity c n w = Val u w' ->
  exists y, slot (w_caches w') c = Some y /\ n <= c_cap y.
Proof.
  unfold clear_and_increase_capacity. unfold bind at 1. destruct (clear c w) as [t w1| | |]; try discriminate.
  unfold bind, get_cache. destruct (slot (w_caches w1) c) as [y|] eqn:Hy; [|discriminate].
  destruct (Nat.ltb_spec (c_cap y) n) as [L|L].
  - unfold put_cache, modify. intros H. inversion H; subst. simpl. pose proof (slot_lt _ _ Hy).
    rewrite slot_upd_lt by auto. eexists. split; [reflexivity|]. simpl. lia.
  - unfold ret. intros H. inversion H; subst. eauto.
Qed.
Lemma assign_move_defined w c l : reachable E w -> alive w c = true ->
  match assign_move E c l w with Val _ _ => True | _ => False end.
Proof.
  intros H A. destruct (reach_rel G H) as (aw & R). destruct (alive_inv R A) as (a & Ha).
  destruct (assign_result G (assigns_rvalue c l) H (contents_of G R Ha) (capacity_of R Ha)) as (w' & X & _).
  unfold exec in X. simpl in X. rewrite A in X. unfold bind in X. destruct (assign_move E c l w); auto; discriminate.
Qed.

Theorem assign_lvalue_result w c d l : reachable E w -> c <> d -> alive w c = true -> elements E false d w l ->
  exists w1, exec E (AssignMove c l) w = Val RUnit w1 /\ rexec (PAssign c d) w = Val RUnit (hollow d w1).
Proof.
  intros H N Ac El. destruct (elements_alive El) as (x & Hx).
  destruct (split_world G H Hx) as (w0 & aw & a & s & cs & F & -> & H0 & R & Ha & At & Rp & O).
  pose proof (elements_inv G At Rp El) as ->. pose proof (rp_store Rp) as RS.
  rewrite graft_alive in Ac by auto.
  unfold Refs.rexec, exec. cbn [rwell_formed well_formed rbody body]. rewrite (at_alive At), !andb_true_r, graft_alive, Ac by auto.
  destruct (@join_move _ _ _ (assign_move E c (listed false s cs)) (assign_lvalue E husk c d) d x s w0
     (fun s => with_map (map hrow (s_map s)) s)) as (r & w1 & F1 & Q1 & Q2); auto.
  - apply h_assign_move.
  - unfold assign_move, assign_lvalue. rewrite (listed_length false RS).
    eapply f_bind; [apply (f_clear_grow (E := E)); auto|]. cbv beta. intros [] s' w1 X F1 ->.
    destruct (clear_inc_cap X) as (y & Hy & Ly).
    eapply f_bind; [eapply fill_move_framed; eauto|]. cbv beta. intros n s' w2 _ F2 ->. apply f_ret; auto.
    unfold husked. destruct (Nat.eqb_spec (c_cap y) 0) as [Z|Z]; auto.
    assert (L : length (s_map s) = 0) by (rewrite (rep_size RS); lia).
    destruct s as [m q nx ep]. simpl in *. destruct m; [reflexivity|discriminate].
  - apply assign_move_defined; auto.
  - unfold bind. rewrite Q1, Q2. exists (graft d (c_rid x) x s w1). split; [reflexivity|].
    unfold ret. rewrite free_hollow; auto.
Qed.

Theorem assign_self_result w c : reachable E w -> rexec (PAssign c c) w = exec E (Clear c) w.
Proof.
  intros H. unfold Refs.rexec, exec. cbn [rwell_formed well_formed rbody body].
  destruct (alive w c) eqn:Al; auto. cbn [andb].
  destruct (reach_rel G H) as (aw & R). destruct (alive_inv R Al) as (a & Ha).
  destruct (clear_result G H (contents_of G R Ha) (capacity_of R Ha)) as (w1 & X & C & _).
  pose proof (reachable_step H (o := Clear c) eq_refl X) as H1.
  unfold exec in X. cbn [well_formed body] in X. rewrite Al in X.
  unfold bind in X |- *. destruct (clear c w) as [u w2| | |] eqn:CC; try discriminate. inversion X; subst w2. clear X.
  assert (El : elements E true c w1 []) by exact C.
  destruct (elements_alive El) as (x & Hx).
  destruct (split_world G H1 Hx) as (w0 & aw1 & b & s & cs & F & -> & H0 & R1 & Hb & At & Rp & O).
  pose proof (elements_inv G At Rp El) as Q. pose proof (rp_store Rp) as RS.
  assert (cs = []) by (unfold listed in Q; destruct cs; [auto|discriminate]). subst cs.
  unfold assign_lvalue, clear_and_grow, bind. rewrite CC. rewrite (distance_ev false F RS).
  unfold get_cache. rewrite (proj1 At). simpl.
  unfold fill_move, bind. rewrite (size_ev At), (it_u_begin At).
  pose proof (rep_size RS) as SZ. destruct (s_map s); [|discriminate]. simpl.
  unfold u_eq; simpl. rewrite Nat.eqb_refl. reflexivity.
Qed.

End FillMore.
