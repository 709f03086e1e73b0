(** Histories: reachable worlds are represented in the reference machine, and
    calls can be evaluated there. *)
From Coq Require Import List Arith ZArith Bool Permutation Lia.
Import ListNotations.
From Verif Require Import Monad Types Model Api Spec Ref Lists SimBase SimRel SimOps SimIns SimErase SimIter SimNew SimObs SimExec RefEval.
Set Implicit Arguments.
Unset Strict Implicit.
Local Open Scope cpp_scope.

(** Calls whose effect depends on the order of unordered iteration. *)
Definition by_hash {K V} (o : op K V) : bool :=
  match o with EraseUnordered _ _ => true | _ => false end.

Section Run.
Context {K V : Type}.
Variable E : env K V.

Notation entry := (entry K V).
Notation world := (world K V).
Notation acache := (acache K V).
Notation aworld := (aworld K V).
Notation rel := (rel E).
Implicit Types (w : world) (aw : aworld) (a : acache) (o : op K V).

Lemma run_app l1 l2 w : run E (l1 ++ l2) w =
  match run E l1 w with
  | Finished outs w' =>
      match run E l2 w' with
      | Finished outs' w'' => Finished (outs ++ outs') w''
      | Undefined outs' u => Undefined (outs ++ outs') u
      | Terminated outs' e => Terminated (outs ++ outs') e
      end
  | h => h
  end.
Proof.
  revert w; induction l1 as [|o l1 IH]; intros w; simpl.
  - destruct (run E l2 w); auto.
  - destruct (exec E o w); auto.
    + rewrite IH. destruct (run E l1 s); simpl; auto. destruct (run E l2 w0); auto.
    + rewrite IH. destruct (run E l1 s); simpl; auto. destruct (run E l2 w0); auto.
Qed.

Lemma reachable_step w o r w' : reachable E w -> copy_free o = true ->
  exec E o w = Val r w' -> reachable E w'.
Proof. apply reach_return. Qed.
Lemma reachable_exc w o e w' : reachable E w -> copy_free o = true ->
  exec E o w = Exc e w' -> reachable E w'.
Proof. apply reach_throw. Qed.
Lemma reachable_init : reachable E init_world.
Proof. apply reach_init. Qed.

Lemma run_inv ops w outs w' : run E ops w = Finished outs w' ->
  match ops with
  | [] => outs = [] /\ w' = w
  | o :: t => exists w1 r rs, outs = r :: rs /\ run E t w1 = Finished rs w' /\
      ((exists x, r = Returned x /\ exec E o w = Val x w1) \/
       (exists e, r = Threw e /\ exec E o w = Exc e w1))
  end.
Proof.
  destruct ops as [|o t]; simpl.
  - intros H; inversion H; auto.
  - destruct (exec E o w) eqn:X; try discriminate; destruct (run E t s) eqn:R; simpl; try discriminate;
      intros H; inversion H; subst; eexists _, _, _; split; eauto.
Qed.

Lemma reachable_run ops : forall w outs w', reachable E w -> forallb copy_free ops = true ->
  run E ops w = Finished outs w' -> reachable E w'.
Proof.
  induction ops as [|o t IH]; intros w outs w' H F X.
  - apply run_inv in X as (_ & ->). auto.
  - simpl in F. apply andb_prop in F as (F1 & F2).
    apply run_inv in X as (w1 & r & rs & _ & X & [(x & _ & Y)|(e & _ & Y)]);
      eauto using reachable_step, reachable_exc.
Qed.

Lemma abody_ch ch o : by_hash o = false -> abody E ch o = abody E 0 o.
Proof. destruct o; simpl; intros H; try reflexivity; discriminate. Qed.
Lemma aexec_ch ch o : by_hash o = false -> aexec E ch o = aexec E 0 o.
Proof. intros H. unfold aexec. rewrite (abody_ch ch H). auto. Qed.

Section Good.
Hypothesis G : good E.

Lemma run_rel ops : forall w aw outs w', rel w aw -> forallb copy_free ops = true ->
  run E ops w = Finished outs w' -> exists aw', rel w' aw'.
Proof.
  induction ops as [|o t IH]; intros w aw outs w' R F H.
  - apply run_inv in H as (-> & ->). eauto.
  - simpl in F. apply andb_prop in F as (F1 & F2).
    destruct (exec_sim G (o := o) R F1) as (ch & S).
    apply run_inv in H as (w1 & r & rs & -> & H & [(x & -> & X)|(e & -> & X)]);
      rewrite X in S; destruct (aexec E ch o aw); simpl in S; try easy; destruct S; eauto.
Qed.

(** Assignment to the value of an element. *)
Lemma last_val (l1 : list (@cell K V)) cl v l2 (r : nat) :
  option_map (fun c => (r, cl_m c)) (last_cell (l1 ++ cell_val v cl :: l2)) =
  option_map (fun c => (r, cl_m c)) (last_cell (l1 ++ cl :: l2)).
Proof.
  unfold last_cell. rewrite !rev_app_distr. simpl. rewrite <- !app_assoc. simpl.
  destruct (rev l2); reflexivity.
Qed.
Lemma rep_write x s s' a l1 cl l2 v : rep E x s a (l1 ++ cl :: l2) ->
  rep_store E (c_rid x) s' (l1 ++ cell_val v cl :: l2) ->
  rep E x s' (set_ents (ents l1 ++ set_val v (cl_e cl) :: ents l2) (a_hot a) a) (l1 ++ cell_val v cl :: l2).
Proof.
  intros R R'. constructor; simpl; try apply R; auto.
  - rewrite ents_app; auto.
  - pose proof (rp_len R) as L. rewrite !app_length in *. simpl in *. auto.
  - rewrite last_val. apply (rp_last R).
  - intros _ Q; destruct l1; discriminate.
Qed.
Lemma rel_write w aw p v w' : rel w aw ->
  update_node p (fun n => MkNode (n_key n) v (n_ord n) (n_time n)) w = Val tt w' ->
  exists aw', rel w' aw'.
Proof.
  intros R. unfold update_node, bind, get_store. destruct p as (r & i). cbn [fst snd].
  destruct (slot (w_stores w) r) as [s|] eqn:Hs; [|discriminate].
  destruct (assoc i (s_map s)) as [n|] eqn:Hi; [|discriminate].
  unfold put_store, modify. intros H. injection H as <-.
  set (s' := MkStore _ _ _ _).
  destruct (List.find (fun c => match slot (w_caches w) c with Some x => Nat.eqb (c_rid x) r | None => false end)
                 (seq 0 (length (w_caches w)))) as [c|] eqn:Fc.
  - apply find_some in Fc as (_ & Fc). destruct (slot (w_caches w) c) as [x|] eqn:Hx; [|discriminate].
    apply Nat.eqb_eq in Fc. subst r.
    destruct (rel_get' _ R Hx) as (a & s1 & l & Ha & At & Rp).
    assert (s1 = s) by (pose proof (proj2 At); congruence). subst s1.
    assert (I : In (i, n) (s_map s)) by (apply assoc_in; auto).
    apply (Permutation_in _ (rs_map (rp_store Rp))), in_map_iff in I as (cl & Hc & I).
    inversion Hc; subst i n. apply in_split in I as (l1 & l2 & ->).
    assert (RS' : rep_store E (c_rid x) s' (l1 ++ cell_val v cl :: l2)) by (eapply rep_setval; apply (rp_store Rp)).
    eexists. eapply (rel_put R At Ha); [eapply (chg_setS (w := w)); eauto|exact (rep_write Rp RS')|auto|auto].
  - exists aw. assert (NC : forall c x, slot (w_caches w) c = Some x -> c_rid x <> r).
    { intros c x Hx Q. pose proof (find_none _ _ Fc c) as X. cbv beta in X. rewrite Hx in X.
      rewrite Q, Nat.eqb_refl in X. discriminate X. apply in_seq. pose proof (slot_lt _ _ Hx). lia. }
    destruct R as [R1 R2 R3 R4 R5 R6 R7]. constructor; simpl; auto.
    intros c. specialize (R2 c). destruct (slot (w_caches w) c) as [x|] eqn:Hx, (slot (aw_caches aw) c); auto.
    destruct R2 as (t & l & H1 & H2). exists t, l. split; auto. rewrite slot_upd_other; auto.
    intros Q. apply (NC _ _ Hx). auto.
Qed.

Lemma reach_rel w : reachable E w -> exists aw, rel w aw.
Proof.
  induction 1 as [|w o r w' H (aw & R) CF X|w o e w' H (aw & R) CF X|w p v w' H (aw & R) X].
  - eexists. apply rel_init.
  - destruct (exec_sim G (o := o) R CF) as (ch & S). rewrite X in S.
    destruct (aexec E ch o aw); simpl in S; try easy. destruct S; eauto.
  - destruct (exec_sim G (o := o) R CF) as (ch & S). rewrite X in S.
    destruct (aexec E ch o aw); simpl in S; try easy. destruct S; eauto.
  - eapply rel_write; eauto.
Qed.

(** Evaluate a call through the reference machine. *)
Lemma step_val o w aw r aw' : rel w aw -> copy_free o = true -> by_hash o = false ->
  aexec E 0 o aw = Val r aw' ->
  exists r' w', exec E o w = Val r' w' /\ rel w' aw' /\ out_rel o r' r.
Proof.
  intros R CF BH X. destruct (exec_sim G (o := o) R CF) as (ch & S).
  rewrite (aexec_ch ch BH), X in S. destruct (exec E o w); simpl in S; try easy.
  destruct S; eauto.
Qed.
Lemma step_exc o w aw e aw' : rel w aw -> copy_free o = true -> by_hash o = false ->
  aexec E 0 o aw = Exc e aw' ->
  exists w', exec E o w = Exc e w' /\ rel w' aw'.
Proof.
  intros R CF BH X. destruct (exec_sim G (o := o) R CF) as (ch & S).
  rewrite (aexec_ch ch BH), X in S. destruct (exec E o w); simpl in S; try easy.
  destruct S; subst; eauto.
Qed.
Lemma step_term o w aw e : rel w aw -> copy_free o = true -> by_hash o = false ->
  aexec E 0 o aw = Term e -> exec E o w = Term e.
Proof.
  intros R CF BH X. destruct (exec_sim G (o := o) R CF) as (ch & S).
  rewrite (aexec_ch ch BH), X in S. destruct (exec E o w); simpl in S; try easy. congruence.
Qed.

(** Observations. *)
Lemma slot_alive aw c a : slot (aw_caches aw) c = Some a -> a_alive aw c = true.
Proof. unfold a_alive; intros ->; auto. Qed.

Lemma exec_wf o w aw : rel w aw -> exec E o w = if a_well_formed aw o then body E o w else Val RIll w.
Proof. intros R. unfold exec. rewrite (rel_well_formed _ R); auto. Qed.

Lemma contents_of w aw c a : rel w aw -> slot (aw_caches aw) c = Some a ->
  contents E c w (map pair_of (a_ents a)).
Proof.
  intros R Ha. unfold contents. rewrite (exec_wf _ R). simpl. rewrite (slot_alive Ha).
  destruct (rel_get _ R Ha) as (x & s & l & At & Rp). rewrite (rp_ents Rp).
  unfold bind. erewrite traverse_ordered_ev by eauto using rp_store. reflexivity.
Qed.
Lemma contents_inv w aw c l : rel w aw -> contents E c w l ->
  exists a, slot (aw_caches aw) c = Some a /\ l = map pair_of (a_ents a).
Proof.
  intros R C. destruct (slot (aw_caches aw) c) as [a|] eqn:Ha.
  - exists a; split; auto. pose proof (contents_of R Ha) as C'. unfold contents in *. congruence.
  - unfold contents in C. rewrite (exec_wf _ R) in C. simpl in C. unfold a_alive in C.
    rewrite Ha in C. discriminate.
Qed.
Lemma capacity_of w aw c a : rel w aw -> slot (aw_caches aw) c = Some a -> capacity_is E c w (a_cap a).
Proof.
  intros R Ha. unfold capacity_is. rewrite (exec_wf _ R). simpl. rewrite (slot_alive Ha).
  destruct (rel_get _ R Ha) as (x & s & l & At & Rp).
  unfold bind. erewrite capacity_ev by apply At. rewrite (rp_cap Rp). reflexivity.
Qed.
Lemma capacity_inv w aw c a n : rel w aw -> slot (aw_caches aw) c = Some a ->
  capacity_is E c w n -> a_cap a = n.
Proof. intros R Ha C. pose proof (capacity_of R Ha) as C'. unfold capacity_is in *. congruence. Qed.
Lemma size_of w aw c a : rel w aw -> slot (aw_caches aw) c = Some a -> size_is E c w (length (a_ents a)).
Proof.
  intros R Ha. unfold size_is. rewrite (exec_wf _ R). simpl. rewrite (slot_alive Ha).
  destruct (rel_get _ R Ha) as (x & s & l & At & Rp).
  unfold bind. erewrite size_ev by eauto. rewrite (rep_size (rp_store Rp)), (rp_ents Rp).
  unfold ents. rewrite map_length. reflexivity.
Qed.
Lemma size_inv w aw c a n : rel w aw -> slot (aw_caches aw) c = Some a ->
  size_is E c w n -> length (a_ents a) = n.
Proof. intros R Ha C. pose proof (size_of R Ha) as C'. unfold size_is in *. congruence. Qed.
Lemma alive_inv w aw c : rel w aw -> alive w c = true -> exists a, slot (aw_caches aw) c = Some a.
Proof.
  intros R H. rewrite (rel_alive _ R) in H. unfold a_alive in H.
  destruct (slot (aw_caches aw) c); [eauto|discriminate].
Qed.
Lemma ttl_inv w aw c a d : rel w aw -> slot (aw_caches aw) c = Some a -> ttl_of c w d -> a_ttl a = d.
Proof.
  intros R Ha (x & H & D). destruct (rel_get _ R Ha) as (x' & s & l & At & Rp).
  rewrite (at_slot At) in H. inversion H; subst. symmetry; apply Rp.
Qed.
Lemma ttl_ofw w aw c a : rel w aw -> slot (aw_caches aw) c = Some a -> ttl_of c w (a_ttl a).
Proof.
  intros R Ha. destruct (rel_get _ R Ha) as (x' & s & l & At & Rp).
  exists x'. split; [apply At|apply Rp].
Qed.
Lemma untimed_inv w aw c a : rel w aw -> slot (aw_caches aw) c = Some a -> timed w c = false ->
  a_ttl a = None.
Proof.
  intros R Ha. rewrite (rel_timed _ R). unfold a_timed. rewrite Ha. destruct (a_ttl a); easy.
Qed.
Lemma untimed_of w aw c a : rel w aw -> slot (aw_caches aw) c = Some a -> a_ttl a = None ->
  timed w c = false.
Proof. intros R Ha T. rewrite (rel_timed _ R). unfold a_timed. rewrite Ha, T. auto. Qed.

(** Facts about caches of represented worlds. *)
Lemma rel_len_le w aw c a : rel w aw -> slot (aw_caches aw) c = Some a -> length (a_ents a) <= a_cap a.
Proof.
  intros R Ha. destruct (rel_get _ R Ha) as (x & s & l & At & Rp). rewrite (rp_ents Rp).
  unfold ents. rewrite map_length. apply Rp.
Qed.
Lemma rel_dkeys w aw c a : rel w aw -> slot (aw_caches aw) c = Some a -> dkeys E (a_ents a).
Proof.
  intros R Ha. destruct (rel_get _ R Ha) as (x & s & l & At & Rp). rewrite (rp_ents Rp).
  apply (rs_keys (rp_store Rp)).
Qed.
Lemma rel_hot w aw c a : rel w aw -> slot (aw_caches aw) c = Some a -> a_hot a = true -> a_ents a <> [].
Proof.
  intros R Ha Hh. destruct (rel_get _ R Ha) as (x & s & l & At & Rp). rewrite (rp_ents Rp).
  pose proof (rp_hot Rp Hh). destruct l; simpl; congruence.
Qed.
Lemma rel_st w aw c a : rel w aw -> slot (aw_caches aw) c = Some a -> stats_ok aw a.
Proof. intros R Ha i Hi. eapply rel_sts; eauto. Qed.

End Good.

(** Sequences of pairs and of entries. *)
Notation mp := (map (@pair_of K V)).

Lemma look_map k l : look E k (mp l) = option_map pair_of (lookup_ent E k l).
Proof. unfold look, lookup_ent. rewrite find_map. reflexivity. Qed.
Lemma look_none k l : look E k (mp l) = None <-> lookup_ent E k l = None.
Proof. rewrite look_map. destruct (lookup_ent E k l); simpl; split; congruence. Qed.
Lemma look_some k l p : look E k (mp l) = Some p -> exists e, lookup_ent E k l = Some e /\ p = pair_of e.
Proof. rewrite look_map. destruct (lookup_ent E k l); simpl; intros H; inversion H; eauto. Qed.
Lemma has_look k l : has E k l = match look E k l with Some _ => true | None => false end.
Proof.
  unfold has, look. induction l as [|p l IH]; simpl; auto.
  destruct (key_equal E k (fst p)); auto.
Qed.
Lemma has_map k l : has E k (mp l) = match lookup_ent E k l with Some _ => true | None => false end.
Proof. rewrite has_look, look_map. destruct (lookup_ent E k l); auto. Qed.
Lemma without_map k l : without E k (mp l) = mp (remove_ent E k l).
Proof.
  unfold without, remove_ent. induction l as [|e l IH]; simpl; auto.
  destruct (key_equal E k (e_key e)); simpl; congruence.
Qed.
Lemma newest_map n (l : list entry) : newest n (mp l) = mp (lastn n l).
Proof. unfold newest, lastn. rewrite map_length. apply skipn_map. Qed.
Lemma newest_lastn {A} n (l : list A) : newest n l = lastn n l.
Proof. reflexivity. Qed.
Lemma distinct_dkeys (l : list entry) : dkeys E l -> distinct E (mp l).
Proof.
  induction l as [|e l IH]; simpl; auto. intros (F & D). split; auto.
  rewrite has_map. destruct (lookup_ent E (e_key e) l) as [e'|] eqn:L; auto.
  apply find_some in L as (I & L). rewrite Forall_forall in F. rewrite F in L; auto.
Qed.

End Run.
