(** c.insert(c.begin(), c.end()): a cache inserted into itself (C74). *)
From Coq Require Import List Arith ZArith Bool Permutation Lia.
Import ListNotations.
From Verif Require Import Monad Types Model Api Spec SpecIter Ref Lists SimBase SimRel SimOps SimIns SimErase SimIter SimNew SimObs SimExec RefEval SimRun LruProofs CallProofs LruMore IterProofs CursorProofs CopyFrame Refs SpecRefs RefsProofs FillFrame FillProofs.
Set Implicit Arguments.
Unset Strict Implicit.
Local Open Scope cpp_scope.

Section SelfFill.
Context {K V : Type}.
Variable E : env K V.
Hypothesis G : good E.
Variables (husk : V -> V) (khusk : K -> K).
Notation world := (world K V).
Notation store := (store K V).
Notation cell := (@cell K V).
Notation rexec := (rexec E husk khusk).
Implicit Types (w : world) (s : store).

Lemma move_keeps_map w c x s l1 (cl : cell) l2 : at_ w c x s ->
  rep_store E (c_rid x) s (l1 ++ cl :: l2) ->
  exists s', move_to_front c (Some (c_rid x, cl_q cl)) w = Val tt (setS (c_rid x) s' w) /\
    rep_store E (c_rid x) s' (l1 ++ l2 ++ [cl]) /\
    s_epoch s' = s_epoch s /\ s_map s' = s_map s.
Proof.
  intros A R. unfold move_to_front, bind. erewrite size_ev by eauto.
  rewrite (rep_size R). destruct (Nat.eqb_spec (length (l1 ++ cl :: l2)) 1) as [L|L].
  - rewrite app_length in L; simpl in L. destruct l1, l2; simpl in L; try lia.
    exists s. simpl. split; [|auto]. unfold ret. f_equal. unfold setS, with_stores. destruct w; simpl.
    destruct A as (_ & A). simpl in A. rewrite upd_slot; auto.
  - unfold list_splice_back, bind. erewrite own_ev by eauto. rewrite Nat.eqb_refl.
    erewrite rep_assoc_q by (eauto using in_mid). rewrite put_store_ev.
    eexists; split; [reflexivity|]. split; [eapply rep_move; eauto|auto].
Qed.

Lemma alter_same r s l1 (cl : cell) l2 : rep_store E r s (l1 ++ cl :: l2) ->
  alter (cl_m cl) (fun n => MkNode (n_key n) (e_val (cl_e cl)) (n_ord n) (n_time n)) (s_map s) = s_map s.
Proof.
  intros R. unfold alter. rewrite <- map_id. apply map_ext_in. intros [i n] I. simpl.
  destruct (Nat.eqb_spec (cl_m cl) i) as [<-|]; auto.
  assert (I2 : In (cl_m cl, node_of r cl) (s_map s)).
  { apply (Permutation_in _ (Permutation_sym (rs_map R))). apply in_map_iff. exists cl. split; auto. apply in_mid. }
  pose proof (rep_map_nodup R) as ND.
  assert (n = node_of r cl).
  { apply (In_nth_error) in I as (a & I). apply (In_nth_error) in I2 as (b & I2).
    assert (Q : a = b).
    { apply (NoDup_nth_error (map fst (s_map s))); auto.
      - rewrite map_length. apply nth_error_Some. congruence.
      - rewrite !nth_error_map, I, I2. auto. }
    subst. congruence. }
  subst n. reflexivity.
Qed.

Lemma insert_hit w c x s l1 (cl : cell) l2 : at_ w c x s -> rep_store E (c_rid x) s (l1 ++ cl :: l2) -> c_cap x <> 0 ->
  exists it x' s' w', insert E c (e_key (cl_e cl)) (e_val (cl_e cl)) w = Val (false, it) w' /\
    at_ w' c x' s' /\ c_rid x' = c_rid x /\ c_cap x' = c_cap x /\ rep_store E (c_rid x) s' (l1 ++ l2 ++ [cl]) /\
    s_epoch s' = s_epoch s /\ s_map s' = s_map s.
Proof.
  intros A R Z. unfold insert, bind. erewrite capacity_ev by apply A. rewrite (proj2 (Nat.eqb_neq _ _) Z).
  erewrite map_find_ev by eauto.
  assert (F : find_cell E (e_key (cl_e cl)) (l1 ++ cl :: l2) = Some cl).
  { eapply find_cell_in; eauto; [apply (rs_keys R)|apply in_mid|apply (good_refl G)]. }
  rewrite F. cbn [option_map]. unfold move_to_front_value, bind.
  erewrite deref_it_ev by (eauto using in_mid; apply A). cbn [n_ord node_of].
  destruct (move_keeps_map A R) as (s' & -> & R' & EP & MP).
  pose proof (at_setS s' A) as A'. rewrite (fallible_tick G). cbn [fst].
  assert (R2 : rep_store E (c_rid x) s' ((l1 ++ l2) ++ cl :: [])) by (rewrite <- app_assoc; auto).
  assert (At : at_ (tick (setS (c_rid x) s' w)) c x s') by (split; apply A').
  erewrite (update_node_ev (E := E)) by (eauto; apply At).
  rewrite (alter_same R2).
  replace (MkStore (s_map s') (s_ord s') (s_next s') (s_epoch s')) with s' by (destruct s'; auto).
  pose proof (at_setS s' At) as At2. rewrite <- EP.
  erewrite deref_it_ev by (eauto using in_mid; apply At2).
  erewrite set_last_ev by eauto. unfold ret.
  eexists _, _, s', _. split; [reflexivity|]. split; [eapply at_setC; eauto|]. simpl. auto.
Qed.

Lemma self_u c m2 : forall fuel w x s cs m1 cnt, at_ w c x s -> rep_store E (c_rid x) s cs -> (cs <> [] -> c_cap x <> 0) ->
  s_map s = m1 ++ m2 -> length m2 <= fuel ->
  fill_loop E fuel c (IU (MkU c (upos_of c (c_rid x) (s_epoch s) m2) None)) (iter_end false c) cnt w =
  foldM (ins_step E c) (map npair m2) cnt w.
Proof.
  induction m2 as [|[i n] m2 IH]; intros fuel w x s cs m1 cnt A R Z Hm L.
  - assert (Q : iter_eq (IU (MkU c (@upos_of K V c (c_rid x) (s_epoch s) []) None)) (iter_end false c) = true)
      by (unfold iter_eq, u_eq; simpl; apply Nat.eqb_refl).
    destruct fuel; cbn [fill_loop]; rewrite Q; reflexivity.
  - destruct fuel as [|fuel]; [simpl in L; lia|].
    cbn [fill_loop upos_of iter_end iter_eq]. unfold u_eq at 1. cbn [ui_pos unordered_end upos_eqb].
    cbn [map foldM]. unfold ins_step at 1. pose proof (rep_map_nodup R) as ND.
    rewrite (bind_val _ _ _ (it_u_deref E A Hm ND)).
    assert (I : In (i, n) (map (mrow (c_rid x)) cs)).
    { apply (Permutation_in _ (rs_map R)). rewrite Hm. apply in_elt. }
    apply in_map_iff in I as (cl & Q & I). inversion Q; subst i n. clear Q.
    apply in_split in I as (l1 & l2 & ->).
    assert (D : deref (c_rid x, cl_m cl) w = Val (node_of (c_rid x) cl) w).
    { eapply deref_ev; eauto using in_mid. apply A. }
    destruct (insert_hit A R) as (it & x' & s' & w' & X & A' & Rr & Cc & R' & EP & MP).
    { apply Z. destruct l1; discriminate. }
    assert (XR : insert_ref E c (KIn (c_rid x, cl_m cl)) (VIn (c_rid x, cl_m cl)) w = Val (false, it) w').
    { rewrite <- X. apply insert_eq; simpl; rewrite D; reflexivity. }
    unfold npair at 1. cbn [fst snd n_key n_val node_of].
    rewrite (bind_val _ _ _ XR), !bind_assoc, (bind_val _ _ _ X), bind_ret. cbn [fst].
    rewrite <- Rr, <- EP. rewrite <- MP in Hm.
    assert (ND' : NoDup (map fst (s_map s'))) by (rewrite MP; auto).
    rewrite (bind_val _ _ _ (it_u_next _ A' Hm ND')).
    rewrite <- Rr in R'.
    apply (IH fuel w' x' s' (l1 ++ l2 ++ [cl]) (m1 ++ [(cl_m cl, node_of (c_rid x) cl)])); auto.
    + intros _. rewrite Cc. apply Z. destruct l1; discriminate.
    + rewrite <- app_assoc. auto.
    + simpl in L; lia.
Qed.

Theorem fill_self w c l : reachable E w -> elements E false c w l ->
  rexec (PFill false c c) w = exec E (InsertRange c l) w.
Proof.
  intros H El. destruct (elements_alive El) as (x & Hx). destruct (reach_rel G H) as (aw & R).
  destruct (rel_get' _ R Hx) as (a & s & cs & Ha & At & Rp). pose proof (rp_store Rp) as RS.
  rewrite (elements_inv G At Rp El). unfold Refs.rexec, exec. simpl. rewrite (at_alive At). simpl.
  unfold bind at 1 2. unfold fill. rewrite (bind_val _ _ _ (size_ev At)), (bind_val _ _ _ (it_u_begin At)).
  rewrite (@self_u c (s_map s) _ w x s cs [] 0); auto.
  intros N Z. pose proof (rp_len Rp) as L. rewrite (rp_cap Rp) in Z. destruct cs; [easy|simpl in L; lia].
Qed.

Theorem fill_self_ordered w c l : reachable E w -> contents E c w l ->
  rexec (PFill true c c) w = exec E (InsertRange c (firstn 1 l)) w.
Proof.
  intros H El. change (elements E true c w l) in El.
  destruct (elements_alive El) as (x & Hx). destruct (reach_rel G H) as (aw & R).
  destruct (rel_get' _ R Hx) as (a & s & cs & Ha & At & Rp). pose proof (rp_store Rp) as RS.
  rewrite (elements_inv G At Rp El). unfold Refs.rexec, exec. simpl. rewrite (at_alive At). simpl.
  unfold bind at 1 2. unfold fill. rewrite (bind_val _ _ _ (size_ev At)), (bind_val _ _ _ (it_o_begin At RS)).
  rewrite (rep_size RS). destruct cs as [|cl cs].
  - cbn [length fill_loop opos_of]. unfold iter_eq, o_eq; simpl. rewrite Nat.eqb_refl. reflexivity.
  - cbn [length fill_loop opos_of iter_end iter_eq]. unfold o_eq at 1. cbn [oi_pos ordered_end opos_eqb].
    rewrite (bind_val _ _ _ (it_o_deref G (l1 := []) At RS)).
    assert (D : deref (c_rid x, cl_m cl) w = Val (node_of (c_rid x) cl) w).
    { eapply deref_ev; eauto; [apply At|left; auto]. }
    destruct (insert_hit (l1 := []) At RS) as (it & x' & s' & w' & X & A' & Rr & Cc & R' & EP & MP).
    { intros Z. pose proof (rp_len Rp) as L. rewrite (rp_cap Rp) in Z. simpl in L; lia. }
    assert (XR : insert_ref E c (KIn (c_rid x, cl_m cl)) (VIn (c_rid x, cl_m cl)) w = Val (false, it) w').
    { rewrite <- X. apply insert_eq; simpl; rewrite D; reflexivity. }
    rewrite (bind_val _ _ _ XR). cbn [ents map firstn listed]. unfold insert_range. cbn [foldM fst snd pair_of ents map].
    rewrite !bind_assoc, (bind_val _ _ _ X), bind_ret. cbn [fst]. rewrite <- Rr in R' |- *. simpl in R'.
    rewrite (bind_val _ _ _ (it_o_next (l1 := cs) (l2 := []) _ A' R')).
    destruct cs; cbn [length fill_loop opos_of]; unfold iter_eq, o_eq; simpl; rewrite Nat.eqb_refl; reflexivity.
Qed.
End SelfFill.
