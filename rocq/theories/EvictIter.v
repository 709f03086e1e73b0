(** Iterators to the element that is evicted: its list node goes on with the
    inserted element. *)
From Coq Require Import List Arith ZArith Bool Permutation Lia.
Import ListNotations.
From Verif Require Import Monad Types Model Api Spec SpecTimed Ref Lists SimBase SimRel SimOps SimIns SimErase SimIter SimNew SimObs SimExec RefEval SimRun LruProofs CallProofs SpecIter IterProofs.
Set Implicit Arguments.
Unset Strict Implicit.
Local Open Scope cpp_scope.

Section Evict.
Context {K V : Type}.
Variable E : env K V.
Hypothesis G : good E.
Notation world := (world K V).
Notation cell := (@cell K V).
Implicit Types (w : world) (o : op K V) (cl : cell).

Lemma timestamp_at w c x s : at_ w c x s -> exists t w1, timestamp E c w = Val t w1 /\ at_ w1 c x s.
Proof.
  intros A. unfold timestamp. destruct (c_ttl x) eqn:T.
  - eexists _, (tock w). split; [ev get_cache_ev; rewrite T; reflexivity|exact A].
  - eexists _, w. split; [ev get_cache_ev; rewrite T; reflexivity|exact A].
Qed.

(** From the assignment of last accessed on, with what the caller does with the result. *)
Lemma finish w c x s l cl b : at_ w c x s -> rep_store E (c_rid x) s (l ++ [cl]) ->
  let i := ((c_rid x, cl_m cl), s_epoch s) in
  (r <- (deref_it i;;; set_last c (Some (fst i));;; ret (b, uiter_of c (Some i)));;
   e <- denotes c (snd r);; ret (RIns (fst r) e)) w =
  Val (RIns b (Some (pair_of (cl_e cl)))) (setC c (with_last (Some (fst i)) x) w).
Proof.
  intros A R i. subst i. rewrite bind_assoc. ev deref_it_ev.
  rewrite bind_assoc. ev set_last_ev. rewrite bind_ret. cbn [fst snd].
  set (w1 := setC _ _ _). assert (A1 : at_ w1 c (with_last (Some (c_rid x, cl_m cl)) x) s) by (eapply at_setC; eauto).
  unfold denotes. unfold u_eq, unordered_end. cbn [uiter_of ui_pos upos_eqb u_deref ui_entry]. rewrite bind_assoc. unfold u_deref. cbn [ui_entry ui_pos].
  rewrite bind_assoc. ev deref_it_ev. rewrite bind_ret. rewrite bind_assoc.
  ev read_entry_ev. reflexivity.
Qed.

Tactic Notation "bv" uconstr(L) := match goal with |- context [bind ?m ?k ?w] => 
  let H := fresh in eassert (H : m w = _) by (eapply L; solve [eauto with sim]); rewrite (bind_val _ _ _ H); clear H end.

Lemma put_new w c k v o x s l : puts c k v o -> alive w c = true -> at_ w c x s -> rep_store E (c_rid x) s l -> length l <= c_cap x ->
  c_cap x <> 0 -> find_cell E k l = None ->
  exists t w' p s' l' cl, exec E o w = Val (RIns true (Some (k, v))) w' /\ at_ w' c (with_last p x) s' /\
    rep_store E (c_rid x) s' (l' ++ [cl]) /\ cl_e cl = Ent k v t /\
    length (l' ++ [cl]) <= c_cap x /\
    (l' = l \/ exists c0, l = c0 :: l' /\ cl_q cl = cl_q c0 /\ cl_m c0 <> cl_m cl).
Proof.
  intros P AL A R L Z F. destruct P; unfold exec; cbn [well_formed body]; rewrite AL.
  - unfold insert. rewrite bind_assoc. bv capacity_ev.
    destruct (Nat.eqb_spec (c_cap x) 0); [easy|]. rewrite bind_assoc. bv map_find_ev. rewrite F. cbn [option_map]. cbv iota.
    destruct (timestamp_at A) as (t & w1 & T & A1). rewrite bind_assoc. bv T.
    destruct (ins_new_store G v t A1 R L F Z) as (i & w2 & q & w3 & w4 & s' & l' & cl & E1 & E2 & E3 & C & R' & -> & He & _ & L' & D).
    rewrite bind_assoc. bv E1. rewrite bind_assoc. cbv beta iota. rewrite bind_ret, bind_assoc. bv E2. rewrite bind_assoc. bv E3.
    assert (A4 : at_ w4 c x s') by (eapply chg_at; eauto).
    exists t. do 5 eexists. split; [etransitivity; [exact (finish true A4 R')|rewrite He; reflexivity]|].
    split; [eapply at_setC; eauto|]. eauto.
  - unfold emplace. rewrite bind_assoc. bv capacity_ev.
    destruct (Nat.eqb_spec (c_cap x) 0); [easy|]. rewrite bind_assoc. bv fallible_tick.
    assert (A0 : at_ (tick w) c x s) by exact A.
    rewrite bind_assoc. bv map_find_ev. rewrite F. cbn [option_map]. cbv iota.
    destruct (timestamp_at A0) as (t & w1 & T & A1). rewrite bind_assoc. bv T.
    destruct (ins_new_store G v t A1 R L F Z) as (i & w2 & q & w3 & w4 & s' & l' & cl & E1 & E2 & E3 & C & R' & -> & He & _ & L' & D).
    rewrite bind_assoc. bv E1. rewrite bind_assoc. bv E2. rewrite bind_assoc. bv E3. rewrite bind_assoc, bind_ret.
    assert (A4 : at_ w4 c x s') by (eapply chg_at; eauto).
    exists t. do 5 eexists. split; [etransitivity; [exact (finish true A4 R')|rewrite He; reflexivity]|].
    split; [eapply at_setC; eauto|]. eauto.
Qed.

Lemma gone_undef w r s l i : slot (w_stores w) r = Some s -> rep_store E r s l -> ~ In i (map cl_m l) ->
  read_entry (r, i) w = Undef DanglingNode.
Proof.
  intros H R N. unfold read_entry, deref, bind. cbn [fst snd]. rewrite (@get_store_ev K V w r s H).
  destruct (assoc i (s_map s)) as [n|] eqn:Q; auto. exfalso. apply assoc_in in Q.
  eapply Permutation_in in Q; [|apply (rs_map R)]. apply in_map_iff in Q. destruct Q as (cl & Q & I).
  apply N. unfold mrow in Q. inversion Q; subst. apply in_map; auto.
Qed.

(** The cells before and after. *)
Lemma evict_cells w c k v o p l : puts c k v o -> reachable E w ->
  contents E c w (p :: l) -> capacity_is E c w (length (p :: l)) -> look E k (p :: l) = None ->
  exists x s c0 l0 t w' q s' cl, at_ w c x s /\ rep_store E (c_rid x) s (c0 :: l0) /\ p = pair_of (cl_e c0) /\
    l = map pair_of (ents l0) /\
    exec E o w = Val (RIns true (Some (k, v))) w' /\ at_ w' c (with_last q x) s' /\
    rep_store E (c_rid x) s' (l0 ++ [cl]) /\ cl_e cl = Ent k v t /\ cl_q cl = cl_q c0 /\
    ~ In (cl_m c0) (map cl_m (l0 ++ [cl])).
Proof.
  intros P RC CT CP LK. destruct (reach_rel G RC) as (aw & R).
  destruct (cells_at G R CT) as (x & s & a & cs & At & Ha & Rp & Q).
  pose proof (capacity_inv R Ha CP) as HC. rewrite <- (rp_cap Rp) in HC.
  assert (LN : length cs = length (p :: l)) by (rewrite Q; unfold ents; rewrite !map_length; auto).
  assert (F : find_cell E k cs = None).
  { apply find_cell_none. apply (look_none E). rewrite Q in LK. exact LK. }
  destruct (@put_new w c k v o x s cs P) as (t & w' & q & s' & l' & cl & X & A' & R' & He & L' & D); auto.
  - unfold alive; rewrite (proj1 At); auto.
  - apply (rp_store Rp).
  - lia.
  - simpl in HC. lia.
  - destruct D as [->|(c0 & -> & Hq & Hm)]; [rewrite app_length in L'; simpl in *; lia|].
    cbn [ents map] in Q. inversion Q; subst p l.
    exists x, s, c0, l', t, w', q, s', cl. split; auto. split; [apply (rp_store Rp)|].
    do 7 (split; auto). rewrite map_app, in_app_iff. simpl. intros [I|[I|[]]]; auto.
    pose proof (rs_nm (rp_store Rp)) as ND. simpl in ND. inversion ND; auto.
Qed.

Lemma evicted_shows w c k v o p l it : puts c k v o -> reachable E w ->
  contents E c w (p :: l) -> capacity_is E c w (length (p :: l)) -> look E k (p :: l) = None ->
  ordered_nth c 0 w = Val it w ->
  exists w', exec E o w = Val (RIns true (Some (k, v))) w' /\
    ordered_nth c (length l) w' = Val it w' /\ o_shows E it w' k v.
Proof.
  intros P RC CT CP LK NT.
  destruct (evict_cells P RC CT CP LK) as (x & s & c0 & l0 & t & w' & q & s' & cl & At & R & -> & -> & X & A' & R' & He & Hq & Nm).
  rewrite (ordered_nth_ev 0 At R) in NT. inversion NT; subst it. clear NT. cbn [skipn opos_of].
  exists w'. split; auto.
  assert (LV : lives E k c w' (c_rid x) s' cl).
  { destruct A' as (A1 & A2). exists (with_last q x), (l0 ++ [cl]). split; auto. split; auto. split; auto. split; auto.
    split; [apply in_elt|]. rewrite He. apply (good_refl G). }
  split.
  - change (c_rid x) with (c_rid (with_last q x)) in R'. rewrite (ordered_nth_ev _ A' R').
    unfold ents. rewrite !map_length, skipn_app, skipn_all, Nat.sub_diag. simpl. rewrite Hq. auto.
  - rewrite <- Hq. pose proof (lives_shows LV) as S. rewrite He in S.
    eexists _, _. split; [exact (lives_o_deref G LV)|exact S].
Qed.

Lemma evicted_used w c k v o p l it it1 q : puts c k v o -> reachable E w ->
  contents E c w (p :: l) -> capacity_is E c w (length (p :: l)) -> look E k (p :: l) = None ->
  ordered_nth c 0 w = Val it w -> o_deref E it w = Val (q, it1) w ->
  exists w', exec E o w = Val (RIns true (Some (k, v))) w' /\
    o_deref E it1 w' = Val (q, it1) w' /\ read_entry q w' = Undef DanglingNode /\
    (ttl_of c w None -> o_key E it1 w' = Val k w').
Proof.
  intros P RC CT CP LK NT DR.
  destruct (evict_cells P RC CT CP LK) as (x & s & c0 & l0 & t & w' & q0 & s' & cl & At & R & -> & -> & X & A' & R' & He & Hq & Nm).
  rewrite (ordered_nth_ev 0 At R) in NT. inversion NT; subst it. clear NT. cbn [skipn opos_of] in DR.
  assert (LV0 : lives E (e_key (cl_e c0)) c w (c_rid x) s c0).
  { destruct At as (A1 & A2). exists x, (c0 :: l0). split; auto. split; auto. split; auto. split; auto.
    split; [left; auto|]. apply (good_refl G). }
  rewrite (lives_o_deref G LV0) in DR. inversion DR; subst q it1. clear DR.
  exists w'. split; auto. split; [reflexivity|]. split; [eapply gone_undef; eauto; exact (proj2 A')|].
  intros (y & Hy & Ty). destruct At as (A1 & A2). rewrite A1 in Hy. inversion Hy; subst y.
  unfold o_key, throw_if_invalid_o. rewrite !bind_assoc. cbn [oi_cache oi_pos].
  erewrite bind_val by (apply get_cache_ev; exact (proj1 A')). unfold o_eq. cbn [oi_pos ordered_end opos_eqb]. cbn [with_last c_ttl]. rewrite Ty, bind_ret.
  rewrite <- Hq. erewrite bind_val by (eapply list_deref_ev; [exact (proj2 A')|exact R'|apply in_elt]). erewrite bind_val by (eapply deref_ev; [exact (proj2 A')|exact R'|apply in_elt]).
  unfold node_of. cbn [n_key]. rewrite He. reflexivity.
Qed.

End Evict.
