(** What a failed insertion leaves behind. *)
From Coq Require Import List Arith ZArith Bool Permutation Lia.
Import ListNotations.
From Verif Require Import Monad Types Model Api Spec SpecFault Ref Lists SimBase SimRel SimOps SimIns SimErase SimIter SimNew SimObs SimExec Sturdy SturdyOps SturdyAcc SturdyIns SturdyObs SturdyExec SturdyCb.
Set Implicit Arguments.
Unset Strict Implicit.
Local Open Scope cpp_scope.

Section Fault.
Context {K V : Type}.
Variable E : env K V.
Hypothesis Fr : fair E.

Notation world := (world K V).
Notation store := (store K V).
Notation cell := (@cell K V).
Notation rep_store := (rep_store (calm E)).
Notation find_cell := (find_cell (calm E)).
Notation sound := (sound E).
Notation inv := (inv E).
Implicit Types (w : world) (s : store).

Let G : good (calm E) := calm_good Fr.

Lemma at_alive w c x s : at_ w c x s -> alive w c = true.
Proof. intros (A & _). unfold alive. rewrite A. auto. Qed.

Lemma contents_at w c x s l : at_ w c x s -> rep_store (c_rid x) s l -> contents E c w (map pair_of (ents l)).
Proof.
  intros A R. unfold contents, exec. cbn [well_formed]. rewrite (at_alive A). cbn [body].
  pose proof (traverse_ordered_ev G A R) as H. change (traverse_ordered (calm E)) with (traverse_ordered E) in H.
  rewrite (bind_val _ _ _ H). auto.
Qed.
Lemma contents_alive w c l : contents E c w l -> alive w c = true.
Proof. unfold contents, exec. cbn [well_formed]. destruct (alive w c); auto. discriminate. Qed.
Lemma contents_inv w c l : inv w -> contents E c w l -> exists x s cl, at_ w c x s /\ sound x s cl /\ l = map pair_of (ents cl).
Proof.
  intros I H. destruct (inv_here I (contents_alive H)) as (x & s & cl & A & So). exists x, s, cl. split; auto. split; auto.
  pose proof (contents_at A (so_rep So)) as H'. unfold contents in *. rewrite H in H'. inversion H'. auto.
Qed.
Lemma size_at w c x s : at_ w c x s -> size_is E c w (length (s_map s)).
Proof.
  intros A. unfold size_is, exec. cbn [well_formed]. rewrite (at_alive A). cbn [body].
  rewrite (bind_val _ _ _ (size_ev A)). auto.
Qed.
Lemma capacity_at w c x s : at_ w c x s -> capacity_is E c w (c_cap x).
Proof.
  intros A. unfold capacity_is, exec. cbn [well_formed]. rewrite (at_alive A). cbn [body].
  erewrite bind_val by (eapply capacity_ev; exact (proj1 A)). auto.
Qed.
Lemma capacity_inv w c n : inv w -> capacity_is E c w n -> exists x s l, at_ w c x s /\ sound x s l /\ n = c_cap x.
Proof.
  intros I H. assert (Al : alive w c = true).
  { unfold capacity_is, exec in H. cbn [well_formed] in H. destruct (alive w c); auto. discriminate. }
  destruct (inv_here I Al) as (x & s & l & A & So). exists x, s, l. split; auto. split; auto.
  pose proof (capacity_at A) as H'. unfold capacity_is in *. rewrite H in H'. inversion H'. auto.
Qed.

(** Other caches are not touched. *)
Lemma shift_other w w' c x s x' s' d y t : inv w -> at_ w c x s -> Sturdy.shift c x' s' w w' -> c_rid x' = c_rid x ->
  d <> c -> at_ w d y t -> at_ w' d y t.
Proof.
  intros I (A1 & A2) (C1 & C2 & _) Hr N (B1 & B2). split.
  - rewrite C1, slot_upd_other; auto.
  - rewrite C2, slot_upd_other; auto. rewrite Hr. intro Q. apply N. symmetry. eapply (inv_inj I); eauto.
Qed.

(* ---------------------------------------------------------------- *)
(** ** The map node without list node *)

Section Orphan.
Variables (w : world) (c : nat) (x : cache) (s : store) (l : list cell) (k : K) (v : V) (t : Z) (ep : nat).
Hypothesis A : at_ w c x (placed (calm E) s k v t ep).
Hypothesis So : sound x s l.
Hypothesis N : find_cell k l = None.
Let R := so_rep So.

Lemma orphan_collect l2 : forall fuel l1 en, l = l1 ++ l2 -> length l2 <= fuel -> en = None ->
  o_collect E fuel c (MkO c (opos_of c (c_rid x) l2) en) w = Val (map pair_of (ents l2)) w.
Proof.
  induction l2 as [|cl l2 IH]; intros fuel l1 en Q L ->.
  - destruct fuel; cbn [o_collect opos_of]; unfold o_eq; cbn [oi_pos ordered_end opos_eqb]; rewrite Nat.eqb_refl; auto.
  - destruct fuel as [|fuel]; [simpl in L; lia|]. cbn [o_collect opos_of]. unfold o_eq. cbn [oi_pos ordered_end opos_eqb].
    assert (Icl : In cl l) by (rewrite Q; apply in_mid).
    assert (Hs : slot (w_stores w) (c_rid x) = Some (placed (calm E) s k v t ep)) by exact (proj2 A).
    assert (Ld : list_deref (c_rid x, cl_q cl) w = Val (c_rid x, cl_m cl) w).
    { unfold list_deref. cbn [fst snd]. erewrite bind_val by (eapply get_store_ev; exact Hs). cbn [placed s_ord].
      rewrite (rep_assoc_q _ R Icl). auto. }
    assert (De : deref (c_rid x, cl_m cl) w = Val (node_of (c_rid x) cl) w).
    { unfold deref. cbn [fst snd]. erewrite bind_val by (eapply get_store_ev; exact Hs). cbn [placed s_map].
      rewrite (placed_assoc G k v t R Icl). auto. }
    assert (Mf : map_find E c (e_key (cl_e cl)) w = Val (Some ((c_rid x, cl_m cl), ep)) w).
    { unfold map_find. rewrite (bind_val _ _ _ (own_ev A)). cbn [placed s_map s_epoch].
      pose proof (placed_node_with G v t R N Icl) as NW. change (node_with (calm E)) with (node_with E) in NW.
      rewrite NW. auto. }
    unfold o_deref. cbn [oi_entry oi_pos oi_cache]. rewrite !bind_assoc. rewrite (bind_val _ _ _ Ld), bind_assoc.
    rewrite (bind_val _ _ _ De), bind_assoc. cbn [n_key node_of]. rewrite (bind_val _ _ _ Mf), bind_ret. cbn [fst].
    unfold read_entry. rewrite bind_assoc, (bind_val _ _ _ De), bind_ret. unfold o_next at 1. cbn [oi_pos oi_cache fst snd].
    rewrite bind_assoc, (bind_val _ _ _ Ld), bind_assoc. erewrite bind_val by (eapply get_store_ev; exact Hs).
    cbn [placed s_ord]. rewrite (rs_ord R), Q, map_app. cbn [map]. unfold qrow at 2. rewrite next_after_mid.
    2: { rewrite qrow_fst. pose proof (rs_nq R) as Nq. rewrite Q in Nq. apply nodup_mid in Nq as (_ & Nq).
         rewrite map_app in Nq. intro; apply Nq, in_or_app; auto. }
    assert (IH' := IH fuel (l1 ++ [cl]) None). rewrite <- app_assoc in IH'. specialize (IH' Q ltac:(simpl in L; lia) eq_refl).
    destruct l2 as [|c2 l2]; cbn [map qrow]; rewrite bind_ret; rewrite (bind_val _ _ _ IH'); auto.
Qed.

Lemma orphan_contents : contents E c w (map pair_of (ents l)).
Proof.
  unfold contents, exec. cbn [well_formed]. rewrite (at_alive A). cbn [body]. unfold traverse_ordered.
  rewrite bind_assoc, (bind_val _ _ _ (size_ev A)), bind_assoc. unfold ordered_begin. rewrite bind_assoc.
  rewrite (bind_val _ _ _ (own_ev A)). cbn [placed s_ord s_map]. rewrite (placed_length G k v t R), (rs_ord R).
  pose proof (@orphan_collect l (S (length l)) [] None eq_refl ltac:(lia) eq_refl) as H.
  destruct l as [|c1 l']; cbn [map qrow]; rewrite bind_ret; rewrite (bind_val _ _ _ H); auto.
Qed.

Lemma orphan_size : size_is E c w (S (length l)).
Proof. pose proof (size_at A) as H. cbn [placed s_map] in H. rewrite (placed_length G k v t R) in H. exact H. Qed.

Lemma orphan_last k' : key_equal E k' k = true -> last_is E c k' w = Val false w.
Proof.
  intros Hk. unfold last_is, bind. erewrite get_cache_ev by exact (proj1 A).
  destruct (c_last x) as [p|] eqn:L; auto. destruct (so_last So L) as (cl & I & ->).
  assert (F : key_equal E k' (e_key (cl_e cl)) = false).
  { destruct (key_equal E k' (e_key (cl_e cl))) eqn:Q; auto.
    assert (F : key_equal E k (e_key (cl_e cl)) = true).
    { eapply (fair_trans Fr); [|exact Q]. rewrite (fair_sym Fr). auto. }
    pose proof (find_none _ _ N cl I) as F'. simpl in F'. congruence. }
  unfold deref. cbn [fst snd]. unfold bind. erewrite get_store_ev by exact (proj2 A). cbn [placed s_map].
  rewrite (placed_assoc G k v t R I). cbn. rewrite F. auto.
Qed.

Lemma orphan_find : map_find E c k w = Val (Some ((c_rid x, s_next s), ep)) w.
Proof.
  unfold map_find. rewrite (bind_val _ _ _ (own_ev A)). cbn [placed s_map s_epoch].
  assert (NW : node_with E k (place (calm E) (s_map s) (s_next s, MkNode k v None t)) = Some (s_next s, MkNode k v None t)).
  { pose proof (placed_perm G k v t R) as P. unfold node_with.
    set (pm := place _ _ _) in *. destruct (List.find _ pm) as [(i & n)|] eqn:F.
    - apply find_some in F as (I & Q). simpl in Q. apply (Permutation_in _ P) in I as [I|I]; [inversion I; subst; auto|].
      apply in_map_iff in I as (cl & H & I). inversion H; subst. pose proof (find_none _ _ N cl I) as F'. simpl in F', Q. congruence.
    - assert (I : In (s_next s, MkNode k v None t) pm) by (eapply Permutation_in; [apply Permutation_sym, P|left; auto]).
      pose proof (find_none _ _ F _ I) as F'. simpl in F'. rewrite (fair_refl Fr) in F'. discriminate. }
  rewrite NW. auto.
Qed.

Lemma orphan_erase : exec E (Erase c k) w = Undef SingularIterator.
Proof.
  unfold exec. cbn [well_formed]. rewrite (at_alive A). cbn [body]. unfold erase_key.
  rewrite bind_assoc, (bind_val _ _ _ (orphan_last (fair_refl Fr k))). cbv iota.
  rewrite bind_assoc, (bind_val _ _ _ orphan_find). cbv iota.
  assert (De : deref_it ((c_rid x, s_next s), ep) w = Val (MkNode k v None t) w).
  { unfold deref_it. cbn [fst snd]. erewrite bind_val by (eapply get_store_ev; exact (proj2 A)). cbn [placed s_epoch].
    rewrite Nat.eqb_refl. unfold deref. cbn [fst snd]. erewrite bind_val by (eapply get_store_ev; exact (proj2 A)).
    cbn [placed s_map]. rewrite (placed_assoc_new G k v t R). auto. }
  unfold erase_it. rewrite !bind_assoc, (bind_val _ _ _ De), bind_assoc. cbn [n_key].
  rewrite (bind_val _ _ _ (orphan_last (fair_refl Fr k))). cbv iota. rewrite bind_assoc, bind_ret, bind_assoc.
  rewrite (bind_val _ _ _ De). cbn [n_ord]. rewrite bind_assoc. unfold list_erase. rewrite bind_assoc.
  rewrite (bind_val _ _ _ (own_ev A)). auto.
Qed.
End Orphan.

(* ---------------------------------------------------------------- *)
(** ** Failed insertion *)

(** The call failed and left cache [c] as it was, or with its element for [k]
    moved to the front, or unusable. *)
Definition fails_with (c : nat) (k : K) w (e : exn) w' : Prop :=
  e = BadAlloc /\
  (forall d l, d <> c -> contents E d w l -> contents E d w' l) /\
  (forall d n, capacity_is E d w n -> capacity_is E d w' n) /\
  forall l, contents E c w l ->
    ((contents E c w' l \/
      exists l1 p l2, l = l1 ++ p :: l2 /\ key_equal E k (fst p) = true /\ contents E c w' (l1 ++ l2 ++ [p])) /\
     size_is E c w' (length l)) \/
    ((forall p, In p l -> key_equal E k (fst p) = false) /\ (exists n, capacity_is E c w n /\ length l < n) /\
     contents E c w' l /\ size_is E c w' (S (length l)) /\ exec E (Erase c k) w' = Undef SingularIterator).

Lemma failed_fails c x s l k v w e w' : inv w -> at_ w c x s -> sound x s l -> failed E c x s l k v w e w' ->
  fails_with c k w e w'.
Proof.
  intros I A So (-> & s' & Sh & D). assert (A' : at_ w' c x s') by (eapply shift_at; eauto).
  split; auto. split; [|split].
  - intros d L N H. destruct (contents_inv I H) as (y & t & cl & B & Sd & ->).
    eapply contents_at; [eapply (shift_other I A Sh); eauto|apply (so_rep Sd)].
  - intros d n H. destruct (Nat.eq_dec d c) as [->|N].
    + destruct (capacity_inv I H) as (y & t & cl & B & Sd & ->). assert (y = x) as -> by (destruct A, B; congruence).
      eapply capacity_at; eauto.
    + destruct (capacity_inv I H) as (y & t & cl & B & Sd & ->). eapply capacity_at. eapply (shift_other I A Sh); eauto.
  - intros L H. assert (L = map pair_of (ents l)) as ->.
    { pose proof (contents_at A (so_rep So)) as H'. unfold contents in *. rewrite H in H'. inversion H'. auto. }
    clear H. destruct D as [So'|[(l1 & cl & l2 & -> & Hk & So')|(N & Lt & t & ep & ->)]].
    + left. split; [left; eapply contents_at; eauto using so_rep|].
      pose proof (size_at A') as Z. rewrite (rep_size (so_rep So')) in Z. unfold ents. rewrite !map_length. auto.
    + left. split; [right|].
      * exists (map pair_of (ents l1)), (pair_of (cl_e cl)), (map pair_of (ents l2)). split; [|split; [exact Hk|]].
        { unfold ents. rewrite !map_app. auto. }
        pose proof (contents_at A' (so_rep So')) as H. unfold ents in *. rewrite !map_app in H. exact H.
      * pose proof (size_at A') as Z. rewrite (rep_size (so_rep So')) in Z. unfold ents. rewrite !map_length.
        rewrite !app_length in *. simpl in *. replace (length l1 + S (length l2)) with (length l1 + (length l2 + 1)) by lia. auto.
    + right. split; [|split; [|split; [|split]]].
      * intros p I'. apply in_map_iff in I' as (en & <- & I'). apply in_map_iff in I' as (cl & <- & I').
        exact (find_none _ _ N cl I').
      * exists (c_cap x). split; [eapply capacity_at; eauto|]. unfold ents. rewrite !map_length. auto.
      * eapply orphan_contents; eauto.
      * unfold ents. rewrite !map_length. eapply orphan_size; eauto.
      * eapply orphan_erase; eauto.
Qed.

Definition nothrow {A} (m : M world A) : Prop := forall w, match m w with Exc _ _ => False | _ => True end.
Lemma nt_bind A B (m : M world A) (k : A -> M world B) : nothrow m -> (forall a, nothrow (k a)) -> nothrow (bind m k).
Proof. intros H C w. unfold bind. specialize (H w). destruct (m w) as [a w'| | |]; auto. apply C. Qed.
Lemma nt_store r : nothrow (@get_store K V r).
Proof. intros w. unfold get_store. destruct (slot (w_stores w) r); auto. Qed.
Lemma nt_deref p : nothrow (@deref K V p).
Proof. apply nt_bind; [apply nt_store|]. intros t w. destruct (assoc _ _); simpl; auto. Qed.
Lemma nt_deref_it i : nothrow (@deref_it K V i).
Proof. apply nt_bind; [apply nt_store|]. intros t. destruct (Nat.eqb _ _); [apply nt_deref|]. intros w; simpl; auto. Qed.
Lemma nt_denotes c it : nothrow (@denotes K V c it).
Proof.
  unfold denotes. destruct (u_eq it (unordered_end c)); [intros w; simpl; auto|].
  apply nt_bind; [|intros (p & i)].
  - unfold u_deref. destruct (ui_entry it); [intros w; simpl; auto|]. destruct (ui_pos it); [intros w; simpl; auto|].
    apply nt_bind; [apply nt_deref_it|]. intros ? w; simpl; auto.
  - apply nt_bind; [apply nt_bind; [apply nt_deref|]|]; intros ? w; simpl; auto.
Qed.

Lemma failed_call o c k v w e w' : inv w -> o = Insert c k v \/ o = Emplace c k v ->
  call E o w (Threw e) w' -> fails_with c k w e w'.
Proof.
  intros I Ho C. unfold call, exec in C.
  assert (Al : alive w c = true).
  { destruct (alive w c) eqn:Q; auto. destruct Ho as [-> | ->]; cbn [well_formed] in C; rewrite Q in C; discriminate. }
  destruct (inv_here I Al) as (x & s & l & A & So).
  assert (F : forall m : M world (bool * uiter), wp (inserted E c x w) (failed E c x s l k v w) (m w) ->
    (r <- m;; e <- denotes c (snd r);; ret (RIns (fst r) e)) w = Exc e w' -> failed E c x s l k v w e w').
  { intros m Hm. unfold bind. destruct (m w) as [r w1|e1 w1| |]; try discriminate.
    - pose proof (@nt_denotes c (snd r) w1) as N. destruct (denotes c (snd r) w1); try discriminate; contradiction.
    - intros Q; inversion Q; subst. exact Hm. }
  eapply failed_fails; eauto.
  destruct Ho as [-> | ->]; cbn [well_formed body] in C; rewrite Al in C; eapply F; eauto.
  - apply (insert_w Fr); auto.
  - apply (emplace_w Fr); auto.
Qed.
End Fault.
