(** Iterators and traversals over represented caches. *)
From Coq Require Import List Arith ZArith Bool Permutation Lia.
Import ListNotations.
From Verif Require Import Monad Types Model Api Spec Ref Lists SimBase SimRel SimOps SimIns SimErase.
Set Implicit Arguments.
Unset Strict Implicit.
Local Open Scope cpp_scope.

Lemma next_after_mid {A} i (x : A) a b : ~ In i (map fst a) ->
  next_after i (a ++ (i, x) :: b) = match b with [] => None | (j, _) :: _ => Some j end.
Proof.
  induction a as [|[j y] a IH]; simpl; intros N.
  - rewrite Nat.eqb_refl; auto.
  - destruct (Nat.eqb_spec i j); [exfalso; auto|]. apply IH; auto.
Qed.

Section Iter.
Context {K V : Type}.
Variable E : env K V.
Hypothesis G : good E.

Notation entry := (entry K V).
Notation world := (world K V).
Notation store := (store K V).
Notation mnode := (mnode K V).
Notation acache := (acache K V).
Notation aworld := (aworld K V).
Notation cell := (@cell K V).
Notation rel := (rel E).
Notation rep := (rep E).
Implicit Types (w : world) (s : store) (aw : aworld).

(** Position of the first cell of [l]. *)
Definition opos_of (c r : nat) (l : list cell) : opos :=
  match l with [] => OEnd c | cl :: _ => OAt (r, cl_q cl) end.

Lemma ordered_begin_ev w c x s l : at_ w c x s -> rep_store E (c_rid x) s l ->
  ordered_begin c w = Val (MkO c (opos_of c (c_rid x) l) None) w.
Proof.
  intros A R. unfold ordered_begin. ev own_ev. rewrite (rs_ord R). destruct l; auto.
Qed.

Lemma o_next_ev w c x s l1 cl l2 en : at_ w c x s -> rep_store E (c_rid x) s (l1 ++ cl :: l2) ->
  o_next (MkO c (OAt (c_rid x, cl_q cl)) en) w = Val (MkO c (opos_of c (c_rid x) l2) None) w.
Proof.
  intros A R. unfold o_next. cbn [oi_pos fst snd oi_cache]. ev list_deref_ev. ev get_store_ev.
  rewrite (rs_ord R), map_app. cbn [map]. unfold qrow at 2.
  rewrite next_after_mid.
  - destruct l2; auto.
  - rewrite qrow_fst. pose proof (rs_nq R) as N. apply nodup_mid in N as (_ & N).
    rewrite map_app in N. intro; apply N, in_or_app; auto.
Qed.

Lemma o_prev_at w c x s l1 d cl l2 en : at_ w c x s ->
  rep_store E (c_rid x) s ((l1 ++ [d]) ++ cl :: l2) ->
  o_prev (MkO c (OAt (c_rid x, cl_q cl)) en) w = Val (MkO c (OAt (c_rid x, cl_q d)) None) w.
Proof.
  intros A R. unfold o_prev. cbn [oi_pos fst snd oi_cache]. ev list_deref_ev. ev get_store_ev.
  rewrite (rs_ord R), map_app. cbn [map]. rewrite rev_app_distr. cbn [rev].
  rewrite <- app_assoc. cbn [app]. unfold qrow at 2.
  rewrite next_after_mid.
  - rewrite map_app, rev_app_distr. simpl. auto.
  - rewrite map_rev. intro I. apply in_rev in I. rewrite qrow_fst in I.
    pose proof (rs_nq R) as N. apply nodup_mid in N as (_ & N).
    rewrite map_app in N. apply N, in_or_app; auto.
Qed.

Lemma o_prev_end w c x s l1 d en : at_ w c x s ->
  rep_store E (c_rid x) s (l1 ++ [d]) ->
  o_prev (MkO c (OEnd c) en) w = Val (MkO c (OAt (c_rid x, cl_q d)) None) w.
Proof.
  intros A R. unfold o_prev. cbn [oi_pos fst snd oi_cache]. ev own_ev.
  rewrite (rs_ord R), map_app, rev_app_distr. simpl. auto.
Qed.

Lemma o_deref_ev w c x s l1 cl l2 : at_ w c x s -> rep_store E (c_rid x) s (l1 ++ cl :: l2) ->
  o_deref E (MkO c (OAt (c_rid x, cl_q cl)) None) w =
  Val ((c_rid x, cl_m cl), MkO c (OAt (c_rid x, cl_q cl)) (Some (c_rid x, cl_m cl))) w.
Proof.
  intros A R. unfold o_deref. cbn [oi_pos oi_entry oi_cache]. ev list_deref_ev. ev deref_ev.
  ev map_find_ev. cbn [n_key node_of].
  rewrite (find_cell_mid G _ _ _ _ (rs_keys R) (good_refl G _)). auto.
Qed.

Lemma read_entry_ev w r s l cl : slot (w_stores w) r = Some s -> rep_store E r s l -> In cl l ->
  read_entry (r, cl_m cl) w = Val (pair_of (cl_e cl)) w.
Proof. intros H R I. unfold read_entry. ev deref_ev. auto. Qed.

Lemma o_collect_ev l2 : forall fuel l1 w c x s en, at_ w c x s ->
  rep_store E (c_rid x) s (l1 ++ l2) -> length l2 <= fuel -> en = None ->
  o_collect E fuel c (MkO c (opos_of c (c_rid x) l2) en) w = Val (map pair_of (ents l2)) w.
Proof.
  induction l2 as [|cl l2 IH]; intros fuel l1 w c x s en A R L ->.
  - assert (Q : o_eq (MkO c (opos_of c (c_rid x) []) None) (ordered_end c) = true)
      by (unfold o_eq; simpl; apply Nat.eqb_refl).
    destruct fuel; cbn [o_collect]; rewrite Q; auto.
  - destruct fuel as [|fuel]; [simpl in L; lia|].
    cbn [o_collect opos_of]. unfold o_eq at 1. cbn [oi_pos ordered_end opos_eqb].
    ev o_deref_ev. ev read_entry_ev. ev o_next_ev.
    match goal with |- bind ?m ?k ?w = _ => assert (Q : m w = Val (map pair_of (ents l2)) w) end.
    { apply (IH fuel (l1 ++ [cl])) with (s := s); auto; [rewrite <- app_assoc; auto|simpl in L; lia]. }
    ev Q. auto.
Qed.

Lemma traverse_ordered_ev w c x s l : at_ w c x s -> rep_store E (c_rid x) s l ->
  traverse_ordered E c w = Val (map pair_of (ents l)) w.
Proof.
  intros A R. unfold traverse_ordered. ev size_ev. ev ordered_begin_ev.
  eapply (o_collect_ev (l1 := [])); eauto. rewrite (rep_size R); auto.
Qed.

Lemma o_collect_back_ev l1 : forall l2 fuel w c x s en, at_ w c x s ->
  rep_store E (c_rid x) s (l1 ++ l2) -> length l1 <= fuel ->
  o_collect_back E fuel c (MkO c (opos_of c (c_rid x) l2) en) w = Val (rev (map pair_of (ents l1))) w.
Proof.
  induction l1 as [|d l1 IH] using rev_ind; intros l2 fuel w c x s en A R L.
  - assert (Q : o_eq (MkO c (opos_of c (c_rid x) l2) en) (MkO c (opos_of c (c_rid x) l2) None) = true).
    { unfold o_eq; simpl. destruct l2; simpl; unfold mptr_eqb; simpl; rewrite ?Nat.eqb_refl; auto. }
    simpl app in R.
    destruct fuel; cbn [o_collect_back]; ev ordered_begin_ev; rewrite Q; auto.
  - destruct fuel as [|fuel]; [rewrite app_length in L; simpl in L; lia|].
    cbn [o_collect_back]. ev ordered_begin_ev.
    assert (Q : o_eq (MkO c (opos_of c (c_rid x) l2) en)
                     (MkO c (opos_of c (c_rid x) ((l1 ++ [d]) ++ l2)) None) = false).
    { unfold o_eq; cbn [oi_pos]. destruct l2 as [|f l2]; [destruct l1; auto|].
      pose proof (rs_nq R) as N. apply nodup_mid in N as (_ & N).
      assert (H : exists h t, (l1 ++ [d]) ++ f :: l2 = h :: t /\ In h (l1 ++ [d])).
      { destruct l1; simpl; eauto. }
      destruct H as (h & t & -> & I). simpl. unfold mptr_eqb; simpl. rewrite Nat.eqb_refl; simpl.
      destruct (Nat.eqb_spec (cl_q f) (cl_q h)) as [HH|]; auto. exfalso; apply N.
      rewrite HH, map_app. apply in_or_app; left. apply in_map; auto. }
    rewrite Q.
    assert (P : o_prev (MkO c (opos_of c (c_rid x) l2) en) w =
                Val (MkO c (OAt (c_rid x, cl_q d)) None) w).
    { destruct l2 as [|f l2].
      - rewrite app_nil_r in R. eapply o_prev_end; eauto.
      - eapply o_prev_at; eauto. }
    assert (R' : rep_store E (c_rid x) s (l1 ++ d :: l2)) by (rewrite <- app_assoc in R; auto).
    ev P. ev o_deref_ev. ev read_entry_ev.
    match goal with |- bind ?m ?k ?w = _ => assert (Q' : m w = Val (rev (map pair_of (ents l1))) w) end.
    { apply (IH (d :: l2) fuel) with (s := s) (en := Some (c_rid x, cl_m d)); auto.
      rewrite app_length in L; simpl in L; lia. }
    ev Q'. rewrite ents_app, map_app, rev_app_distr. auto.
Qed.

Lemma traverse_backward_ev w c x s l : at_ w c x s -> rep_store E (c_rid x) s l ->
  traverse_backward E c w = Val (rev (map pair_of (ents l))) w.
Proof.
  intros A R. unfold traverse_backward. ev size_ev.
  eapply (o_collect_back_ev (l2 := [])); eauto.
  - rewrite app_nil_r; auto.
  - rewrite (rep_size R); auto.
Qed.

(** Unordered. *)
Definition upos_of (c r ep : nat) (m : list (nat * mnode)) : upos :=
  match m with [] => UEnd c | (i, _) :: _ => UAt ((r, i), ep) end.

Lemma unordered_begin_ev w c x s : at_ w c x s ->
  unordered_begin c w = Val (MkU c (upos_of c (c_rid x) (s_epoch s) (s_map s)) None) w.
Proof. intros A. unfold unordered_begin. ev own_ev. destruct (s_map s) as [|[i n] m]; auto. Qed.

Lemma raw_deref w r s i n m1 m2 : slot (w_stores w) r = Some s -> s_map s = m1 ++ (i, n) :: m2 ->
  NoDup (map fst (s_map s)) -> deref (r, i) w = Val n w.
Proof.
  intros H M N. unfold deref; cbn [fst snd]. ev get_store_ev.
  erewrite in_assoc; [reflexivity|auto|]. rewrite M. apply in_elt.
Qed.
Lemma raw_deref_it w r s i n m1 m2 : slot (w_stores w) r = Some s -> s_map s = m1 ++ (i, n) :: m2 ->
  NoDup (map fst (s_map s)) -> deref_it ((r, i), s_epoch s) w = Val n w.
Proof.
  intros H M N. unfold deref_it; cbn [fst snd]. ev get_store_ev. rewrite Nat.eqb_refl.
  eapply raw_deref; eauto.
Qed.

Lemma u_next_ev w c x s i n m1 m2 en : at_ w c x s -> s_map s = m1 ++ (i, n) :: m2 ->
  NoDup (map fst (s_map s)) ->
  u_next (MkU c (UAt ((c_rid x, i), s_epoch s)) en) w =
  Val (MkU c (upos_of c (c_rid x) (s_epoch s) m2) None) w.
Proof.
  intros A M N. unfold u_next. cbn [ui_pos fst snd ui_cache]. ev raw_deref_it. ev get_store_ev.
  rewrite M. rewrite next_after_mid.
  - destruct m2 as [|[j y] m2]; auto.
  - rewrite M, map_app in N. simpl in N. apply NoDup_remove_2 in N.
    intro; apply N, in_or_app; auto.
Qed.

Definition npair (p : nat * mnode) : K * V := (n_key (snd p), n_val (snd p)).

Lemma u_collect_ev m2 : forall fuel m1 w c x s, at_ w c x s ->
  s_map s = m1 ++ m2 -> NoDup (map fst (s_map s)) -> length m2 <= fuel ->
  u_collect fuel c (MkU c (upos_of c (c_rid x) (s_epoch s) m2) None) w = Val (map npair m2) w.
Proof.
  induction m2 as [|[i n] m2 IH]; intros fuel m1 w c x s A M N L.
  - assert (Q : u_eq (MkU c (upos_of c (c_rid x) (s_epoch s) []) None) (unordered_end c) = true)
      by (unfold u_eq; simpl; apply Nat.eqb_refl).
    destruct fuel; cbn [u_collect]; rewrite Q; auto.
  - destruct fuel as [|fuel]; [simpl in L; lia|].
    cbn [u_collect upos_of]. unfold u_eq at 1. cbn [ui_pos unordered_end upos_eqb].
    unfold u_deref. cbn [ui_entry ui_pos]. rewrite bind_assoc. ev raw_deref_it. rewrite bind_ret.
    cbn [fst ui_cache]. unfold read_entry. rewrite bind_assoc. ev raw_deref. rewrite bind_ret.
    ev u_next_ev.
    match goal with |- bind ?m ?k ?w = _ => assert (Q : m w = Val (map npair m2) w) end.
    { apply (IH fuel (m1 ++ [(i, n)])); auto; [rewrite <- app_assoc; auto|simpl in L; lia]. }
    ev Q. auto.
Qed.

Lemma traverse_unordered_ev w c x s l : at_ w c x s -> rep_store E (c_rid x) s l ->
  exists t, traverse_unordered c w = Val t w /\ Permutation t (map pair_of (ents l)).
Proof.
  intros A R. exists (map npair (s_map s)). split.
  - unfold traverse_unordered. ev size_ev. ev unordered_begin_ev.
    eapply (u_collect_ev (m1 := [])); eauto. eapply rep_map_nodup; eauto.
  - rewrite (Permutation_map npair (rs_map R)). unfold ents. rewrite !map_map. simpl.
    apply Permutation_refl.
Qed.

(** Advancing. *)
Lemma o_advance_ev n : forall l1 l2 w c x s en, at_ w c x s ->
  rep_store E (c_rid x) s (l1 ++ l2) -> en = None ->
  o_advance n c (MkO c (opos_of c (c_rid x) l2) en) w =
  Val (MkO c (opos_of c (c_rid x) (skipn n l2)) None) w.
Proof.
  induction n as [|n IH]; intros l1 l2 w c x s en A R ->; cbn [o_advance].
  - auto.
  - destruct l2 as [|cl l2].
    + unfold o_eq; simpl. rewrite Nat.eqb_refl. auto.
    + unfold o_eq at 1. cbn [opos_of oi_pos ordered_end opos_eqb]. ev o_next_ev.
      eapply (IH (l1 ++ [cl])); eauto. rewrite <- app_assoc; auto.
Qed.

Lemma ordered_nth_ev w c x s l n : at_ w c x s -> rep_store E (c_rid x) s l ->
  ordered_nth c n w = Val (MkO c (opos_of c (c_rid x) (skipn n l)) None) w.
Proof.
  intros A R. unfold ordered_nth. ev ordered_begin_ev. eapply (o_advance_ev _ (l1 := [])); eauto.
Qed.

Lemma u_advance_ev n : forall m1 m2 w c x s, at_ w c x s ->
  s_map s = m1 ++ m2 -> NoDup (map fst (s_map s)) ->
  u_advance n c (MkU c (upos_of c (c_rid x) (s_epoch s) m2) None) w =
  Val (MkU c (upos_of c (c_rid x) (s_epoch s) (skipn n m2)) None) w.
Proof.
  induction n as [|n IH]; intros m1 m2 w c x s A M N; cbn [u_advance].
  - auto.
  - destruct m2 as [|[i y] m2].
    + unfold u_eq; simpl. rewrite Nat.eqb_refl. auto.
    + unfold u_eq at 1. cbn [upos_of ui_pos unordered_end upos_eqb]. ev u_next_ev.
      eapply (IH (m1 ++ [(i, y)])); eauto. rewrite <- app_assoc; auto.
Qed.

Lemma unordered_nth_ev w c x s l n : at_ w c x s -> rep_store E (c_rid x) s l ->
  unordered_nth c n w = Val (MkU c (upos_of c (c_rid x) (s_epoch s) (skipn n (s_map s))) None) w.
Proof.
  intros A R. unfold unordered_nth. ev unordered_begin_ev.
  eapply (u_advance_ev _ (m1 := [])); eauto. eapply rep_map_nodup; eauto.
Qed.

Lemma skipn_split {A} n (l : list A) :
  match nth_error l n with
  | Some y => exists b, skipn n l = y :: b /\ l = firstn n l ++ y :: b
  | None => skipn n l = [] /\ length l <= n
  end.
Proof.
  revert l; induction n as [|n IH]; intros [|a l]; simpl; auto.
  - eauto.
  - split; auto; lia.
  - specialize (IH l). destruct (nth_error l n).
    + destruct IH as (b & H1 & H2). exists b; split; auto. congruence.
    + destruct IH; split; auto; lia.
Qed.

(** Expiry through iterators. *)
Lemma has_expired_o_ev w c x s l1 cl l2 d : at_ w c x s -> rep_store E (c_rid x) s (l1 ++ cl :: l2) ->
  has_expired_o E c d (MkO c (OAt (c_rid x, cl_q cl)) None) w =
  Val (Z.ltb d (dcast E (clock E (w_reads w) - e_time (cl_e cl)))) (tock w).
Proof.
  intros A R. unfold has_expired_o. unfold o_eq at 1. cbn [oi_pos ordered_end opos_eqb].
  ev o_deref_ev. ev deref_ev. ev map_find_ev. cbn [n_key node_of].
  rewrite (find_cell_mid G _ _ _ _ (rs_keys R) (good_refl G _)). cbn [option_map].
  ev deref_it_ev. auto.
Qed.

Lemma throw_if_invalid_o_sim w aw c x s a l1 cl l2 : rel w aw -> at_ w c x s ->
  slot (aw_caches aw) c = Some a -> rep x s a (l1 ++ cl :: l2) ->
  simr E (fun _ b w' aw' => b = false /\ at_ w' c x s /\ slot (aw_caches aw') c = Some a)
    (throw_if_invalid_o E c (MkO c (OAt (c_rid x, cl_q cl)) None) w)
    ((ex <- a_expired E (a_ttl a) (cl_e cl);; if ex then throw KeyExpired else ret false) aw).
Proof.
  intros R A Ha Rp. pose proof (rp_store Rp) as RS. unfold throw_if_invalid_o. ev get_cache_ev.
  unfold o_eq at 1. cbn [oi_pos ordered_end opos_eqb]. rewrite (rp_ttl Rp).
  destruct (a_ttl a) as [d|].
  - ev has_expired_o_ev. aev a_expired_some. rewrite (rel_reads R).
    destruct (Z.ltb _ _); simpl; auto using rel_tock.
  - aev a_expired_none. simpl. auto.
Qed.

Lemma throw_end c w x : slot (w_caches w) c = Some x ->
  throw_if_invalid_o E c (ordered_end c) w = Exc InvalidIterator w.
Proof.
  intros A. unfold throw_if_invalid_o. ev get_cache_ev. unfold o_eq; simpl. rewrite Nat.eqb_refl. auto.
Qed.

End Iter.
