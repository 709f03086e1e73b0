(** The relation between worlds of the model and of the reference machine, and
    evaluation of the internal functions of Model.v on related worlds. *)
From Coq Require Import List Arith ZArith Bool Permutation Lia.
Import ListNotations.
From Verif Require Import Monad Types Model Api Spec Ref Lists SimBase.
Set Implicit Arguments.
Local Open Scope cpp_scope.

Section Rel.
Context {K V : Type}.
Variable E : env K V.
Hypothesis G : good E.

Notation entry := (entry K V).
Notation world := (world K V).
Notation store := (store K V).
Notation mnode := (mnode K V).
Notation acache := (acache K V).
Notation aworld := (aworld K V).
Notation cell := (@cell K V).
Implicit Types (w : world) (s : store) (aw : aworld).

Definition last_cell (l : list cell) : option cell :=
  match rev l with [] => None | c :: _ => Some c end.

Record rep (x : cache) (s : store) (a : acache) (l : list cell) : Prop := {
  rp_store : rep_store E (c_rid x) s l;
  rp_ents : a_ents a = ents l;
  rp_cap : c_cap x = a_cap a;
  rp_len : length l <= a_cap a;
  rp_stats : c_stats x = a_stats a;
  rp_cbs : c_cbs x = a_cbs a;
  rp_ttl : c_ttl x = a_ttl a;
  rp_last : c_last x = if a_hot a then option_map (fun c => (c_rid x, cl_m c)) (last_cell l)
                       else None;
  rp_hot : a_hot a = true -> l <> []
}.

Record rel (w : world) (aw : aworld) : Prop := {
  rel_len : length (w_caches w) = length (aw_caches aw);
  rel_slot : forall c,
    match slot (w_caches w) c, slot (aw_caches aw) c with
    | Some x, Some a => exists s l, slot (w_stores w) (c_rid x) = Some s /\ rep x s a l
    | None, None => True
    | _, _ => False
    end;
  rel_inj : forall c d x y, slot (w_caches w) c = Some x -> slot (w_caches w) d = Some y ->
                            c_rid x = c_rid y -> c = d;
  rel_stats : w_stats w = aw_stats aw;
  rel_log : w_log w = aw_log aw;
  rel_reads : w_reads w = aw_reads aw;
  rel_sts : forall c a i, slot (aw_caches aw) c = Some a -> a_stats a = Some i ->
                          slot (aw_stats aw) i <> None
}.

Lemma rel_get w aw c a : rel w aw -> slot (aw_caches aw) c = Some a ->
  exists x s l, at_ w c x s /\ rep x s a l.
Proof.
  intros R H. pose proof (rel_slot R c) as S. rewrite H in S.
  destruct (slot (w_caches w) c) as [x|] eqn:X; [|easy].
  destruct S as (s & l & H1 & H2). exists x, s, l; split; auto. split; auto.
Qed.

Lemma rel_get' w aw c x : rel w aw -> slot (w_caches w) c = Some x ->
  exists a s l, slot (aw_caches aw) c = Some a /\ at_ w c x s /\ rep x s a l.
Proof.
  intros R H. pose proof (rel_slot R c) as S. rewrite H in S.
  destruct (slot (aw_caches aw) c) as [a|] eqn:X; [|easy].
  destruct S as (s & l & H1 & H2). exists a, s, l. split; auto. split; auto. split; auto.
Qed.

Lemma rel_alive w aw c : rel w aw -> alive w c = a_alive aw c.
Proof.
  intros R. pose proof (rel_slot R c) as S. unfold alive, a_alive.
  destruct (slot (w_caches w) c), (slot (aw_caches aw) c); easy.
Qed.
Lemma rel_timed w aw c : rel w aw -> timed w c = a_timed aw c.
Proof.
  intros R. pose proof (rel_slot R c) as S. unfold timed, a_timed.
  destruct (slot (w_caches w) c), (slot (aw_caches aw) c); try easy.
  destruct S as (s & l & _ & H). rewrite (rp_ttl H); auto.
Qed.
Lemma rel_well_formed w aw o : rel w aw -> well_formed w o = a_well_formed aw o.
Proof.
  intros R. destruct o; simpl; unfold same_kind, stats_alive;
    rewrite ?(rel_alive _ R), ?(rel_timed _ R), ?(rel_stats R); auto.
Qed.

(* ---------------------------------------------------------------- *)
(** ** Local changes *)

(** [w'] is [w] with cache [c] now [x'], [s'] (and possibly another number of
    fallible steps). *)
Definition chg (c : nat) (x' : cache) (s' : store) (w w' : world) : Prop :=
  w_caches w' = upd (w_caches w) c (Some x') /\
  w_stores w' = upd (w_stores w) (c_rid x') (Some s') /\
  w_stats w' = w_stats w /\ w_log w' = w_log w /\ w_reads w' = w_reads w.

Lemma chg_refl w c x s : at_ w c x s -> chg c x s w w.
Proof. intros (H & H'). unfold chg. rewrite !upd_slot; auto. Qed.

Lemma chg_trans c x1 s1 x2 s2 w w1 w2 :
  chg c x1 s1 w w1 -> chg c x2 s2 w1 w2 -> c_rid x2 = c_rid x1 -> chg c x2 s2 w w2.
Proof.
  intros (A1 & A2 & A3 & A4 & A5) (B1 & B2 & B3 & B4 & B5) Hr. unfold chg.
  rewrite B1, B2, B3, B4, B5, A1, A2, A3, A4, A5, Hr, !upd_upd. auto.
Qed.

Lemma chg_at w w' c x s x' s' : at_ w c x s -> chg c x' s' w w' -> c_rid x' = c_rid x ->
  at_ w' c x' s'.
Proof.
  intros (H & H') (A1 & A2 & _) Hr. split.
  - rewrite A1. erewrite slot_upd_same; eauto.
  - rewrite A2, Hr. erewrite slot_upd_same; eauto.
Qed.

Definition awith (c : nat) (a : acache) (aw : aworld) : aworld :=
  MkAW (upd (aw_caches aw) c (Some a)) (aw_stats aw) (aw_log aw) (aw_reads aw).

Lemma rel_chg w w' aw c x s a a' x' s' l' :
  rel w aw -> at_ w c x s -> slot (aw_caches aw) c = Some a ->
  chg c x' s' w w' -> c_rid x' = c_rid x -> rep x' s' a' l' ->
  (forall i, a_stats a' = Some i -> slot (aw_stats aw) i <> None) ->
  rel w' (awith c a' aw).
Proof.
  intros R (Hx & Hs) Ha (C1 & C2 & C3 & C4 & C5) Hr Rp St.
  assert (Lc : c < length (w_caches w)) by (eapply slot_lt; eauto).
  assert (La : c < length (aw_caches aw)) by (eapply slot_lt; eauto).
  constructor; simpl.
  - rewrite C1, !upd_length. apply (rel_len R).
  - intros d. rewrite C1, C2. destruct (Nat.eq_dec c d) as [<-|N].
    + erewrite !slot_upd_same by eauto. exists s', l'; split; auto.
      rewrite Hr; erewrite slot_upd_same; eauto.
    + rewrite !slot_upd_other by auto. pose proof (rel_slot R d) as S.
      destruct (slot (w_caches w) d) as [y|] eqn:Y, (slot (aw_caches aw) d); auto.
      destruct S as (t & m & S1 & S2). exists t, m; split; auto.
      rewrite slot_upd_other; auto. rewrite Hr. intro Q. apply N. eapply (rel_inj R); eauto.
  - intros d e y z. rewrite C1. intros D1 D2 Q.
    destruct (Nat.eq_dec c d) as [<-|N], (Nat.eq_dec c e) as [<-|N']; auto.
    + erewrite slot_upd_same in D1 by eauto. inversion D1; subst.
      rewrite slot_upd_other in D2 by auto. eapply (rel_inj R); eauto. congruence.
    + erewrite slot_upd_same in D2 by eauto. inversion D2; subst.
      rewrite slot_upd_other in D1 by auto. symmetry. eapply (rel_inj R); eauto. congruence.
    + rewrite slot_upd_other in D1, D2 by auto. eapply (rel_inj R); eauto.
  - rewrite C3; apply (rel_stats R).
  - rewrite C4; apply (rel_log R).
  - rewrite C5; apply (rel_reads R).
  - intros d b i. destruct (Nat.eq_dec c d) as [<-|N].
    + erewrite slot_upd_same by eauto. intros H; inversion H; subst; auto.
    + rewrite slot_upd_other by auto. apply (rel_sts R).
Qed.

(* ---------------------------------------------------------------- *)
(** ** Simulation of results *)

Definition simr {A B} (R : A -> B -> world -> aworld -> Prop)
  (r : res world A) (ar : res aworld B) : Prop :=
  match r, ar with
  | Val a w, Val b aw => rel w aw /\ R a b w aw
  | Exc e w, Exc e' aw => e = e' /\ rel w aw
  | Undef u, Undef u' => u = u'
  | Term e, Term e' => e = e'
  | _, _ => False
  end.

Lemma sim_bind {A B A' B'} (R : A -> B -> world -> aworld -> Prop)
  (R' : A' -> B' -> world -> aworld -> Prop) m am k ak w aw :
  simr R (m w) (am aw) ->
  (forall (a : A) (b : B) w' aw', rel w' aw' -> R a b w' aw' -> simr R' (k a w') (ak b aw')) ->
  simr R' (bind m k w) (bind am ak aw).
Proof.
  unfold bind. intros S C.
  destruct (m w), (am aw); simpl in *; try easy. destruct S; auto.
Qed.

Lemma sim_ret {A B} (R : A -> B -> world -> aworld -> Prop) (a : A) (b : B) w aw :
  rel w aw -> R a b w aw -> simr R (ret a w) (ret b aw).
Proof. simpl; auto. Qed.

Lemma sim_weaken {A B} (R R' : A -> B -> world -> aworld -> Prop) r ar :
  simr R r ar -> (forall (a : A) (b : B) w aw, rel w aw -> R a b w aw -> R' a b w aw) -> simr R' r ar.
Proof. destruct r, ar; simpl; intuition. Qed.

(** Results that are equal / unrestricted. *)
Definition Req {A} : A -> A -> world -> aworld -> Prop := fun (x y : A) _ _ => x = y.

(** Clock readings. *)
Definition tock (w : world) : world :=
  MkWorld (w_caches w) (w_stores w) (w_stats w) (w_log w) (S (w_reads w)) (w_steps w).
Definition atock (aw : aworld) : aworld :=
  MkAW (aw_caches aw) (aw_stats aw) (aw_log aw) (S (aw_reads aw)).
Definition tick (w : world) : world :=
  MkWorld (w_caches w) (w_stores w) (w_stats w) (w_log w) (w_reads w) (S (w_steps w)).

Lemma rel_tock w aw : rel w aw -> rel (tock w) (atock aw).
Proof. intros []; constructor; simpl; auto. Qed.
Lemma rel_tick w aw : rel w aw -> rel (tick w) aw.
Proof. intros []; constructor; simpl; auto. Qed.

Lemma now_ev w : now E w = Val (clock E (w_reads w)) (tock w).
Proof. auto. Qed.
Lemma a_now_ev aw : a_now E aw = Val (clock E (aw_reads aw)) (atock aw).
Proof. auto. Qed.
Lemma fallible_tick w : fallible E w = Val tt (tick w).
Proof. apply (fallible_ev G). Qed.

Lemma a_get_ev aw c a : slot (aw_caches aw) c = Some a -> a_get c aw = Val a aw.
Proof. unfold a_get; intros ->; auto. Qed.

(* ---------------------------------------------------------------- *)
(** ** Container primitives *)

Lemma size_ev w c x s : at_ w c x s -> size c w = Val (length (s_map s)) w.
Proof. intros A. unfold size, map_size, bind. erewrite own_ev by eauto. auto. Qed.

Lemma capacity_ev w c x : slot (w_caches w) c = Some x -> capacity c w = Val (c_cap x) w.
Proof. intros A. unfold capacity, bind. erewrite get_cache_ev by eauto. auto. Qed.

Lemma map_find_ev w c x s l k : at_ w c x s -> rep_store E (c_rid x) s l ->
  map_find E c k w =
  Val (option_map (fun cl => ((c_rid x, cl_m cl), s_epoch s)) (find_cell E k l)) w.
Proof.
  intros A R. unfold map_find, bind. erewrite own_ev by eauto.
  rewrite (rep_node_with G k R). destruct (find_cell E k l); auto.
Qed.

Lemma deref_ev w r s l cl : slot (w_stores w) r = Some s -> rep_store E r s l -> In cl l ->
  deref (r, cl_m cl) w = Val (node_of r cl) w.
Proof.
  intros H R I. unfold deref, bind; simpl. erewrite get_store_ev by eauto.
  erewrite rep_assoc_m; eauto.
Qed.

Lemma deref_it_ev w r s l cl : slot (w_stores w) r = Some s -> rep_store E r s l -> In cl l ->
  deref_it ((r, cl_m cl), s_epoch s) w = Val (node_of r cl) w.
Proof.
  intros H R I. unfold deref_it, bind; simpl. erewrite get_store_ev by eauto.
  rewrite Nat.eqb_refl. eapply deref_ev; eauto.
Qed.

Lemma list_deref_ev w r s l cl : slot (w_stores w) r = Some s -> rep_store E r s l -> In cl l ->
  list_deref (r, cl_q cl) w = Val (r, cl_m cl) w.
Proof.
  intros H R I. unfold list_deref, bind; simpl. erewrite get_store_ev by eauto.
  erewrite rep_assoc_q; eauto.
Qed.

Lemma in_mid (a : list cell) c b : In c (a ++ c :: b).
Proof. apply in_elt. Qed.
Lemma in_last (a : list cell) c : In c (a ++ [c]).
Proof. apply in_or_app; simpl; auto. Qed.

Lemma move_to_front_ev w c x s l1 cl l2 : at_ w c x s ->
  rep_store E (c_rid x) s (l1 ++ cl :: l2) ->
  exists s' w', move_to_front c (Some (c_rid x, cl_q cl)) w = Val tt w' /\
    chg c x s' w w' /\ rep_store E (c_rid x) s' (l1 ++ l2 ++ [cl]) /\
    s_epoch s' = s_epoch s /\ s_next s' = s_next s.
Proof.
  intros A R. unfold move_to_front, bind. erewrite size_ev by eauto.
  rewrite (rep_size R). destruct (Nat.eqb_spec (length (l1 ++ cl :: l2)) 1) as [L|L].
  - rewrite app_length in L; simpl in L. destruct l1, l2; simpl in L; try lia.
    exists s, w. simpl. split; auto. split; [apply (chg_refl A)|auto].
  - unfold list_splice_back, bind. erewrite own_ev by eauto. rewrite Nat.eqb_refl.
    erewrite rep_assoc_q by (eauto using in_mid). rewrite put_store_ev.
    eexists _, _; split; [reflexivity|]. split; [|split; [eapply rep_move; eauto|auto]].
    destruct A as (A1 & A2). unfold chg, setS, with_stores; simpl.
    rewrite upd_slot by eauto. repeat split.
Qed.

Lemma chg_setS w c x s s' : at_ w c x s -> chg c x s' w (setS (c_rid x) s' w).
Proof. intros (A & _). unfold chg; simpl. rewrite upd_slot by auto. repeat split. Qed.
Lemma chg_setC w c x s x' : at_ w c x s -> c_rid x' = c_rid x -> chg c x' s w (setC c x' w).
Proof. intros (A & A') Hr. unfold chg; simpl. rewrite Hr, (upd_slot _ _ A'). repeat split. Qed.
Lemma chg_tick c x s w w' : chg c x s (tick w) w' -> chg c x s w w'.
Proof. auto. Qed.

Definition with_last (p : option mptr) (x : cache) : cache :=
  MkCache (c_rid x) p (c_cap x) (c_stats x) (c_cbs x) (c_ttl x).

Lemma set_last_ev w c x s p : at_ w c x s ->
  set_last c p w = Val tt (setC c (with_last p x) w).
Proof. intros (A & _). unfold set_last, bind. erewrite get_cache_ev by eauto. auto. Qed.

(* ---------------------------------------------------------------- *)
(** ** Statistics and callbacks *)

(** Caches and stores untouched. *)
Definition same_caches (w w' : world) : Prop :=
  w_caches w' = w_caches w /\ w_stores w' = w_stores w.

Lemma natlist_eqb_refl l : natlist_eqb l l = true.
Proof. induction l; simpl; auto. rewrite Nat.eqb_refl; auto. Qed.

Lemma call_each_from_ev sel c x mk f ids : forall w,
  slot (w_caches w) c = Some x ->
  (forall id w', w_stores w' = w_stores w -> mk id w' = Val (f id) w') ->
  call_each_from E sel (sel (c_cbs x)) c mk ids w =
  Val tt (with_log (fun lg => lg ++ map f ids) w).
Proof.
  induction ids as [|i ids IH]; intros w H M; simpl.
  - unfold ret. f_equal. destruct w; unfold with_log; simpl. rewrite app_nil_r; auto.
  - unfold bind. rewrite M by auto. rewrite (good_cb G).
    erewrite get_cache_ev by (simpl; eauto). rewrite natlist_eqb_refl.
    rewrite IH; auto.
    f_equal. destruct w; unfold with_log; simpl. rewrite <- app_assoc; auto.
Qed.

Lemma call_each_ev sel c x mk f w :
  slot (w_caches w) c = Some x ->
  (forall id w', w_stores w' = w_stores w -> mk id w' = Val (f id) w') ->
  call_each E sel c mk w = Val tt (with_log (fun lg => lg ++ map f (sel (c_cbs x))) w).
Proof.
  intros H M. unfold call_each, bind. erewrite get_cache_ev by eauto.
  apply call_each_from_ev; auto.
Qed.

(** What a registration does to statistics and log. *)
Definition counted (st : option nat) (f : statistics K -> statistics K)
  (t : list (option (statistics K))) : list (option (statistics K)) :=
  match st with
  | None => t
  | Some i => match slot t i with Some y => upd t i (Some (f y)) | None => t end
  end.
Definition noted st f ev w : world :=
  MkWorld (w_caches w) (w_stores w) (counted st f (w_stats w)) (w_log w ++ ev)
          (w_reads w) (w_steps w).
Definition anoted st f ev aw : aworld :=
  MkAW (aw_caches aw) (counted st f (aw_stats aw)) (aw_log aw ++ ev) (aw_reads aw).

Lemma counted_slot st f t i : slot t i <> None -> slot (counted st f t) i <> None.
Proof.
  intros H. destruct st as [j|]; simpl; auto. destruct (slot t j) eqn:S; auto.
  destruct (Nat.eq_dec j i) as [->|N].
  - erewrite slot_upd_same; eauto. discriminate.
  - rewrite slot_upd_other; auto.
Qed.

Lemma rel_noted st f ev w aw : rel w aw -> rel (noted st f ev w) (anoted st f ev aw).
Proof.
  intros R. constructor; simpl; try apply R.
  - rewrite (rel_stats R); auto.
  - rewrite (rel_log R); auto.
  - intros. apply counted_slot. eapply (rel_sts R); eauto.
Qed.

Lemma count_ev w st f : (forall i, st = Some i -> slot (w_stats w) i <> None) ->
  (match st with
   | Some i => y <- get_stats i;; put_stats i (f y)
   | None => ret tt
   end) w = Val tt (noted st f [] w).
Proof.
  intros S. unfold noted. destruct st as [i|].
  - unfold bind, get_stats, counted. destruct (slot (w_stats w) i) eqn:Q.
    + rewrite app_nil_r. auto.
    + exfalso. eapply S; eauto.
  - simpl. rewrite app_nil_r. destruct w; auto.
Qed.

Lemma register_hit_ev w c x s l cl k : at_ w c x s -> rep_store E (c_rid x) s l -> In cl l ->
  (forall i, c_stats x = Some i -> slot (w_stats w) i <> None) ->
  register_hit E c k (c_rid x, cl_m cl) w =
  Val tt (noted (c_stats x) (stats_register_hit E k) (hit_events (c_cbs x) k (e_val (cl_e cl))) w).
Proof.
  intros (A1 & A2) R I S. unfold register_hit.
  erewrite bind_val; [|apply get_cache_ev; eauto].
  erewrite bind_val; [|apply count_ev; eauto].
  erewrite bind_val; [|apply call_each_ev with (x := x) (f := fun id => EvHit id k (e_val (cl_e cl)))].
  - rewrite call_each_ev with (x := x) (f := fun id => EvAccess id k true); auto.
    unfold noted, hit_events, with_log; simpl. rewrite app_nil_r, <- app_assoc. auto.
  - auto.
  - intros id w' H. simpl in H. unfold bind. erewrite deref_ev; eauto. rewrite H; auto.
Qed.

Lemma register_miss_ev w c x k : slot (w_caches w) c = Some x ->
  (forall i, c_stats x = Some i -> slot (w_stats w) i <> None) ->
  register_miss E c k w =
  Val tt (noted (c_stats x) (stats_register_miss E k) (miss_events (c_cbs x) k) w).
Proof.
  intros A1 S. unfold register_miss.
  erewrite bind_val; [|apply get_cache_ev; eauto].
  erewrite bind_val; [|apply count_ev; eauto].
  erewrite bind_val; [|apply call_each_ev with (x := x) (f := fun id => EvMiss id k); auto].
  rewrite call_each_ev with (x := x) (f := fun id => EvAccess id k false); auto.
  unfold noted, miss_events, with_log; simpl. rewrite app_nil_r, <- app_assoc. auto.
Qed.

Lemma a_count_ev aw c a f : slot (aw_caches aw) c = Some a ->
  (forall i, a_stats a = Some i -> slot (aw_stats aw) i <> None) ->
  a_count c f aw = Val tt (anoted (a_stats a) f [] aw).
Proof.
  intros A S. unfold a_count, bind. erewrite a_get_ev by eauto.
  unfold anoted, counted. destruct (a_stats a) as [i|].
  - unfold a_getstats. destruct (slot (aw_stats aw) i) eqn:Q.
    + unfold a_putstats, modify. rewrite app_nil_r; auto.
    + exfalso; eapply S; eauto.
  - rewrite app_nil_r. destruct aw; auto.
Qed.

Lemma a_hit_ev aw c a k v : slot (aw_caches aw) c = Some a ->
  (forall i, a_stats a = Some i -> slot (aw_stats aw) i <> None) ->
  a_hit E c k v aw =
  Val tt (anoted (a_stats a) (stats_register_hit E k) (hit_events (a_cbs a) k v) aw).
Proof.
  intros A S. unfold a_hit, bind. erewrite a_count_ev by eauto.
  erewrite a_get_ev by (simpl; eauto). unfold a_emit, modify, anoted; simpl.
  rewrite app_nil_r; auto.
Qed.

Lemma a_miss_ev aw c a k : slot (aw_caches aw) c = Some a ->
  (forall i, a_stats a = Some i -> slot (aw_stats aw) i <> None) ->
  a_miss E c k aw =
  Val tt (anoted (a_stats a) (stats_register_miss E k) (miss_events (a_cbs a) k) aw).
Proof.
  intros A S. unfold a_miss, bind. erewrite a_count_ev by eauto.
  erewrite a_get_ev by (simpl; eauto). unfold a_emit, modify, anoted; simpl.
  rewrite app_nil_r; auto.
Qed.

(* ---------------------------------------------------------------- *)
(** ** LastAccessed *)

Lemma last_cell_app l c : last_cell (l ++ [c]) = Some c.
Proof. unfold last_cell. rewrite rev_app_distr; auto. Qed.
Lemma last_cell_split l c : last_cell l = Some c -> exists l', l = l' ++ [c].
Proof.
  unfold last_cell. intros H. destruct (rev l) as [|d m] eqn:Q; [discriminate|].
  inversion H; subst. exists (rev m). rewrite <- (rev_involutive l), Q. auto.
Qed.
Lemma last_cell_none l : last_cell l = None -> l = [].
Proof.
  unfold last_cell. intros H. destruct (rev l) eqn:Q; [|discriminate].
  rewrite <- (rev_involutive l), Q; auto.
Qed.
Lemma last_ent_ents l : last_ent (ents l) = option_map cl_e (last_cell l).
Proof.
  unfold last_ent, last_cell, ents. rewrite <- map_rev. destruct (rev l); auto.
Qed.

(** The last accessed cell, if its key is [k]. *)
Definition hot_cell (a : acache) (l : list cell) (k : K) : option cell :=
  if a_hot a then
    match last_cell l with
    | Some c => if key_equal E k (e_key (cl_e c)) then Some c else None
    | None => None
    end
  else None.

Lemma hot_cell_ent x s a l k : rep x s a l ->
  a_hot_ent E a k = option_map cl_e (hot_cell a l k).
Proof.
  intros R. unfold a_hot_ent, hot_cell. destruct (a_hot a); auto.
  rewrite (rp_ents R), last_ent_ents. destruct (last_cell l); simpl; auto.
  destruct (key_equal E k (e_key (cl_e c))); auto.
Qed.

Lemma hot_cell_some a l k c : hot_cell a l k = Some c ->
  a_hot a = true /\ key_equal E k (e_key (cl_e c)) = true /\ exists l', l = l' ++ [c].
Proof.
  unfold hot_cell. destruct (a_hot a); [|discriminate].
  destruct (last_cell l) eqn:L; [|discriminate].
  destruct (key_equal E k (e_key (cl_e c0))) eqn:Q; [|discriminate].
  intros H; inversion H; subst. apply last_cell_split in L. auto.
Qed.

Lemma last_is_ev w c x s a l k : at_ w c x s -> rep x s a l ->
  last_is E c k w = Val (match hot_cell a l k with Some _ => true | None => false end) w.
Proof.
  intros A R. unfold last_is, bind. erewrite get_cache_ev by apply A.
  rewrite (rp_last R). unfold hot_cell. destruct (a_hot a) eqn:H; auto.
  destruct (last_cell l) as [cl|] eqn:L; auto. simpl.
  erewrite deref_ev; [|apply A|apply (rp_store R)|].
  - simpl. destruct (key_equal E k (e_key (cl_e cl))); auto.
  - apply last_cell_split in L as (l' & ->). apply in_last.
Qed.

Lemma last_ptr_ev w c x s a l k cl : at_ w c x s -> rep x s a l -> hot_cell a l k = Some cl ->
  last_ptr c w = Val (c_rid x, cl_m cl) w.
Proof.
  intros A R H. unfold last_ptr, bind. erewrite get_cache_ev by apply A.
  rewrite (rp_last R). unfold hot_cell in H. destruct (a_hot a); [|discriminate].
  destruct (last_cell l); [|discriminate].
  destruct (key_equal E k (e_key (cl_e c0))); [|discriminate].
  inversion H; subst; auto.
Qed.

End Rel.
