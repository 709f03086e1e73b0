(** A cache filled from the elements of another cache: the walk over the other
    cache is not disturbed, and the call does what the list of its elements does. *)
From Coq Require Import List Arith ZArith Bool Permutation Lia.
Import ListNotations.
From Verif Require Import Monad Types Model Api Spec Ref Lists SimBase SimRel SimOps SimIns SimErase SimIter SpecSettings Effects Settings CopyFrame Refs SpecRefs RefsProofs.
Set Implicit Arguments.
Unset Strict Implicit.
Local Open Scope cpp_scope.

Ltac fassoc := match goal with
  | |- ?P (bind (bind ?m ?f) ?g ?w) ?r ?Q => rewrite (bind_assoc m f g w)
  end.
Tactic Notation "fv" uconstr(L) :=
  match goal with
  | |- _ _ (bind ?m ?k ?w) _ => with_bind m k w ltac:(eapply L; first [solve [eauto with sim] | simpl; eauto with sim])
  | |- bind ?m ?k ?w = _ => with_bind m k w ltac:(eapply L; first [solve [eauto with sim] | simpl; eauto with sim])
  end.

Section Fill.
Context {K V : Type}.
Variable E : env K V.
Hypothesis G : good E.
Variable husk : V -> V.

Notation world := (world K V).
Notation store := (store K V).
Notation mnode := (mnode K V).
Notation M := (M world).
Notation cell := (@cell K V).
Notation top := (fun _ => True).
Implicit Types (w : world) (s : store).

Variables (d : nat) (xd : cache).
Notation rd := (c_rid xd).
Notation graft s := (graft d rd xd s).
Notation free := (@free K V d rd).

(** The second computation runs in the world with cache [d]; it may change the
    elements of [d] on the way. *)
Definition framed2 {A} (r r' : res world A) (Q : A -> store -> Prop) : Prop :=
  match r with
  | Val a w1 => free w1 /\ exists s', Q a s' /\ r' = Val a (graft s' w1)
  | Exc e w1 => free w1 /\ exists s', r' = Exc e (graft s' w1)
  | Term e => r' = Term e
  | Undef u => gone u \/ r' = Undef u
  end.
Lemma f_ret A (a : A) s w (Q : A -> store -> Prop) : free w -> Q a s -> framed2 (ret a w) (ret a (graft s w)) Q.
Proof. simpl. eauto. Qed.
Lemma f_bind A B (m m' : M A) (k k' : A -> M B) s w Q Q' : framed2 (m w) (m' (graft s w)) Q ->
  (forall a s' w', m w = Val a w' -> free w' -> Q a s' -> framed2 (k a w') (k' a (graft s' w')) Q') ->
  framed2 (bind m k w) (bind m' k' (graft s w)) Q'.
Proof.
  unfold bind, framed2. destruct (m w).
  - intros (F & s' & H & ->) C. apply C; auto.
  - intros (F & s' & ->) _. eauto.
  - intros [H| ->]; auto.
  - intros ->; auto.
Qed.
Lemma f_lift A (m : M A) s (Q : A -> Prop) w : hoare d rd xd s m Q -> free w ->
  framed2 (m w) (m (graft s w)) (fun a s' => s' = s /\ Q a).
Proof.
  intros H F. specialize (H w F). unfold framed, framed2 in *. destruct (m w); auto.
  - destruct H as (? & ? & ->); eauto.
  - destruct H as (? & ->); eauto.
Qed.
Lemma f_weak A (r r' : res world A) (Q Q' : A -> store -> Prop) : framed2 r r' Q -> (forall a s, Q a s -> Q' a s) -> framed2 r r' Q'.
Proof. unfold framed2. destruct r; auto. intros (F & s' & H & ->) C. eauto. Qed.

Lemma graft_at s w : free w -> at_ (graft s w) d xd s.
Proof.
  intros F. split; simpl.
  - rewrite slot_upd_lt; auto. apply (fr_dl F).
  - rewrite slot_upd_lt; auto. apply (fr_rdl F).
Qed.
Lemma graft_store s w : free w -> slot (w_stores (graft s w)) rd = Some s.
Proof. intros F. apply (graft_at _ F). Qed.

(** ** Copying out of [d] *)

Let CB := good_cb G.

Lemma f_insert c s p n w : deref p (graft s w) = Val n (graft s w) -> free w ->
  framed2 (insert E c (n_key n) (n_val n) w) (insert_ref E c (KIn p) (VIn p) (graft s w)) (fun _ s' => s' = s).
Proof.
  intros D F. erewrite insert_eq by (simpl; rewrite D; reflexivity).
  eapply f_weak; [apply (f_lift (Q := top)); auto; apply h_insert; auto|]. simpl; tauto.
Qed.

Definition ins_step c (cnt : nat) (p : K * V) : M nat :=
  r <- insert E c (fst p) (snd p);; ret (if fst r then S cnt else cnt).

Lemma u_deref_ev w c x s i n m1 m2 : at_ w c x s -> s_map s = m1 ++ (i, n) :: m2 -> NoDup (map fst (s_map s)) ->
  u_deref (MkU c (UAt ((c_rid x, i), s_epoch s)) None) w =
  Val ((c_rid x, i), MkU c (UAt ((c_rid x, i), s_epoch s)) (Some (c_rid x, i))) w.
Proof. intros A Hm N. unfold u_deref. cbn [ui_entry ui_pos]. ev raw_deref_it. reflexivity. Qed.


Lemma it_u_begin w c x s : at_ w c x s ->
  iter_begin false c w = Val (IU (MkU c (upos_of c (c_rid x) (s_epoch s) (s_map s)) None)) w.
Proof. intros A. unfold iter_begin. ev unordered_begin_ev. reflexivity. Qed.
Lemma it_o_begin w c x s l : at_ w c x s -> rep_store E (c_rid x) s l ->
  iter_begin true c w = Val (IO (MkO c (opos_of c (c_rid x) l) None)) w.
Proof. intros A R. unfold iter_begin. ev ordered_begin_ev. reflexivity. Qed.
Lemma it_u_next w c x s i n m1 m2 en : at_ w c x s -> s_map s = m1 ++ (i, n) :: m2 -> NoDup (map fst (s_map s)) ->
  iter_next (IU (MkU c (UAt ((c_rid x, i), s_epoch s)) en)) w = Val (IU (MkU c (upos_of c (c_rid x) (s_epoch s) m2) None)) w.
Proof. intros A Hm N. unfold iter_next. ev u_next_ev. reflexivity. Qed.
Lemma it_o_next w c x s l1 cl l2 en : at_ w c x s -> rep_store E (c_rid x) s (l1 ++ cl :: l2) ->
  iter_next (IO (MkO c (OAt (c_rid x, cl_q cl)) en)) w = Val (IO (MkO c (opos_of c (c_rid x) l2) None)) w.
Proof. intros A R. unfold iter_next. ev o_next_ev. reflexivity. Qed.
Lemma it_u_deref w c x s i n m1 m2 : at_ w c x s -> s_map s = m1 ++ (i, n) :: m2 -> NoDup (map fst (s_map s)) ->
  iter_deref E (IU (MkU c (UAt ((c_rid x, i), s_epoch s)) None)) w =
  Val ((c_rid x, i), IU (MkU c (UAt ((c_rid x, i), s_epoch s)) (Some (c_rid x, i)))) w.
Proof. intros A Hm N. unfold iter_deref. ev u_deref_ev. reflexivity. Qed.
Lemma it_o_deref w c x s l1 cl l2 : at_ w c x s -> rep_store E (c_rid x) s (l1 ++ cl :: l2) ->
  iter_deref E (IO (MkO c (OAt (c_rid x, cl_q cl)) None)) w =
  Val ((c_rid x, cl_m cl), IO (MkO c (OAt (c_rid x, cl_q cl)) (Some (c_rid x, cl_m cl)))) w.
Proof. intros A R. unfold iter_deref. ev o_deref_ev. reflexivity. Qed.

Lemma fill_u c s m2 : forall fuel m1 w cnt, free w -> s_map s = m1 ++ m2 -> NoDup (map fst (s_map s)) -> length m2 <= fuel ->
  framed2 (foldM (ins_step c) (map npair m2) cnt w)
          (fill_loop E fuel c (IU (MkU d (upos_of d rd (s_epoch s) m2) None)) (iter_end false d) cnt (graft s w))
          (fun _ s' => s' = s).
Proof.
  induction m2 as [|[i n] m2 IH]; intros fuel m1 w cnt F Hm N L.
  - assert (Q : iter_eq (IU (MkU d (@upos_of K V d rd (s_epoch s) []) None)) (iter_end false d) = true)
      by (unfold iter_eq, u_eq; simpl; apply Nat.eqb_refl).
    destruct fuel; cbn [fill_loop]; rewrite Q; apply f_ret; auto.
  - destruct fuel as [|fuel]; [simpl in L; lia|]. pose proof (graft_at s F) as A.
    cbn [fill_loop upos_of iter_end iter_eq]. unfold u_eq at 1. cbn [ui_pos unordered_end upos_eqb].
    cbn [map foldM]. unfold ins_step at 1. fassoc.
    fv it_u_deref.
    eapply f_bind; [unfold npair; cbn [fst snd]; eapply f_insert; auto; eapply raw_deref; eauto; apply A|].
    cbv beta. intros r s' w' _ F' ->. rewrite bind_ret.
    pose proof (graft_at s F') as A'. fv it_u_next.
    apply (IH fuel (m1 ++ [(i, n)])); auto; [rewrite <- app_assoc; auto|simpl in L; lia].
Qed.

Lemma fill_o c s l2 : forall fuel l1 w cnt, free w -> rep_store E rd s (l1 ++ l2) -> length l2 <= fuel ->
  framed2 (foldM (ins_step c) (map pair_of (ents l2)) cnt w)
          (fill_loop E fuel c (IO (MkO d (opos_of d rd l2) None)) (iter_end true d) cnt (graft s w))
          (fun _ s' => s' = s).
Proof.
  induction l2 as [|cl l2 IH]; intros fuel l1 w cnt F R L.
  - assert (Q : iter_eq (IO (MkO d (@opos_of K V d rd []) None)) (iter_end true d) = true)
      by (unfold iter_eq, o_eq; simpl; apply Nat.eqb_refl).
    destruct fuel; cbn [fill_loop]; rewrite Q; apply f_ret; auto.
  - destruct fuel as [|fuel]; [simpl in L; lia|]. pose proof (graft_at s F) as A.
    cbn [fill_loop opos_of iter_end iter_eq]. unfold o_eq at 1. cbn [oi_pos ordered_end opos_eqb].
    cbn [ents map foldM]. unfold ins_step at 1. fassoc.
    fv it_o_deref.
    eapply f_bind.
    { unfold pair_of; cbn [fst snd].
      apply (@f_insert c s (c_rid xd, cl_m cl) (node_of (c_rid xd) cl) w); [|auto].
      eapply deref_ev; eauto with sim. }
    cbv beta. intros r s' w' _ F' ->. rewrite bind_ret.
    pose proof (graft_at s F') as A'. fv it_o_next.
    apply (IH fuel (l1 ++ [cl])); auto; [rewrite <- app_assoc; auto|simpl in L; lia].
Qed.

(** What a traversal of [d] gives. *)
Definition listed (o : bool) s (l : list cell) : list (K * V) :=
  if o then map pair_of (ents l) else map npair (s_map s).

Lemma fill_framed o c s l w : free w -> rep_store E rd s l ->
  framed2 (insert_range E c (listed o s l) w) (fill E o c d (graft s w)) (fun _ s' => s' = s).
Proof.
  intros F R. unfold fill. pose proof (graft_at s F) as A. fv size_ev. destruct o.
  - fv it_o_begin.
    apply (fill_o c (l1 := [])); auto. rewrite (rep_size R). auto.
  - fv it_u_begin.
    apply (fill_u c (m1 := [])); auto. eapply rep_map_nodup; eauto.
Qed.

Lemma distance_u s m2 : forall fuel m1 w cnt, free w -> s_map s = m1 ++ m2 -> NoDup (map fst (s_map s)) -> length m2 <= fuel ->
  distance_loop (K:=K)(V:=V) fuel (IU (MkU d (upos_of d rd (s_epoch s) m2) None)) (iter_end false d) cnt (graft s w)
  = Val (length m2 + cnt) (graft s w).
Proof.
  induction m2 as [|[i n] m2 IH]; intros fuel m1 w cnt F Hm N L.
  - assert (Q : iter_eq (IU (MkU d (@upos_of K V d rd (s_epoch s) []) None)) (iter_end false d) = true)
      by (unfold iter_eq, u_eq; simpl; apply Nat.eqb_refl).
    destruct fuel; cbn [distance_loop]; rewrite Q; reflexivity.
  - destruct fuel as [|fuel]; [simpl in L; lia|]. pose proof (graft_at s F) as A.
    cbn [distance_loop upos_of iter_end iter_eq]. unfold u_eq at 1. cbn [ui_pos unordered_end upos_eqb].
     fv it_u_next.
    erewrite (IH fuel (m1 ++ [(i, n)])); auto; [f_equal; simpl; lia|rewrite <- app_assoc; auto|simpl in L; lia].
Qed.
Lemma distance_o s l2 : forall fuel l1 w cnt, free w -> rep_store E rd s (l1 ++ l2) -> length l2 <= fuel ->
  distance_loop (K:=K)(V:=V) fuel (IO (MkO d (opos_of d rd l2) None)) (iter_end true d) cnt (graft s w)
  = Val (length l2 + cnt) (graft s w).
Proof.
  induction l2 as [|cl l2 IH]; intros fuel l1 w cnt F R L.
  - assert (Q : iter_eq (IO (MkO d (@opos_of K V d rd []) None)) (iter_end true d) = true)
      by (unfold iter_eq, o_eq; simpl; apply Nat.eqb_refl).
    destruct fuel; cbn [distance_loop]; rewrite Q; reflexivity.
  - destruct fuel as [|fuel]; [simpl in L; lia|]. pose proof (graft_at s F) as A.
    cbn [distance_loop opos_of iter_end iter_eq]. unfold o_eq at 1. cbn [oi_pos ordered_end opos_eqb].
     fv it_o_next.
    erewrite (IH fuel (l1 ++ [cl])); auto; [f_equal; simpl; lia|rewrite <- app_assoc; auto|simpl in L; lia].
Qed.
Lemma distance_ev o s l w : free w -> rep_store E rd s l ->
  distance (K:=K)(V:=V) o d (graft s w) = Val (length l) (graft s w).
Proof.
  intros F R. unfold distance. pose proof (graft_at s F) as A. fv size_ev. destruct o.
  - fv it_o_begin.
    erewrite (distance_o (l1 := [])); eauto; [f_equal; lia|rewrite (rep_size R); auto].
  - fv it_u_begin.
    erewrite (distance_u (m1 := [])); eauto; [f_equal; rewrite (rep_size R); lia|eapply rep_map_nodup; eauto].
Qed.

Lemma f_with_new cap ttl (b b' : nat -> M nat) s w : free w ->
  (forall c w', free w' -> framed2 (b c w') (b' c (graft s w')) (fun _ s' => s' = s)) ->
  framed2 (with_new cap ttl b w) (with_new cap ttl b' (graft s w)) (fun _ s' => s' = s).
Proof.
  intros F H. unfold with_new. eapply f_bind; [apply f_lift; [apply (h_new_cache (d:=d))|auto]|].
  intros c s' w' _ F' (-> & N). specialize (H c w' F'). unfold framed2 in H. destruct (b c w') as [a w1|e w1|u|e].
  - destruct H as (H1 & s' & -> & ->). simpl. eauto.
  - destruct H as (H1 & s' & ->).
    assert (X : hoare (A := nat) d rd xd s' (destroy c;;; throw e) top).
    { eapply h_bind; [apply h_destroy|]. intros; apply h_throw. }
    specialize (X w1 H1). revert X. unfold destroy. unfold bind. unfold get_cache. destruct (slot (w_caches w1) c) eqn:Q.
    + simpl. intros (X & Y). rewrite Y. split; auto. eauto.
    + simpl. intros [X|X]; auto.
  - simpl. destruct H as [H| ->]; auto.
  - rewrite H. simpl. auto.
Qed.

(** ** Moving values out of [d] *)

Definition hn (n : mnode) : mnode := MkNode (n_key n) (husk (n_val n)) (n_ord n) (n_time n).
Definition hrow (p : nat * mnode) : nat * mnode := (fst p, hn (snd p)).
Definition with_map m s : store := MkStore m (s_ord s) (s_next s) (s_epoch s).

Lemma take_ev s a i n b w : free w -> s_map s = a ++ (i, n) :: b -> NoDup (map fst (s_map s)) ->
  take husk true (VIn (rd, i)) (graft s w) = Val (n_val n) (graft (with_map (a ++ (i, hn n) :: b) s) w).
Proof.
  intros F Hm N. pose proof (graft_at s F) as A. unfold take, vget.
  assert (D : deref (rd, i) (graft s w) = Val n (graft s w)) by (eapply raw_deref; eauto; apply A).
  rewrite bind_assoc, (bind_val _ _ _ D), bind_ret.
  unfold update_node. cbn [fst snd]. unfold bind.
  erewrite get_store_ev by apply (graft_store s F).
  assert (Q : assoc i (s_map s) = Some n) by (apply in_assoc; auto; rewrite Hm; apply in_elt).
  rewrite Q. unfold put_store, modify, ret. f_equal.
  unfold CopyFrame.graft, with_stores, with_caches. simpl. rewrite upd_upd. do 3 f_equal.
  unfold with_map. f_equal. rewrite Hm, alter_app.
  rewrite Hm, map_app in N. simpl in N. pose proof (NoDup_remove_2 _ _ _ N) as N2.
  rewrite in_app_iff in N2. rewrite alter_none by tauto. f_equal.
  unfold alter at 1. cbn [map fst snd]. rewrite Nat.eqb_refl. f_equal. apply (@alter_none _ b i hn). tauto.
Qed.

Lemma f_emplace c s a i n b w x : free w -> slot (w_caches w) c = Some x -> c_cap x <> 0 ->
  s_map s = a ++ (i, n) :: b -> NoDup (map fst (s_map s)) ->
  framed2 (emplace E c (n_key n) (n_val n) w) (emplace_ref E husk true c (KIn (rd, i)) (VIn (rd, i)) (graft s w))
    (fun _ s' => s' = with_map (a ++ (i, hn n) :: b) s).
Proof.
  intros F Hx Z Hm N. unfold emplace, emplace_ref.
  eapply f_bind; [apply (f_lift (Q := top)); auto; apply h_capacity|].
  cbv beta. intros cap s1 w1 E1 F1 (-> & _).
  assert (Q : cap = c_cap x /\ w1 = w).
  { unfold capacity, bind in E1. erewrite get_cache_ev in E1 by eauto. inversion E1; auto. }
  destruct Q as (-> & ->). apply Nat.eqb_neq in Z. rewrite Z.
  eapply f_bind; [apply (f_lift (Q := top)); auto; apply h_fallible|].
  cbv beta. intros [] s1 w1 _ F2 (-> & _).
  pose proof (graft_at s F2) as A.
  assert (D : deref (rd, i) (graft s w1) = Val n (graft s w1)) by (eapply raw_deref; eauto; apply A).
  assert (Kk : kget (KIn (rd, i)) (graft s w1) = Val (n_key n) (graft s w1)).
  { unfold kget. rewrite (bind_val _ _ _ D). reflexivity. }
  rewrite (bind_val _ _ _ Kk).
  eapply f_bind; [apply (f_lift (Q := top)); auto; apply h_map_find|].
  cbv beta. intros [it|] s1 w2 _ F3 (-> & _).
  - eapply f_bind; [apply (f_lift (Q := top)); auto; apply h_fallible|].
    cbv beta. intros [] s1 w3 _ F4 (-> & _).
    rewrite (bind_val _ _ _ (take_ev F4 Hm N)). cbv beta.
    eapply f_weak; [apply (f_lift (Q := top)); auto|simpl; tauto].
    eapply h_bind; [apply h_mtfv|]. intros _ _. eapply h_bind; [apply h_deref_it|]. intros _ _.
    eapply h_bind; [apply h_set_last|]. intros _ _. apply h_ret; auto.
  - rewrite (bind_val _ _ _ (take_ev F3 Hm N)). cbv beta.
    eapply f_weak; [apply (f_lift (Q := top)); auto|simpl; tauto].
    eapply h_bind; [apply h_timestamp|]. intros t _.
    eapply h_bind; [apply h_map_emplace|]. intros [j fresh] _.
    eapply h_bind; [apply h_insert_new; auto|]. intros q _.
    eapply h_bind; [apply h_set_order|]. intros _ _.
    eapply h_bind with top; [destruct fresh; [apply h_ret; auto|apply h_undef]|]. intros _ _.
    eapply h_bind; [apply h_deref_it|]. intros _ _.
    eapply h_bind; [apply h_set_last|]. intros _ _. apply h_ret; auto.
Qed.

Definition emp_step c (cnt : nat) (p : K * V) : M nat :=
  r <- emplace E c (fst p) (snd p);; ret (if fst r then S cnt else cnt).

Lemma emplace_cap c k v w r w' x : emplace E c k v w = Val r w' -> slot (w_caches w) c = Some x ->
  exists x', slot (w_caches w') c = Some x' /\ c_cap x' = c_cap x.
Proof.
  intros H Hx. pose proof (k_emplace E (fun n _ _ _ => n) (fun _ => false) c k v w) as X.
  rewrite H in X. apply (X c x Hx). reflexivity.
Qed.

Lemma fill_move_u c m2 : forall s fuel m1 w cnt x, free w -> slot (w_caches w) c = Some x -> c_cap x <> 0 ->
  s_map s = m1 ++ m2 -> NoDup (map fst (s_map s)) -> length m2 <= fuel ->
  framed2 (foldM (emp_step c) (map npair m2) cnt w)
          (fill_move_loop E husk fuel c (IU (MkU d (upos_of d rd (s_epoch s) m2) None)) (iter_end false d) cnt (graft s w))
          (fun _ s' => s' = with_map (m1 ++ map hrow m2) s).
Proof.
  induction m2 as [|[i n] m2 IH]; intros s fuel m1 w cnt x F Hx Z Hm N L.
  - assert (Q : iter_eq (IU (MkU d (@upos_of K V d rd (s_epoch s) []) None)) (iter_end false d) = true)
      by (unfold iter_eq, u_eq; simpl; apply Nat.eqb_refl).
    assert (Q2 : s = with_map (m1 ++ []) s) by (rewrite <- Hm; destruct s; reflexivity).
    destruct fuel; cbn [fill_move_loop]; rewrite Q; apply f_ret; auto.
  - destruct fuel as [|fuel]; [simpl in L; lia|]. pose proof (graft_at s F) as A.
    cbn [fill_move_loop upos_of iter_end iter_eq]. unfold u_eq at 1. cbn [ui_pos unordered_end upos_eqb].
    cbn [map foldM]. unfold emp_step at 1. fassoc.
    fv it_u_deref.
    eapply f_bind; [unfold npair; cbn [fst snd]; eapply f_emplace; eauto|].
    cbv beta. intros r s' w' Er F' ->. rewrite bind_ret.
    destruct (emplace_cap Er Hx) as (x' & Hx' & Zx).
    set (s' := with_map (m1 ++ (i, hn n) :: m2) s).
    assert (Hm' : s_map s' = m1 ++ (i, hn n) :: m2) by reflexivity.
    assert (N' : NoDup (map fst (s_map s'))).
    { rewrite Hm'. rewrite Hm in N. rewrite map_app in *. exact N. }
    pose proof (graft_at s' F') as A'. change (s_epoch s) with (s_epoch s').
    rewrite (bind_val _ _ _ (it_u_next (Some (rd, i)) A' Hm' N')).
    eapply f_weak; [apply (IH s' fuel (m1 ++ [(i, hn n)]) w' _ x'); auto|].
    + congruence.
    + rewrite <- app_assoc. auto.
    + simpl in L; lia.
    + simpl. intros _ t ->. unfold s', with_map; simpl. rewrite <- app_assoc. reflexivity.
Qed.

Lemma emplace_cap0 c k v w x : slot (w_caches w) c = Some x -> c_cap x = 0 ->
  emplace E c k v w = Val (false, unordered_end c) w.
Proof.
  intros Hx Z. unfold emplace, capacity, bind. erewrite get_cache_ev by eauto. simpl. rewrite Z. reflexivity.
Qed.
Lemma emplace_ref_cap0 rv c a b w x : slot (w_caches w) c = Some x -> c_cap x = 0 ->
  emplace_ref E husk rv c a b w = Val (false, unordered_end c) w.
Proof.
  intros Hx Z. unfold emplace_ref, capacity, bind. erewrite get_cache_ev by eauto. simpl. rewrite Z. reflexivity.
Qed.
Lemma fill_move_0 c s m2 : forall fuel m1 w cnt x, free w -> c <> d -> slot (w_caches w) c = Some x -> c_cap x = 0 ->
  s_map s = m1 ++ m2 -> NoDup (map fst (s_map s)) -> length m2 <= fuel ->
  framed2 (foldM (emp_step c) (map npair m2) cnt w)
          (fill_move_loop E husk fuel c (IU (MkU d (upos_of d rd (s_epoch s) m2) None)) (iter_end false d) cnt (graft s w))
          (fun _ s' => s' = s).
Proof.
  induction m2 as [|[i n] m2 IH]; intros fuel m1 w cnt x F Nc Hx Z Hm N L.
  - assert (Q : iter_eq (IU (MkU d (@upos_of K V d rd (s_epoch s) []) None)) (iter_end false d) = true)
      by (unfold iter_eq, u_eq; simpl; apply Nat.eqb_refl).
    destruct fuel; cbn [fill_move_loop]; rewrite Q; apply f_ret; auto.
  - destruct fuel as [|fuel]; [simpl in L; lia|]. pose proof (graft_at s F) as A.
    cbn [fill_move_loop upos_of iter_end iter_eq]. unfold u_eq at 1. cbn [ui_pos unordered_end upos_eqb].
    cbn [map foldM]. unfold emp_step at 1. fassoc.
    fv it_u_deref.
    rewrite (bind_val _ _ _ (emplace_cap0 (n_key n) (n_val n) Hx Z)). rewrite bind_ret.
    assert (Hx' : slot (w_caches (graft s w)) c = Some x) by (rewrite graft_slot; auto).
    rewrite (bind_val _ _ _ (emplace_ref_cap0 true _ _ Hx' Z)).
    fv it_u_next.
    apply (IH fuel (m1 ++ [(i, n)]) w _ x); auto; [rewrite <- app_assoc; auto|simpl in L; lia].
Qed.

(** The elements of [d] afterwards. *)
Definition husked (cap : nat) s : store := if Nat.eqb cap 0 then s else with_map (map hrow (s_map s)) s.

Lemma fill_move_framed c s l w x : free w -> c <> d -> slot (w_caches w) c = Some x -> rep_store E rd s l ->
  framed2 (insert_move E c (map npair (s_map s)) w) (fill_move E husk c d (graft s w)) (fun _ s' => s' = husked (c_cap x) s).
Proof.
  intros F Nc Hx R. unfold fill_move. pose proof (graft_at s F) as A. fv size_ev. fv it_u_begin.
  unfold husked. destruct (Nat.eqb_spec (c_cap x) 0) as [Z|Z].
  - eapply (fill_move_0 (m1 := [])); eauto. eapply rep_map_nodup; eauto.
  - eapply (fill_move_u (m1 := [])); eauto. eapply rep_map_nodup; eauto.
Qed.

End Fill.
