(** Caches used as ranges, in worlds that programs reach. *)
From Coq Require Import List Arith ZArith Bool Permutation Lia.
Import ListNotations.
From Verif Require Import Monad Types Model Api Spec SpecIter Ref Lists SimBase SimRel SimOps SimIns SimErase SimIter SimNew SimObs SimExec RefEval SimRun LruProofs CallProofs LruMore Flat Global Safe IterProofs CursorProofs CopyFrame Refs SpecRefs RefsProofs FillFrame.
Set Implicit Arguments.
Unset Strict Implicit.
Local Open Scope cpp_scope.

Section FillProofs.
Context {K V : Type}.
Variable E : env K V.
Hypothesis G : good E.
Variable husk : V -> V.
Variable khusk : K -> K.

Notation world := (world K V).
Notation store := (store K V).
Notation aworld := (aworld K V).
Notation top := (fun _ => True).
Implicit Types (w : world) (s : store) (aw : aworld) (o : op K V).
Notation rexec := (rexec E husk khusk).

(** The world without cache [d]. *)
Lemma split_world w d x : reachable E w -> slot (w_caches w) d = Some x ->
  exists w0 aw a s l, free d (c_rid x) w0 /\ w = graft d (c_rid x) x s w0 /\ reachable E w0 /\
    rel E w aw /\ slot (aw_caches aw) d = Some a /\ at_ w d x s /\ rep E x s a l /\
    (forall c, c <> d -> slot (w_caches w0) c = slot (w_caches w) c).
Proof.
  intros H Hx. destruct (reach_rel G H) as (aw & R). destruct (rel_get' _ R Hx) as (a & s & l & Ha & At & Rp).
  pose proof (slot_lt _ _ Hx) as L1. pose proof (slot_lt _ _ (proj2 At)) as L2.
  set (w0 := with_stores (fun ss => upd ss (c_rid x) None) (with_caches (fun cs => upd cs d None) w)).
  assert (D : destroy d w = Val tt w0).
  { unfold destroy, bind, get_cache. rewrite Hx. reflexivity. }
  exists w0, aw, a, s, l. split; [|split; [|split; [|split; [auto|split; [auto|split; [auto|split; [auto|]]]]]]].
  - constructor; simpl.
    + rewrite slot_upd_lt; auto.
    + rewrite slot_upd_lt; auto.
    + rewrite upd_length; auto.
    + rewrite upd_length; auto.
    + intros c y Hy. destruct (Nat.eq_dec d c) as [<-|N].
      * rewrite slot_upd_lt in Hy by auto. discriminate.
      * rewrite slot_upd_other in Hy by auto. intro Q. apply N. symmetry. eapply (rel_inj R); eauto.
  - unfold w0, graft, with_stores, with_caches. destruct w; simpl in *. rewrite !upd_upd.
    rewrite (upd_slot _ _ Hx). pose proof (proj2 At) as Hs. simpl in Hs. rewrite (upd_slot _ _ Hs). reflexivity.
  - apply (@reach_return _ _ E w (Destroy d) RUnit w0 H); [reflexivity|]. unfold exec. simpl. rewrite (at_alive At).
    unfold bind. rewrite D. reflexivity.
  - intros c N. simpl. rewrite slot_upd_other; auto.
Qed.

Lemma elements_inv ord d w x s a l u : at_ w d x s -> rep E x s a l -> elements E ord d w u -> u = listed ord s l.
Proof.
  intros At Rp. unfold elements, listed. destruct ord.
  - unfold exec. simpl. rewrite (at_alive At). cbn [body]. unfold bind.
    rewrite (traverse_ordered_ev G At (rp_store Rp)). intros H. inversion H; auto.
  - intros H. eapply hash_order_at; eauto. apply (rp_store Rp).
Qed.
Lemma elements_alive ord d w u : elements E ord d w u -> exists x, slot (w_caches w) d = Some x.
Proof.
  unfold elements, exec, well_formed, alive. destruct ord; destruct (slot (w_caches w) d); eauto; discriminate.
Qed.

(** If [m] is defined without [d] and [m'] does to the world with [d] what [m] does. *)
Lemma join A (m m' : M world A) d x s w0 : hoare d (c_rid x) x s m top -> free d (c_rid x) w0 ->
  framed2 d x (m w0) (m' (graft d (c_rid x) x s w0)) (fun _ s' => s' = s) ->
  match m w0 with Val _ _ => True | _ => False end ->
  m' (graft d (c_rid x) x s w0) = m (graft d (c_rid x) x s w0).
Proof.
  intros H F J D. specialize (H _ F). unfold framed, framed2 in *. destruct (m w0); try easy.
  destruct J as (_ & s' & -> & ->). destruct H as (_ & _ & ->). reflexivity.
Qed.

Lemma graft_alive d x s w c : c <> d -> alive (graft d (c_rid x) x s w) c = alive w c.
Proof. intros N. unfold alive. rewrite graft_slot; auto. Qed.
Lemma insert_range_defined w c l : reachable E w -> alive w c = true ->
  match insert_range E c l w with Val _ _ => True | _ => False end.
Proof.
  intros H A. destruct (insert_range_result G (puts_lvalue c l) H A) as (w' & outs & w1 & X & _).
  unfold exec in X. simpl in X. rewrite A in X. unfold bind in X. destruct (insert_range E c l w); auto; discriminate.
Qed.

(** c.insert(d.begin(), d.end()) *)
Theorem fill_result w ord c d l : reachable E w -> c <> d -> elements E ord d w l ->
  rexec (PFill ord c d) w = exec E (InsertRange c l) w.
Proof.
  intros H N El. destruct (elements_alive El) as (x & Hx).
  destruct (split_world H Hx) as (w0 & aw & a & s & cs & F & -> & H0 & R & Ha & At & Rp & O).
  pose proof (elements_inv At Rp El) as ->.
  unfold Refs.rexec, exec. simpl. rewrite (at_alive At), andb_true_r, graft_alive by auto.
  destruct (alive w0 c) eqn:Ac; auto.
  unfold bind. rewrite (@join _ (insert_range E c (listed ord s cs)) (fill E ord c d) d x s w0); auto.
  - apply h_insert_range.
  - apply fill_framed; auto. apply (rp_store Rp).
  - apply insert_range_defined; auto.
Qed.

(** Constructors *)
Lemma new_from_defined w cap ttl l : reachable E w ->
  match new_from E cap ttl l w with Val _ _ => True | _ => False end.
Proof.
  intros H. destruct (build_result G (builds_from ttl cap l) H) as (c & w' & X & _).
  unfold exec in X. simpl in X. unfold bind in X. destruct (new_from E cap ttl l w); auto; discriminate.
Qed.
Lemma new_filled_eq w0 ord cap ttl d x s cs : reachable E w0 -> free d (c_rid x) w0 -> rep_store E (c_rid x) s cs ->
  new_filled E ord cap ttl d (graft d (c_rid x) x s w0) = new_from E cap ttl (listed ord s cs) (graft d (c_rid x) x s w0).
Proof.
  intros H F R. apply join; auto.
  - apply h_new_from.
  - apply f_with_new; auto. intros c w' F'. apply fill_framed; auto.
  - apply new_from_defined; auto.
Qed.
Theorem new_filled_result w ord cap ttl d l : reachable E w -> elements E ord d w l ->
  rexec (PNewFilled ord cap ttl d) w = exec E (NewFrom cap ttl l) w.
Proof.
  intros H El. destruct (elements_alive El) as (x & Hx).
  destruct (split_world H Hx) as (w0 & aw & a & s & cs & F & -> & H0 & R & Ha & At & Rp & O).
  pose proof (elements_inv At Rp El) as ->.
  unfold Refs.rexec, exec. simpl. rewrite (at_alive At).
  unfold bind. erewrite new_filled_eq; eauto. apply (rp_store Rp).
Qed.
Lemma listed_length ord s (cs : list cell) r : rep_store E r s cs -> length (listed ord s cs) = length cs.
Proof.
  intros R. unfold listed. destruct ord; rewrite map_length; [apply map_length|apply (rep_size R)].
Qed.
Theorem new_direct_result w ord ttl d l : reachable E w -> elements E ord d w l ->
  rexec (PNewDirect ord ttl d) w = exec E (NewIters ttl l) w.
Proof.
  intros H El. destruct (elements_alive El) as (x & Hx).
  destruct (split_world H Hx) as (w0 & aw & a & s & cs & F & -> & H0 & R & Ha & At & Rp & O).
  pose proof (elements_inv At Rp El) as ->. pose proof (rp_store Rp) as RS.
  unfold Refs.rexec, exec. simpl. rewrite (at_alive At).
  unfold new_direct, new_from_iters. rewrite (listed_length ord RS). unfold bind.
  erewrite distance_ev by eauto. erewrite new_filled_eq; eauto.
Qed.
Theorem copy_direct_result w d l : reachable E w -> timed w d = false -> elements E false d w l ->
  rexec (PCopyDirect d) w = exec E (NewIters None l) w.
Proof.
  intros H T El. rewrite <- (new_direct_result None H El).
  unfold Refs.rexec. simpl. rewrite T. rewrite andb_true_r. reflexivity.
Qed.

(** Assignment from a const cache of another type *)
Lemma assign_range_defined w c l : reachable E w -> alive w c = true ->
  match assign_range E c l w with Val _ _ => True | _ => False end.
Proof.
  intros H A. destruct (reach_rel G H) as (aw & R). destruct (alive_inv R A) as (a & Ha).
  destruct (assign_result G (assigns_lvalue c l) H (contents_of G R Ha) (capacity_of R Ha)) as (w' & X & _).
  unfold exec in X. simpl in X. rewrite A in X. unfold bind in X. destruct (assign_range E c l w); auto; discriminate.
Qed.

Lemma f_clear_grow c d x s cs w0 : free d (c_rid x) w0 -> rep_store E (c_rid x) s cs ->
  framed2 d x (clear_and_increase_capacity c (length cs) w0) (clear_and_grow c d (graft d (c_rid x) x s w0)) (fun _ s' => s' = s).
Proof.
  intros F R. unfold clear_and_increase_capacity, clear_and_grow.
  eapply f_bind; [apply f_lift; [apply h_clear|auto]|].
  cbv beta. intros [] s' w1 _ F1 (-> & _). rewrite (bind_val _ _ _ (distance_ev false F1 R)).
  eapply f_weak; [apply f_lift; [|auto]|simpl; tauto].
  eapply (h_bind (Q := fun x0 => c <> d /\ c_rid x0 <> c_rid x)); [|].
  - eapply h_weak; [apply h_get_cache|]. simpl. tauto.
  - intros y (N1 & N2). destruct (Nat.ltb (c_cap y) (length cs)); [apply h_put_cache; auto|apply h_ret; auto].
Qed.

Theorem assign_const_result w c d l : reachable E w -> c <> d -> xorb (timed w c) (timed w d) = true ->
  elements E false d w l -> rexec (PAssignConst c d) w = exec E (AssignRange c l) w.
Proof.
  intros H N T El. destruct (elements_alive El) as (x & Hx).
  destruct (split_world H Hx) as (w0 & aw & a & s & cs & F & -> & H0 & R & Ha & At & Rp & O).
  pose proof (elements_inv At Rp El) as ->. pose proof (rp_store Rp) as RS.
  unfold Refs.rexec, exec. cbn [rwell_formed well_formed]. rewrite T, (at_alive At), !andb_true_r, graft_alive by auto.
  destruct (alive w0 c) eqn:Ac; auto. cbn [rbody body].
  unfold bind. rewrite (@join _ (assign_range E c (listed false s cs)) (assign_const E c d) d x s w0); auto.
  - apply h_assign_range.
  - unfold assign_range, assign_const. rewrite (listed_length false RS).
    eapply f_bind; [apply f_clear_grow; auto|]. cbv beta. intros [] s' w1 _ F1 ->.
    eapply f_bind; [apply fill_framed; auto|]. cbv beta. intros n s' w2 _ F2 ->. apply f_ret; auto.
  - apply assign_range_defined; auto.
Qed.

(** ** Moving out of [d] *)

Lemma graft_hollow d x s w : d < length (w_caches w) -> c_rid x < length (w_stores w) ->
  graft d (c_rid x) x (with_map (map (hrow husk) (s_map s)) s) w = hollow husk d (graft d (c_rid x) x s w).
Proof.
  intros L1 L2. unfold hollow. simpl. rewrite slot_upd_lt by auto. simpl.
  unfold graft, with_stores, with_caches. simpl. rewrite upd_upd, slot_upd_lt by auto. reflexivity.
Qed.
Lemma free_hollow d x s w : free d (c_rid x) w ->
  graft d (c_rid x) x (with_map (map (hrow husk) (s_map s)) s) w = hollow husk d (graft d (c_rid x) x s w).
Proof. intros F. apply graft_hollow; apply F. Qed.

Lemma join_move A (m m' : M world A) d x s w0 f : hoare d (c_rid x) x s m top -> free d (c_rid x) w0 ->
  framed2 d x (m w0) (m' (graft d (c_rid x) x s w0)) (fun _ s' => s' = f s) ->
  match m w0 with Val _ _ => True | _ => False end ->
  exists r w1, free d (c_rid x) w1 /\ m (graft d (c_rid x) x s w0) = Val r (graft d (c_rid x) x s w1) /\
    m' (graft d (c_rid x) x s w0) = Val r (graft d (c_rid x) x (f s) w1).
Proof.
  intros H F J D. specialize (H _ F). unfold framed, framed2 in *. destruct (m w0); try easy.
  destruct J as (_ & s' & -> & ->). destruct H as (F1 & _ & ->). eauto.
Qed.

Lemma insert_move_defined w c l : reachable E w -> alive w c = true ->
  match insert_move E c l w with Val _ _ => True | _ => False end.
Proof.
  intros H A. destruct (insert_range_result G (puts_rvalue c l) H A) as (w' & outs & w1 & X & _).
  unfold exec in X. simpl in X. rewrite A in X. unfold bind in X. destruct (insert_move E c l w); auto; discriminate.
Qed.

(** c.insert(std::move(d)) *)
Theorem fill_move_result w c d l n : reachable E w -> c <> d -> elements E false d w l -> capacity_is E c w n ->
  exists r w1, exec E (InsertMove c l) w = Val r w1 /\
    rexec (PFillMove c d) w = Val r (if Nat.eqb n 0 then w1 else hollow husk d w1).
Proof.
  intros H N El Cap. destruct (elements_alive El) as (x & Hx).
  destruct (split_world H Hx) as (w0 & aw & a & s & cs & F & -> & H0 & R & Ha & At & Rp & O).
  pose proof (elements_inv At Rp El) as ->. pose proof (rp_store Rp) as RS.
  assert (Ac : alive w0 c = true).
  { rewrite <- (graft_alive x s w0 N). unfold capacity_is, exec in Cap. simpl in Cap.
    destruct (alive _ c); auto; discriminate. }
  unfold alive in Ac. destruct (slot (w_caches w0) c) as [y|] eqn:Hy; [|discriminate].
  assert (Cn : c_cap y = n).
  { unfold capacity_is, exec in Cap. simpl in Cap. rewrite graft_alive in Cap by auto. unfold alive in Cap. rewrite Hy in Cap.
    unfold capacity, bind, get_cache in Cap. rewrite graft_slot in Cap by auto. rewrite Hy in Cap.
    inversion Cap; auto. }
  unfold Refs.rexec, exec. cbn [rwell_formed well_formed rbody body]. rewrite (at_alive At), !andb_true_r, graft_alive by auto.
  unfold alive. rewrite Hy.
  destruct (@join_move _ (insert_move E c (listed false s cs)) (fill_move E husk c d) d x s w0 (husked husk (c_cap y)))
    as (r & w1 & F1 & Q1 & Q2); auto.
  - apply h_insert_move.
  - eapply fill_move_framed; eauto.
  - apply insert_move_defined; auto. unfold alive. rewrite Hy. auto.
  - unfold bind. rewrite Q1, Q2. exists (RNat r), (graft d (c_rid x) x s w1). split; auto. unfold ret, husked. rewrite Cn.
    destruct (Nat.eqb n 0); auto. rewrite free_hollow; auto.
Qed.

End FillProofs.
