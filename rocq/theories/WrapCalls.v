(** Wrapped functions: what calls do. *)
From Coq Require Import List Arith ZArith Bool Permutation Lia.
Import ListNotations.
From Verif Require Import Monad Types Model Api Spec SpecStats SpecTimed Ref Lists SimBase SimRel SimOps SimIns SimErase SimIter SimNew SimObs SimExec RefEval SimRun LruProofs CallProofs LruMore TimedTrack TimedProofs PairProofs Wrap SpecWrap WrapProofs WrapRun WrapSteps WrapKeep.
Set Implicit Arguments.
Unset Strict Implicit.
Local Open Scope cpp_scope.

Section Calls.
Context {K V : Type}.
Variable E : env K V.
Hypothesis G : good E.
Variable F : nat -> nat -> K -> fbody K V.

Notation acache := (acache K V).
Notation aworld := (aworld K V).
Notation wworld := (wworld K V).
Notation entry := (entry K V).
Notation winv := (winv E).
Notation steps := (steps E F).
Implicit Types (a : acache) (aw : aworld) (w : wworld) (o : wobj) (e : entry).

(** *** One call *)
Lemma call_open d w aw i o cat k c a : winv w aw -> closure w i o ->
  find_static (static_of o cat) (ww_statics w) = Some c -> slot (aw_caches aw) c = Some a ->
  match served_now E a k (aw_reads aw) with
  | Some e => exists x, call_wrapped E F (S d) i cat k w = Val (e_val e) (set_world x (asked (static_of o cat) k w))
  | None => exists x aw', winv (counted_call (set_world x (asked (static_of o cat) k w))) aw' /\
      call_wrapped E F (S d) i cat k w =
      (v <- run_body (call_wrapped E F d) (F (wo_fun o) (ww_calls w) k);;
       note_result (wo_fun o) k v;;; lift (emplace E c k v);;; ret v)
        (counted_call (set_world x (asked (static_of o cat) k w)))
  end.
Proof.
  intros I Ho Sc Ha. set (w1 := asked (static_of o cat) k w).
  assert (I1 : winv w1 aw) by (apply (winv_same I); auto).
  assert (T : the_cache o cat w1 = Val c w1).
  { destruct (the_cache_ev G o cat I1) as [(c' & Sc' & Ev)|[(Sn & _)|(Sn & _)]];
      change (ww_statics w1) with (ww_statics w) in *; congruence. }
  destruct (find_step G k I1 Ha) as (it & x & aw3 & Ev & R3 & D & Rd3).
  assert (Q : call_wrapped E F (S d) i cat k w =
    (if negb (u_eq it (unordered_end c)) then lift ('(p, _) <- u_deref it;; n <- deref p;; ret (n_val n))
     else n <- count_call (K := K) (V := V);; v <- run_body (call_wrapped E F d) (F (wo_fun o) n k);;
       note_result (wo_fun o) k v;;; lift (emplace E c k v);;; ret v) (set_world x w1)).
  { simpl. unfold bind at 1, get_obj. red in Ho. rewrite Ho. unfold bind at 1, note_asked, modify.
    change (MkWW (ww_world w) (ww_statics w) (ww_objs w) (ww_vars w) ((static_of o cat, k) :: ww_asked w)
            (ww_results w) (ww_calls w)) with w1.
    unfold bind at 1. rewrite T. unfold bind at 1. rewrite (lift_val Ev). reflexivity. }
  rewrite Q. destruct (served_now E a k (aw_reads aw)) as [e|].
  - destruct D as (_ & U3 & D3). rewrite U3. exists x. cbn [negb].
    rewrite (lift_val (w := set_world x w1) D3). reflexivity.
  - destruct D as (C3 & U3). rewrite U3. exists x, aw3. split; [|reflexivity].
    apply (winv_same (w := set_world x w1)); auto.
    apply (winv_step (aw := aw) (c := c) (a' := a)); auto. rewrite C3. symmetry. apply upd_slot. auto.
Qed.

(** A call that finds nothing calls the original function. *)
Lemma call_calls d w aw i o cat k c a : winv w aw -> closure w i o ->
  find_static (static_of o cat) (ww_statics w) = Some c -> slot (aw_caches aw) c = Some a ->
  served_now E a k (aw_reads aw) = None ->
  match call_wrapped E F (S d) i cat k w with
  | Val _ w' | Exc _ w' => ww_calls w < ww_calls w'
  | _ => True
  end.
Proof.
  intros I Ho Sc Ha SV. pose proof (call_open d k I Ho Sc Ha) as Q. rewrite SV in Q.
  destruct Q as (x & aw1 & I1 & ->).
  set (w1 := counted_call (set_world x (asked (static_of o cat) k w))) in *.
  assert (N1 : ww_calls w1 = S (ww_calls w)) by reflexivity. clearbody w1.
  pose proof (body_ind (P := fun _ _ => True) (Q := fun _ _ _ => True) (R := fun _ _ _ _ _ _ => True) (H := any)
    (call := call_wrapped E F d) (F (wo_fun o) (ww_calls w) k)
    (fun i cat k w aw J _ => call_ind G (steps_true E F) d i cat k J Logic.I) I1 Logic.I) as B.
  unfold bind at 1. destruct (run_body (call_wrapped E F d) (F (wo_fun o) (ww_calls w) k) w1) as [v w2|y w2|u|]; auto.
  - destruct B as (aw2 & I2 & _ & X2 & _). unfold bind at 1, note_result, modify.
    pose proof (ext_calls X2) as N2. unfold bind at 1, lift.
    destruct (emplace E c k v _) as [r x3|y x3| |]; simpl; auto; lia.
  - destruct B as (aw2 & I2 & _ & X2 & _). pose proof (ext_calls X2) as N2. lia.
Qed.

(** The first call creates the cache. *)
Lemma call_first d w aw i o cat k ttl cap : winv w aw -> closure w i o ->
  find_static (static_of o cat) (ww_statics w) = None -> refers w (wo_ttl o) ttl -> refers w (wo_cap o) cap ->
  match call_wrapped E F d i cat k w with
  | Val _ w' | Exc _ w' => exists aw' c, winv w' aw' /\ const (static_of o cat) c (capacity_arg cap) ttl w' aw'
  | _ => True
  end.
Proof.
  intros I Ho Sn Rt Rc. destruct d as [|d]; [exact Logic.I|].
  set (w1 := asked (static_of o cat) k w).
  assert (I1 : winv w1 aw) by (apply (winv_same I); auto).
  assert (SS : static_eqb (static_of o cat) (static_of o cat) = true) by (apply static_eqb_eq; auto).
  destruct (the_cache_ev G o cat I1) as [(c & Sc & Ev)|[(_ & _ & B)|(_ & ttl' & cap' & x & aw2 & R1 & R2 & Ev & I2 & Q2 & Rd2)]].
  { change (ww_statics w1) with (ww_statics w) in *; congruence. }
  { exfalso. eapply B; eauto. }
  assert (ttl' = ttl).
  { unfold refers in R1, Rt. destruct (wo_ttl o), ttl', ttl; try easy. simpl in R1. congruence. }
  assert (cap' = cap).
  { unfold refers in R2, Rc. destruct (wo_cap o), cap', cap; try easy. simpl in R2. congruence. }
  subst ttl' cap'.
  set (c := length (aw_caches aw)) in *. set (w2 := with_static (static_of o cat) c x w1) in *.
  assert (C2 : const (static_of o cat) c (capacity_arg cap) ttl w2 aw2).
  { split; [unfold w2; simpl ww_statics; rewrite find_static_cons, SS; auto|].
    exists (fresh_a (capacity_arg cap) ttl). rewrite Q2. split; auto. apply slot_app_new. }
  pose proof C2 as (Sc & a & Ha & Cc).
  assert (St := const_steps E F (static_of o cat) c (capacity_arg cap) ttl).
  assert (Ho2 : closure w2 i o) by exact Ho.
  destruct (find_step G k I2 Ha) as (it & y & aw3 & Ev3 & R3 & D & Rd3).
  assert (Sf : served_now E a k (aw_reads aw2) = None).
  { assert (a = fresh_a (capacity_arg cap) ttl) as ->; [|reflexivity].
    rewrite Q2 in Ha. unfold c in Ha. rewrite slot_app_new in Ha. congruence. }
  rewrite Sf in D. destruct D as (C3 & U3).
  assert (I3 : winv (set_world y w2) aw3).
  { apply (winv_step (aw := aw2) (c := c) (a' := a)); auto. rewrite C3. symmetry. apply upd_slot. auto. }
  set (w3 := counted_call (set_world y w2)).
  assert (I3' : winv w3 aw3) by (apply (winv_same I3); auto).
  assert (C3' : const (static_of o cat) c (capacity_arg cap) ttl w3 aw3) by (exact (P_miss St I2 C2 Sc Ha Sf I3 C3 Rd3)).
  assert (Q : call_wrapped E F (S d) i cat k w =
      (v <- run_body (call_wrapped E F d) (F (wo_fun o) (ww_calls w) k);;
       note_result (wo_fun o) k v;;; lift (emplace E c k v);;; ret v) w3).
  { simpl. unfold bind at 1, get_obj. red in Ho. rewrite Ho. unfold bind at 1, note_asked, modify.
    change (MkWW (ww_world w) (ww_statics w) (ww_objs w) (ww_vars w) ((static_of o cat, k) :: ww_asked w)
            (ww_results w) (ww_calls w)) with w1.
    unfold bind at 1. rewrite Ev. fold w2. unfold bind at 1. rewrite (lift_val Ev3). rewrite U3. reflexivity. }
  rewrite Q. clear Q.
  pose proof (body_ind (F (wo_fun o) (ww_calls w) k)
    (fun i cat k w aw J C => call_ind G St d i cat k J C) I3' C3') as B.
  unfold bind at 1. destruct (run_body (call_wrapped E F d) (F (wo_fun o) (ww_calls w) k) w3) as [v w4|z w4|u|]; auto.
  - destruct B as (aw4 & I4 & (Sc4 & a4 & Ha4 & Cc4) & X4 & _ & M4). unfold bind at 1, note_result, modify.
    change (MkWW (ww_world w4) (ww_statics w4) (ww_objs w4) (ww_vars w4) (ww_asked w4)
        ((wo_fun o, k, v) :: ww_results w4) (ww_calls w4)) with (resulted (wo_fun o) k v w4).
    assert (I4' : winv (resulted (wo_fun o) k v w4) aw4) by (apply (winv_same I4); auto).
    destruct (store_step G k v I4' Ha4) as (r & x5 & aw5 & Ev5 & R5 & C5 & Rd5 & Rt5).
    unfold bind at 1. rewrite (lift_val Ev5). simpl. exists aw5, c. split; [eapply winv_step; eauto|].
    split; [exact Sc4|]. rewrite C5, (slot_upd_same _ _ _ Ha4). eexists. split; [reflexivity|].
    rewrite insert_cap, insert_ttl. auto.
  - destruct B as (aw4 & I4 & C4 & _). eauto.
Qed.

(** *** C47 *)
Section Values.
Variable val : nat -> K -> answer V.
Hypothesis val_eq : forall i k k', key_equal E k k' = true -> val i k = val i k'.
Variable objs : list wobj.
Hypothesis val_F : forall i o n k, nth_error objs i = Some o -> settles val (F (wo_fun o) n k) (val i k).
Hypothesis val_type : forall i j o o' k, nth_error objs i = Some o -> nth_error objs j = Some o' -> same_type o o' ->
  val i k = val j k.

Lemma settles_det b : forall r r', settles val b r -> settles val b r' -> r = r'.
Proof.
  induction b as [v|n|i cat k go_on IH]; intros r r' H1 H2; inversion H1; inversion H2; subst; auto; try congruence.
  match goal with A : val i k = inl ?v, B : val i k = inl ?v' |- _ => assert (v' = v) by congruence; subst end.
  eapply IH; eauto.
Qed.
Lemma may_settles b r : may (fun i k r => val i k = r) b r -> settles val b r.
Proof. induction 1; eauto using settles_return, settles_raise, settles_ask, settles_ask_raise. Qed.

Definition value_ok (s : static) k v : Prop :=
  forall i o cat, nth_error objs i = Some o -> static_of o cat = s -> val i k = inl v.
Definition prefix w : Prop := exists rest, objs = ww_objs w ++ rest.
Lemma prefix_closure w i o : prefix w -> closure w i o -> nth_error objs i = Some o.
Proof. intros (rest & ->) H. rewrite nth_error_app1; auto. apply nth_error_Some. red in H. congruence. Qed.
Lemma static_same o o' cat cat' : static_of o cat = static_of o' cat' -> same_type o o' /\ cat = cat'.
Proof. unfold static_of, same_type. intros H. inversion H. auto. Qed.

Lemma value_steps : steps (all_elements (fun _ => value_ok) prefix) (fun i k r => val i k = r)
  (fun i cat k v w aw => forall o, closure w i o -> value_ok (static_of o cat) k v) any.
Proof.
  apply (elements_steps G (S := fun _ => value_ok)).
  - auto.
  - intros w s k k' v Q H i o cat Ho Hs. rewrite <- (val_eq i Q). eauto.
  - intros w w' Q (rest & H). exists rest. congruence.
  - intros w i o cat k v Hp Ho H. eapply H; eauto. eapply prefix_closure; eauto.
  - intros w i o cat k n v Hp Ho My _.
    assert (Hv : val i k = inl v).
    { eapply settles_det; [eapply val_F; eapply prefix_closure; eauto|]. apply may_settles. eauto. }
    split; auto. intros j o' cat' Ho' Hs. rewrite <- Hv. eapply val_type; eauto; [eapply prefix_closure; eauto|].
    apply static_same in Hs. tauto.
  - intros w i o k n x Hp Ho My. eapply settles_det; [eapply val_F; eapply prefix_closure; eauto|].
    apply may_settles. eauto.
Qed.

Definition elems w aw : Prop :=
  forall s c a e, find_static s (ww_statics w) = Some c -> slot (aw_caches aw) c = Some a -> In e (a_ents a) ->
                  value_ok s (e_key e) (e_val e).

Definition right_answer (p : wop K) (out : woutcome V) : Prop :=
  forall i cat k, p = CallWrapped i cat k -> out = WReturned WIll \/ out = answered (val i k).
Lemma step_values depth p w aw : winv w aw -> prefix w -> elems w aw ->
  match wexec E F depth p w with
  | Val r w1 => exists aw1, winv w1 aw1 /\ elems w1 aw1 /\ right_answer p (WReturned r)
  | Exc x w1 => exists aw1, winv w1 aw1 /\ elems w1 aw1 /\ right_answer p (WThrew x)
  | _ => True
  end.
Proof.
  intros I Pf El. destruct (is_call p) as [(i & cat & k & ->)|N].
  - unfold wexec. simpl wop_well_formed. destruct (Nat.ltb_spec i (length (ww_objs w))) as [L|L].
    + simpl. unfold bind. pose proof (call_ind G value_steps depth i cat k I (conj Pf El)) as C.
      destruct (call_wrapped E F depth i cat k w) as [v w'|x w'|u|x]; simpl in C; auto.
      * destruct C as (aw' & I' & (_ & P') & X & N & Q' & R'). exists aw'. split; auto. split; auto.
        intros i' cat' k' Q. inversion Q; subst. right. simpl. rewrite Q'. auto.
      * destruct C as (aw' & I' & (_ & P') & X & N & Q'). exists aw'. split; auto. split; auto.
        intros i' cat' k' Q. inversion Q; subst. right. simpl. rewrite Q'. auto.
    + exists aw. split; auto. split; auto. intros i' cat' k' Q. auto.
  - destruct (exec_other E F depth w N) as (r & w' & Ev & O). rewrite Ev. exists aw.
    split; [eapply winv_other; eauto|]. split.
    + intros s c a e Hs. rewrite (ot_statics O) in Hs. eauto.
    + intros i cat k Q. exfalso. eapply N; eauto.
Qed.

Lemma run_values depth l : forall w aw outs w', winv w aw -> elems w aw ->
  wrun E F depth l w = WFinished outs w' -> ww_objs w' = objs ->
  forall n p out, nth_error l n = Some p -> nth_error outs n = Some out -> right_answer p out.
Proof.
  induction l as [|p l IH]; intros w aw outs w' I El Rn Ob; [intros [|n] q out Hn; discriminate Hn|].
  assert (X := run_ind G (steps_true E F) (allowed := fun _ => True) (depth := depth)
    (fun _ _ _ _ _ _ _ _ _ _ _ => Logic.I) (l := p :: l) I Logic.I (proj2 (Forall_forall _ _) (fun _ _ => Logic.I))).
  rewrite Rn in X. destruct X as (_ & _ & _ & X & _).
  assert (Pf : prefix w) by (destruct (we_objs X) as (rest & Q); exists rest; congruence).
  pose proof (step_values depth p I Pf El) as Y. simpl in Rn.
  destruct (wexec E F depth p w) as [r w1|x w1|u|x]; try discriminate Rn.
  - destruct Y as (aw1 & I1 & El1 & Ra). destruct (wrun E F depth l w1) as [outs1 w2| |] eqn:R1; try discriminate Rn.
    inversion Rn; subst. intros [|n] q out; simpl; [|eapply IH; eauto].
    intros Q1 Q2. inversion Q1; inversion Q2; subst. auto.
  - destruct Y as (aw1 & I1 & El1 & Ra). destruct (wrun E F depth l w1) as [outs1 w2| |] eqn:R1; try discriminate Rn.
    inversion Rn; subst. intros [|n] q out; simpl; [|eapply IH; eauto].
    intros Q1 Q2. inversion Q1; inversion Q2; subst. auto.
Qed.
End Values.

(** Every call of a wrapped function does what the original function does, if
    closures of the same type do the same. *)
Theorem deterministic depth val ops outs w :
  (forall i k k', key_equal E k k' = true -> val i k = val i k') ->
  wrun E F depth ops init_wworld = WFinished outs w ->
  (forall i o n k, closure w i o -> settles val (F (wo_fun o) n k) (val i k)) ->
  (forall i j o o' k, closure w i o -> closure w j o' -> same_type o o' -> val i k = val j k) ->
  forall n i cat k out, nth_error ops n = Some (CallWrapped i cat k) -> nth_error outs n = Some out ->
    out <> WReturned WIll -> out = answered (val i k).
Proof.
  intros Ve Rn Vf Vt n i cat k out Q1 Q2 N.
  destruct (run_values (val := val) Ve (objs := ww_objs w) Vf Vt (depth := depth) (winv_init E) (w' := w) (outs := outs) (l := ops))
    with (n := n) (p := CallWrapped i cat k) (out := out) (i := i) (cat := cat) (k := k) as [?|?]; auto; [|congruence].
  intros s c a e Hs. discriminate Hs.
Qed.

(** *** C49 *)
Definition from_results w (s : static) k v : Prop :=
  exists f k' j o' cat, In (f, k', v) (ww_results w) /\ key_equal E k k' = true /\
    closure w j o' /\ static_of o' cat = s /\ wo_fun o' = f.
Lemma closure_wext w w' i o : wext w w' -> closure w i o -> closure w' i o.
Proof.
  intros X H. destruct (we_objs X) as (l & Q). red. rewrite Q, nth_error_app1; auto.
  apply nth_error_Some. red in H. congruence.
Qed.
Lemma from_steps : steps (all_elements from_results (fun _ => True)) (fun _ _ _ => True)
  (fun i cat k v w aw => forall o, closure w i o -> from_results w (static_of o cat) k v) any.
Proof.
  apply (elements_steps G (S := from_results)); auto.
  - intros w w' s k v X (f & k' & j & o' & cat & H1 & H2 & H3 & H4 & H5). exists f, k', j, o', cat.
    split; [|eauto using closure_wext]. destruct (we_results X) as (l & Q). rewrite Q. apply in_or_app; auto.
  - intros w s k k2 v Q (f & k' & j & o' & cat & H1 & H2 & H3). exists f, k', j, o', cat. split; auto. split; auto.
    apply (good_trans G _ k _); auto. rewrite (good_sym G). auto.
  - intros w i o cat k n v _ Ho _ Hr. split; auto. exists (wo_fun o), k, i, o, cat.
    split; auto. split; [apply (ke_refl G)|]. auto.
Qed.
Lemma from_reach depth w : wreachable E F depth w -> exists aw, winv w aw /\ all_elements from_results (fun _ => True) w aw.
Proof.
  intros (ops & outs & Rn).
  assert (X := run_ind G from_steps (allowed := fun _ => True) (depth := depth)). 
  assert (O : forall w aw p r w', winv w aw -> all_elements from_results (fun _ => True) w aw -> True ->
    wexec E F depth p w = Val r w' -> (forall i cat k, p <> CallWrapped i cat k) -> other w w' ->
    all_elements from_results (fun _ => True) w' aw).
  { clear. intros w aw p r w' I (_ & H) _ _ _ O. split; auto. intros s c a e Hs Ha He. rewrite (ot_statics O) in Hs.
    destruct (H s c a e Hs Ha He) as (f & k' & j & o' & cat & H1 & H2 & H3 & H4). exists f, k', j, o', cat.
    split; [rewrite (ot_results O); auto|]. split; auto. split; auto. eapply closure_other; eauto. }
  specialize (X O ops init_wworld init_aw (winv_init E)). rewrite Rn in X. destruct X as (aw & I & P & _); eauto.
  - split; auto. intros s c a e Hs. discriminate Hs.
  - apply Forall_forall. auto.
Qed.

Theorem own_results depth w i cat k v w' o : wreachable E F depth w -> returns E F depth i cat k w v w' ->
  closure w i o -> computed E w' o k v.
Proof.
  intros Re Rt Ho. destruct (from_reach Re) as (aw & I & P). unfold returns, wexec in Rt.
  destruct (wop_well_formed w (CallWrapped i cat k)); [|discriminate Rt]. simpl in Rt. unfold bind in Rt.
  pose proof (call_ind G from_steps depth i cat k I P) as C.
  destruct (call_wrapped E F depth i cat k w) as [v1 w1|x w1|u|x]; try discriminate Rt.
  inversion Rt; subst. destruct C as (aw' & I' & _ & X & _ & _ & R).
  assert (Ho' : closure w' i o) by (red; rewrite (ext_objs X); exact Ho).
  destruct (R o Ho') as (f & k' & j & o' & cat' & H1 & H2 & H3 & H4 & H5). exists f, k', j, o'.
  split; auto. split; auto. split; auto. split; auto. apply static_same in H4. tauto.
Qed.

Lemma call_inv depth i cat k w v w' : returns E F depth i cat k w v w' -> call_wrapped E F depth i cat k w = Val v w'.
Proof.
  unfold returns, wexec. destruct (wop_well_formed w (CallWrapped i cat k)); [|discriminate]. simpl. unfold bind.
  destruct (call_wrapped E F depth i cat k w) as [v1 w1|x w1|u|x]; try discriminate. intros H. inversion H. auto.
Qed.

(** Histories keep invariants that only depend on the caches and calls. *)
Lemma run_keeps P R depth l w aw outs w' : steps P (fun _ _ _ => True) R any ->
  (forall w aw w', P w aw -> other w w' -> P w' aw) ->
  winv w aw -> P w aw -> wrun E F depth l w = WFinished outs w' ->
  exists aw', winv w' aw' /\ P w' aw' /\ wext w w' /\ aw_reads aw <= aw_reads aw'.
Proof.
  intros St Ho I Hp Rn.
  assert (X := run_ind G St (allowed := fun _ => True) (depth := depth)
    (fun w aw p r w' _ P _ _ _ O => Ho w aw w' P O) (l := l) I Hp (proj2 (Forall_forall _ _) (fun _ _ => Logic.I))).
  rewrite Rn in X. destruct X as (aw' & I' & P' & X & N & _). eauto 10.
Qed.

(** A cache that is not used keeps its contents. *)
Theorem separate depth w o cat c l ops outs w' : wreachable E F depth w -> cache_of w o cat c ->
  contents E c (ww_world w) l -> wrun E F depth ops w = WFinished outs w' ->
  (forall k asked, ww_asked w' = asked ++ ww_asked w -> ~ In (static_of o cat, k) asked) ->
  cache_of w' o cat c /\ contents E c (ww_world w') l.
Proof.
  intros Re Sc Ct Rn Ha. destruct (wreach G Re) as (aw & I). red in Sc.
  destruct (wi_alive I Sc) as (a & Hs).
  destruct (contents_inv G (wi_rel I) Ct) as (a' & Hs' & Hl). replace a' with a in * by congruence.
  assert (Hp : untouched (static_of o cat) c a (ww_asked w) w aw) by (split; [exists []; auto|split; auto]).
  destruct (run_keeps (untouched_steps E F (static_of o cat) c a (ww_asked w))
     (fun w0 aw0 w1 P O => match P with conj A (conj B C) => conj (eq_ind_r (fun x => exists l, x = l ++ _) A (ot_asked O)) (conj
        (eq_ind_r (fun x => find_static _ x = _) B (ot_statics O)) (fun l Q => C l (eq_trans (eq_sym (ot_asked O)) Q))) end)
     I Hp Rn) as (aw' & I' & (_ & S' & H) & X & _).
  split; auto. destruct (we_asked X) as (l' & Q').
  rewrite Hl. eapply contents_of; [exact G|apply (wi_rel I')|]. apply (H l' Q'). intros k. apply Ha. auto.
Qed.

(** *** C50 *)
Lemma const_other s c n t w aw w' : const s c n t w aw -> other w w' -> const s c n t w' aw.
Proof. intros (A & B) O. split; auto. rewrite (ot_statics O). auto. Qed.
Lemma const_seen s c n t w aw : winv w aw -> const s c n t w aw ->
  capacity_is E c (ww_world w) n /\ ttl_of c (ww_world w) t.
Proof.
  intros I (A & a & Ha & <- & <-). split; [eapply capacity_of; [apply (wi_rel I)|exact Ha]|].
  apply (ttl_iff _ (wi_rel I) Ha). auto.
Qed.

(** The first call creates the cache with what the references refer to then. *)
Theorem arguments_used depth w i o cat k ttl cap out ops outs w'' : wreachable E F depth w -> closure w i o ->
  (forall c, ~ cache_of w o cat c) -> refers w (wo_ttl o) ttl -> refers w (wo_cap o) cap ->
  wrun E F depth (CallWrapped i cat k :: ops) w = WFinished (out :: outs) w'' ->
  exists c, cache_of w'' o cat c /\ capacity_is E c (ww_world w'') (capacity_arg cap) /\ ttl_of c (ww_world w'') ttl.
Proof.
  intros Re Ho Nc Rt Rc Rn. destruct (wreach G Re) as (aw & I).
  assert (Sn : find_static (static_of o cat) (ww_statics w) = None).
  { destruct (find_static (static_of o cat) (ww_statics w)) as [c|] eqn:S; auto. exfalso. exact (Nc c S). }
  pose proof (call_first depth k I Ho Sn Rt Rc) as C. simpl in Rn. unfold wexec in Rn.
  assert (Wf : wop_well_formed w (CallWrapped i cat k) = true).
  { simpl. apply Nat.ltb_lt. apply nth_error_Some. red in Ho. congruence. }
  rewrite Wf in Rn. simpl in Rn. unfold bind in Rn.
  assert (D : forall w1, (exists aw' c, winv w1 aw' /\ const (static_of o cat) c (capacity_arg cap) ttl w1 aw') ->
    forall outs', wrun E F depth ops w1 = WFinished outs' w'' ->
    exists c, cache_of w'' o cat c /\ capacity_is E c (ww_world w'') (capacity_arg cap) /\ ttl_of c (ww_world w'') ttl).
  { intros w1 (aw1 & c & I1 & C1) outs' R1. exists c.
    destruct (run_keeps (const_steps E F (static_of o cat) c (capacity_arg cap) ttl) (@const_other _ _ _ _) I1 C1 R1) as (aw2 & I2 & C2 & _).
    split; [apply C2|]. eapply const_seen; eauto. }
  destruct (call_wrapped E F depth i cat k w) as [v w1|x w1|u|x]; try discriminate Rn; simpl in Rn;
    destruct (wrun E F depth ops w1) as [outs1 w2| |] eqn:R1; try discriminate Rn; inversion Rn; subst; eauto.
Qed.

(** Programs that keep the arguments alive never use a dangling reference. *)
Definition refs_alive w : Prop := forall i o, closure w i o ->
  exists ttl cap, refers w (wo_ttl o) ttl /\ refers w (wo_cap o) cap.
Lemma lasting_steps : steps (fun w _ => refs_alive w) (fun _ _ _ => True) (fun _ _ _ _ _ _ => True)
  (fun u => u = FuelExhausted \/ u = DeadObject).
Proof.
  constructor; auto.
  - intros w aw i o _ H Ho Bad. exfalso. destruct (H i o Ho) as (ttl & cap & A & B). eauto.
Qed.
Lemma refers_more w w' x z : (forall y, slot (ww_vars w) y <> None -> slot (ww_vars w') y <> None) ->
  refers w x z -> exists z', refers w' x z'.
Proof.
  intros H R. destruct x as [y|], z as [z|]; simpl in R; try easy.
  - destruct (slot (ww_vars w') y) as [z'|] eqn:S; [exists (Some z'); exact S|].
    exfalso. apply (H y); congruence.
  - exists None. exact Logic.I.
Qed.
Lemma refs_more w w' : (forall y, slot (ww_vars w) y <> None -> slot (ww_vars w') y <> None) ->
  (forall i o, closure w' i o -> closure w i o \/ exists ttl cap, refers w' (wo_ttl o) ttl /\ refers w' (wo_cap o) cap) ->
  refs_alive w -> refs_alive w'.
Proof.
  intros H N A i o Ho. destruct (N i o Ho) as [Ho'|]; auto. destruct (A i o Ho') as (ttl & cap & R1 & R2).
  destruct (refers_more H R1) as (t' & R1'). destruct (refers_more H R2) as (c' & R2'). eauto.
Qed.
Lemma new_closure w o i o' : nth_error (ww_objs w ++ [o]) i = Some o' -> closure w i o' \/ o' = o.
Proof.
  destruct (Nat.lt_ge_cases i (length (ww_objs w))) as [L|L].
  - rewrite nth_error_app1 by auto. auto.
  - rewrite nth_error_app2 by auto. destruct (i - length (ww_objs w)) as [|[|]]; simpl; intros H; inversion H; auto.
Qed.
Lemma arg_refers w g : arg_alive w g = true -> (match g with Some (Temporary _) => false | _ => true end) = true ->
  exists x, materialise_opt g w = Val x w /\ end_opt g x w = Val tt w /\ exists z, refers w x z.
Proof.
  intros A L. destruct g as [[x|z]|]; try discriminate L.
  - exists (Some x). split; auto. split; auto. simpl in A. unfold var_alive in A. simpl.
    destruct (slot (ww_vars w) x) as [z|] eqn:S; [|discriminate A]. exists (Some z). auto.
  - exists None. split; auto. split; auto. exists None. exact Logic.I.
Qed.
Lemma lasting_other depth p w r w' : refs_alive w -> lasting p = true -> wexec E F depth p w = Val r w' ->
  (forall i cat k, p <> CallWrapped i cat k) -> refs_alive w'.
Proof.
  intros A L Ev N. unfold wexec in Ev. destruct (wop_well_formed w p) eqn:Wf; [|inversion Ev; subst; auto].
  destruct p as [z|x z|x|ty f ttl cap|ty f d cap|i|i cat k]; try discriminate L; [| | | |exfalso; eapply N; eauto].
  - simpl in Ev. unfold bind, new_var, ret in Ev. inversion Ev; subst. eapply refs_more; [| |exact A]; simpl; auto.
    intros y S. rewrite slot_app_lt; auto. destruct (Nat.lt_ge_cases y (length (ww_vars w))); auto.
    rewrite slot_overflow in S; easy.
  - simpl in Ev. unfold bind, put_var, modify, ret in Ev. inversion Ev; subst. eapply refs_more; [| |exact A]; simpl; auto.
    intros y S. simpl in Wf. unfold var_alive in Wf. destruct (slot (ww_vars w) x) as [z0|] eqn:Sx; [|discriminate Wf].
    destruct (Nat.eq_dec x y) as [->|Ny]; [rewrite (slot_upd_same _ _ _ Sx); discriminate|rewrite slot_upd_other; auto].
  - simpl in Wf. apply andb_true_iff in Wf as (W1 & W2).
    assert (L1 : (match ttl with Some (Temporary _) => false | _ => true end) = true) by (destruct ttl as [[|]|]; auto).
    assert (L2 : (match cap with Some (Temporary _) => false | _ => true end) = true)
      by (destruct cap as [[|]|]; auto; destruct ttl as [[|]|]; auto).
    destruct (arg_refers W1 L1) as (x & E1 & E1' & t & R1). destruct (arg_refers W2 L2) as (y & E2 & E2' & n & R2).
    simpl in Ev. unfold bind at 1 in Ev. rewrite E1 in Ev. unfold bind at 1 in Ev. rewrite E2 in Ev.
    assert (V1 : forall w2, ww_vars w2 = ww_vars w -> end_opt ttl x w2 = Val tt w2).
    { intros w2 _. destruct ttl as [[|]|], x; auto; discriminate L1. }
    assert (V2 : forall w2, ww_vars w2 = ww_vars w -> end_opt cap y w2 = Val tt w2).
    { intros w2 _. destruct cap as [[|]|], y; auto; discriminate L2. }
    unfold bind at 1, wrap, new_obj in Ev. unfold bind at 1 in Ev. rewrite V2 in Ev by reflexivity.
    unfold bind at 1 in Ev. rewrite V1 in Ev by reflexivity. inversion Ev; subst.
    eapply refs_more; [| |exact A]; simpl; auto.
    intros i o Ho. red in Ho. simpl in Ho. apply new_closure in Ho as [Ho| ->]; auto.
    right. exists t, n. auto.
  - simpl in Ev. unfold bind, get_obj, new_obj, ret in Ev. destruct (nth_error (ww_objs w) i) as [o|] eqn:Ho; [|discriminate Ev].
    inversion Ev; subst. eapply refs_more; [| |exact A]; simpl; auto.
    intros j o' Ho'. red in Ho'. simpl in Ho'. apply new_closure in Ho' as [Ho'| ->]; auto.
    right. destruct (A i o Ho) as (t & n & R1 & R2). exists t, n. auto.
Qed.

Theorem never_dangles depth ops : forallb lasting ops = true ->
  match wrun E F depth ops init_wworld with
  | WFinished _ _ => True
  | WUndefined _ u => u = FuelExhausted \/ u = DeadObject
  | WTerminated _ _ => False
  end.
Proof.
  intros L.
  assert (X := run_ind G lasting_steps (allowed := fun p => lasting p = true) (depth := depth)
    (fun w aw p r w' _ A L Ev N _ => lasting_other A L Ev N) (l := ops) (winv_init E)).
  destruct (wrun E F depth ops init_wworld); auto; apply X.
  - intros [|i] o Ho; discriminate Ho.
  - apply Forall_forall. apply forallb_forall. auto.
  - intros [|i] o Ho; discriminate Ho.
  - apply Forall_forall. apply forallb_forall. auto.
Qed.

(** *** C48, C64 *)
Lemma stays_other s c n ttl A0 k0 v0 t0 others w aw w' :
  stays E s c n ttl A0 k0 v0 t0 others w aw -> other w w' -> stays E s c n ttl A0 k0 v0 t0 others w' aw.
Proof.
  intros (A & B & C) O. unfold stays. rewrite (ot_asked O), (ot_statics O). auto.
Qed.

Lemma stale_later ttl (e : entry) m m' : (ttl = None \/ monotone_time E) -> m <= m' ->
  stale E ttl e m = true -> stale E ttl e m' = true.
Proof.
  intros [->|(M1 & M2)] L H; [discriminate H|]. unfold stale in *. destruct ttl as [d|]; [|discriminate H].
  apply Z.ltb_lt in H. apply Z.ltb_lt. eapply Z.lt_le_trans; [exact H|]. apply M2. specialize (M1 m m' L). lia.
Qed.

(** A result stays while there is room and it has not expired. *)
Lemma stays_served depth w1 aw1 i2 o o2 cat c n ttl k k' v e l a ops outs w2 others :
  winv w1 aw1 -> find_static (static_of o cat) (ww_statics w1) = Some c -> slot (aw_caches aw1) c = Some a ->
  a_cap a = n -> a_ttl a = ttl -> a_ents a = l ++ [e] -> key_equal E k (e_key e) = true -> e_val e = v ->
  length others < n -> (ttl = None \/ monotone_time E) ->
  wrun E F (S depth) ops w1 = WFinished outs w2 -> used_only E o cat k others w1 w2 ->
  closure w2 i2 o2 -> same_type o o2 -> key_equal E k k' = true ->
  (~ old E c (ww_world w2) k (clock E (w_reads (ww_world w2))) \/
   forall d, ttl = Some d -> young E d (e_time e) (clock E (w_reads (ww_world w2)))) ->
  exists w3, returns E F (S depth) i2 cat k' w2 v w3 /\ not_called w2 w3.
Proof.
  intros I1 Sc Ha Cn Tt Ea Ke Ev Rm Mt Rn (lu & Qu & Us) Ho2 Ty Kk Fr.
  assert (Hp : stays E (static_of o cat) c n ttl (ww_asked w1) k v (e_time e) others w1 aw1).
  { split; [exists []; auto|]. split; auto. exists a. split; auto. split; auto. split; auto. intros _ _ _.
    exists e, l, []. split; auto. split; auto. split; auto. split; auto. intros ? []. }
  assert (Sm : forall m m', m <= m' -> stale E ttl (Ent k v (e_time e)) m = true -> stale E ttl (Ent k v (e_time e)) m' = true).
  { intros m m'. apply stale_later. auto. }
  destruct (run_keeps (stays_steps G F (static_of o cat) c (ww_asked w1) Rm Sm) (fun w aw w' => @stays_other _ _ _ _ _ _ _ _ _ w aw w') I1 Hp Rn)
    as (aw2 & I2 & (_ & Sc2 & a2 & Ha2 & Cn2 & Tt2 & Hd) & X & _).
  destruct (Hd lu Qu) as (e2 & l1 & l2 & Q1 & Q2 & Q3 & Q4 & Q5).
  { intros k2 J. apply Us. auto. }
  assert (D2 : dkeys E (a_ents a2)) by (eapply rel_dkeys; [apply (wi_rel I2)|exact Ha2]).
  assert (In2 : In e2 (a_ents a2)) by (rewrite Q1; apply in_or_app; right; left; auto).
  assert (Sf : stale E ttl (Ent k v (e_time e)) (aw_reads aw2) = false).
  { destruct Fr as [Fr|Fr].
    - rewrite <- (st_stale E ttl k v _ Q3), <- Tt2. rewrite <- (rel_reads (wi_rel I2)).
      eapply old_not_stale; [exact G|apply (wi_rel I2)|exact Ha2| |exact Fr]. apply (in_lookup G); auto.
    - unfold stale. destruct ttl as [d|]; auto. rewrite <- (rel_reads (wi_rel I2)). apply Z.ltb_ge. apply (Fr d). auto. }
  assert (Sv : served_now E a2 k' (aw_reads aw2) = Some e2).
  { unfold served_now. rewrite (in_lookup G (e := e2)); auto.
    - rewrite Tt2, (st_stale E ttl k v _ Q3), Sf. auto.
    - rewrite (good_sym G) in Kk. eapply (good_trans G); eauto. }
  assert (Sc2' : find_static (static_of o2 cat) (ww_statics w2) = Some c).
  { replace (static_of o2 cat) with (static_of o cat); auto. unfold static_of.
    destruct Ty as (T1 & T2 & T3). rewrite T1, T2, T3. auto. }
  pose proof (call_open depth k' I2 Ho2 Sc2' Ha2) as C. rewrite Sv in C. destruct C as (x & C).
  eexists. split.
  - unfold returns, wexec.
    replace (wop_well_formed w2 (CallWrapped i2 cat k')) with true.
    + cbn [wbody]. unfold bind. rewrite C. replace (e_val e2) with v; [reflexivity|].
      destruct Q4 as [Q4|Q4]; congruence.
    + symmetry. simpl. apply Nat.ltb_lt. apply nth_error_Some. red in Ho2. congruence.
  - reflexivity.
Qed.

Theorem stays_cached depth w0 i o cat k v w1 c n others ops outs w2 i2 o2 k' :
  wreachable E F depth w0 -> closure w0 i o -> returns E F depth i cat k w0 v w1 ->
  cache_of w1 o cat c -> capacity_is E c (ww_world w1) n -> length others < n ->
  (ttl_of c (ww_world w1) None \/ monotone_time E) ->
  wrun E F depth ops w1 = WFinished outs w2 -> used_only E o cat k others w1 w2 ->
  closure w2 i2 o2 -> same_type o o2 -> key_equal E k k' = true ->
  ~ old E c (ww_world w2) k (clock E (w_reads (ww_world w2))) ->
  exists w3, returns E F depth i2 cat k' w2 v w3 /\ not_called w2 w3.
Proof.
  intros Re Ho Rt Sc Cn Rm Mt Rn Us Ho2 Ty Kk Od. destruct (wreach G Re) as (aw & I).
  apply call_inv in Rt. pose proof (call_ind G (latest_steps G F) depth i cat k I Logic.I) as C. rewrite Rt in C.
  destruct C as (aw1 & I1 & _ & X & _ & _ & L). destruct depth as [|depth]; [discriminate Rt|].
  assert (Ho1 : closure w1 i o) by (red; rewrite (ext_objs X); exact Ho).
  destruct (L o Ho1) as (c' & a & Sc' & Ha & [Z|(l & e & Q1 & Q2 & Q3)]); red in Sc; replace c' with c in * by congruence.
  - exfalso. rewrite (capacity_inv (wi_rel I1) Ha Cn) in Z. lia.
  - eapply stays_served with (a := a); eauto.
    + rewrite (capacity_inv (wi_rel I1) Ha Cn). auto.
    + destruct Mt as [Mt|Mt]; auto. left. apply (ttl_iff None (wi_rel I1) Ha). auto.
Qed.

(** A new result is served until it expires. *)
Theorem new_served depth w0 i o cat k v w1 c n d others ops outs w2 i2 o2 k' :
  wreachable E F depth w0 -> closure w0 i o -> returns E F depth i cat k w0 v w1 ->
  (forall c, cache_of w0 o cat c -> absent E k c (ww_world w0)) ->
  cache_of w1 o cat c -> capacity_is E c (ww_world w1) n -> length others < n ->
  ttl_of c (ww_world w1) (Some d) -> monotone_time E ->
  wrun E F depth ops w1 = WFinished outs w2 -> used_only E o cat k others w1 w2 ->
  closure w2 i2 o2 -> same_type o o2 -> key_equal E k k' = true ->
  (forall m, during (ww_world w0) (ww_world w1) m -> young E d (clock E m) (clock E (w_reads (ww_world w2)))) ->
  exists w3, returns E F depth i2 cat k' w2 v w3 /\ not_called w2 w3.
Proof.
  intros Re Ho Rt Ab Sc Cn Rm Tt Mt Rn Us Ho2 Ty Kk Od. destruct (wreach G Re) as (aw & I).
  apply call_inv in Rt.
  assert (P0 : timed_from E (static_of o cat) k (aw_reads aw) w0 aw).
  { split; auto. intros c0 a e Sc0 Ha Ie Ke. exfalso. destruct (Ab c0 Sc0) as [Al|(l & Cl & Hl)].
    - unfold alive in Al. destruct (rel_get _ (wi_rel I) Ha) as (x & y & z & (H1 & _) & _).
      rewrite H1 in Al. discriminate Al.
    - destruct (contents_inv G (wi_rel I) Cl) as (a' & Ha' & ->). replace a' with a in * by congruence.
      assert (T : has E k (map pair_of (a_ents a)) = true); [|congruence].
      apply existsb_exists. exists (pair_of e). split; [apply in_map; auto|exact Ke]. }
  pose proof (call_ind G (timed_steps G F (static_of o cat) k (aw_reads aw)) depth i cat k I P0) as C1. rewrite Rt in C1.
  destruct C1 as (aw1 & I1 & (_ & T1) & X & _ & _ & L). destruct depth as [|depth]; [discriminate Rt|].
  assert (Ho1 : closure w1 i o) by (red; rewrite (ext_objs X); exact Ho).
  destruct (L o Ho1) as (c' & a & Sc' & Ha & [Z|(l & e & Q1 & Q2 & Q3)]); red in Sc; replace c' with c in * by congruence.
  - exfalso. rewrite (capacity_inv (wi_rel I1) Ha Cn) in Z. lia.
  - apply (ttl_iff (Some d) (wi_rel I1) Ha) in Tt.
    destruct (T1 c a e Sc Ha) as (m & B & Qm); auto.
    { rewrite Q1. apply in_or_app. right. left. auto. }
    { rewrite Tt. discriminate. }
    eapply stays_served with (a := a); eauto.
    + rewrite (capacity_inv (wi_rel I1) Ha Cn). auto.
    + right. intros d' Q'. inversion Q'; subst d'. rewrite Qm. apply Od.
      red. rewrite (rel_reads (wi_rel I)), (rel_reads (wi_rel I1)). auto.
Qed.

(** An expired result is never returned: the function is called. *)
Theorem expired_called depth w i o cat k c : wreachable E F depth w -> closure w i o -> cache_of w o cat c ->
  old E c (ww_world w) k (clock E (w_reads (ww_world w))) ->
  match wexec E F depth (CallWrapped i cat k) w with
  | Val _ w' | Exc _ w' => ww_calls w < ww_calls w'
  | _ => True
  end.
Proof.
  intros Re Ho Sc Od. destruct (wreach G Re) as (aw & I). red in Sc. destruct (wi_alive I Sc) as (a & Ha).
  unfold wexec. destruct (wop_well_formed w (CallWrapped i cat k)) eqn:Wf.
  - simpl. unfold bind. destruct depth as [|d]; [exact Logic.I|].
    assert (Sv : served_now E a k (aw_reads aw) = None).
    { unfold served_now. destruct (lookup_ent E k (a_ents a)) as [e|] eqn:L; auto.
      apply (old_stale G _ (wi_rel I) Ha L) in Od. rewrite <- (rel_reads (wi_rel I)), Od. auto. }
    pose proof (call_calls d I Ho Sc Ha Sv) as C.
    destruct (call_wrapped E F (S d) i cat k w); simpl; auto.
  - exfalso. simpl in Wf. apply Nat.ltb_ge in Wf. apply nth_error_None in Wf. red in Ho. congruence.
Qed.

(** timed_wrap: the first call is undefined. *)
Theorem timed_wrap_dangles depth w ty f d cap cat k : depth <> 0 -> arg_alive w cap = true ->
  find_static (ty, true, is_some cap, cat) (ww_statics w) = None ->
  wrun E F depth [TimedWrap ty f d cap; CallWrapped (length (ww_objs w)) cat k] w =
    WUndefined [WReturned (WNat (length (ww_objs w)))] DanglingReference.
Proof.
  intros Hd A Sn. destruct depth as [|depth]; [easy|]. simpl wrun. unfold wexec at 1. simpl wop_well_formed. rewrite A.
  assert (X : exists w', wbody E F (S depth) (TimedWrap ty f d cap) w = Val (WNat (length (ww_objs w))) w' /\
    ww_statics w' = ww_statics w /\
    exists x y, ww_objs w' = ww_objs w ++ [MkWrapped ty f (Some x) y] /\ is_some y = is_some cap /\ slot (ww_vars w') x = None).
  { assert (U : forall l x, slot (upd l x (@None Z)) x = None).
    { intros l x. destruct (Nat.lt_ge_cases x (length l)) as [L|L]; [apply slot_upd_lt; auto|].
      apply slot_overflow. rewrite upd_length. auto. }
    destruct cap as [[y|z]|].
    - eexists. split; [reflexivity|]. split; [reflexivity|]. do 2 eexists. split; [reflexivity|]. split; [reflexivity|]. apply U.
    - eexists. split; [reflexivity|]. split; [reflexivity|]. do 2 eexists. split; [reflexivity|]. split; [reflexivity|].
      simpl. rewrite slot_upd_other; [apply U|]. rewrite app_length. simpl. lia.
    - eexists. split; [reflexivity|]. split; [reflexivity|]. do 2 eexists. split; [reflexivity|]. split; [reflexivity|]. apply U. }
  destruct X as (w' & -> & St & x & y & Ob & Y & Dx). cbn [wpush].
  unfold wexec. simpl wop_well_formed. rewrite Ob, app_length. simpl length.
  replace (Nat.ltb (length (ww_objs w)) (length (ww_objs w) + 1)) with true by (symmetry; apply Nat.ltb_lt; lia).
  simpl wbody. unfold bind at 1. unfold bind at 1, get_obj. rewrite Ob, nth_error_app2, Nat.sub_diag by lia. simpl nth_error. cbv iota.
  unfold bind at 1, note_asked, modify. unfold bind at 1, the_cache, get_static, gets. unfold bind at 1. simpl ww_statics.
  change (static_of (MkWrapped ty f (Some x) y) cat) with (ty, true, is_some y, cat). rewrite Y, St.
  cbn [ww_statics]. rewrite Sn. cbn [wo_ttl]. unfold bind at 1, read_ref. unfold bind at 1. simpl ww_vars. rewrite Dx. reflexivity.
Qed.

End Calls.
