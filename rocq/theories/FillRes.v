(** What a program sees of caches used as ranges and of assignments between
    caches (C74 to C76). *)
From Coq Require Import List Arith ZArith Bool Permutation Lia.
Import ListNotations.
From Verif Require Import Monad Types Model Api Spec SpecIter Ref Lists SimBase SimRel SimOps SimIns SimErase SimIter SimNew SimObs SimExec RefEval SimRun LruProofs CallProofs LruMore Flat Global Safe IterProofs CursorProofs CopyFrame Refs SpecRefs RefsProofs FillFrame FillProofs FillMore.
Set Implicit Arguments.
Unset Strict Implicit.
Local Open Scope cpp_scope.

Section FillRes.
Context {K V : Type}.
Variable E : env K V.
Hypothesis G : good E.
Variables (husk : V -> V) (khusk : K -> K).
Notation rexec := (rexec E husk khusk).
Notation hollow := (@hollow K V husk).
Notation hpair := (fun p : K * V => (fst p, husk (snd p))).

Lemma elements_of ord d w x s a l : at_ w d x s -> rep E x s a l -> elements E ord d w (listed ord s l).
Proof.
  intros At Rp. unfold elements, listed. destruct ord.
  - unfold exec. simpl. rewrite (at_alive At). cbn [body]. unfold bind.
    rewrite (traverse_ordered_ev G At (rp_store Rp)). reflexivity.
  - apply (hash_order_is At Rp).
Qed.

(** Calls on other caches change nothing. *)
Lemma spared w o r w' e : reachable E w -> copy_free o = true -> existsb (Nat.eqb e) (mentions o) = false -> exec E o w = Val r w' ->
  (forall ord l, elements E ord e w l -> elements E ord e w' l) /\
  (forall n, capacity_is E e w n -> capacity_is E e w' n).
Proof.
  intros H CF Nm X. destruct (slot (w_caches w) e) as [x|] eqn:Hx.
  2: { split; intros.
       - destruct (elements_alive H0) as (x & Hx'). congruence.
       - unfold capacity_is, exec in H0. simpl in H0. unfold alive in H0. rewrite Hx in H0. discriminate. }
  destruct (split_world G H Hx) as (w0 & aw & a & s & cs & F & -> & H0 & R & Ha & At & Rp & O).
  pose proof (exec_frame (good_cb G) x s (o := o) Nm F) as X1. unfold framed in X1. rewrite X in X1.
  destruct (reach_rel G H0) as (aw0 & R0). destruct (exec_step G R0 CF) as (ch & S).
  pose proof (step_safe ch o (awf_rel R0)) as Y.
  destruct (exec E o w0) as [r1 w1|e1 w1|u|e1]; try easy.
  - destruct X1 as (F1 & _ & Q). inversion Q; subst. 
    assert (At' : at_ (graft e (c_rid x) x s w1) e x s).
    { apply graft_at; auto. }
    split.
    + intros ord l El. rewrite (elements_inv G At Rp El). eapply elements_of; eauto.
    + intros n. unfold capacity_is, exec. simpl. rewrite (at_alive At), (at_alive At').
      unfold bind, capacity, bind, get_cache. rewrite (proj1 At), (proj1 At'). intros Q'. inversion Q'; auto.
  - exfalso. assert (NG : ~ gone u).
    { destruct (astep E ch o aw0); simpl in S; try easy. subst.
      destruct Y as [(c & _ & -> & _)|(c & k & _ & -> & _)]; intros [Q|Q]; discriminate. }
    destruct X1 as [X1|X1]; [tauto|discriminate].
Qed.

Lemma elements_distinct w ord d l : reachable E w -> elements E ord d w l -> distinct E l.
Proof.
  intros H El. destruct (elements_alive El) as (x & Hx). destruct (reach_rel G H) as (aw & R).
  destruct (rel_get' _ R Hx) as (a & s & cs & Ha & At & Rp). pose proof (contents_of G R Ha) as C.
  destruct (traversals G H C) as (_ & (u & U & P) & _ & D).
  destruct ord; unfold elements in El.
  - unfold contents in C. rewrite El in C. inversion C; subst. auto.
  - rewrite El in U. inversion U; subst. apply (distinct_perm G (Permutation_sym P) D).
Qed.
Lemma elements_perm w d l m : reachable E w -> elements E false d w l -> contents E d w m -> Permutation l m.
Proof.
  intros H El C. destruct (traversals G H C) as (_ & (u & U & P) & _). unfold elements in El.
  rewrite El in U. inversion U; subst. auto.
Qed.

Lemma hollow_capacity w c d n : capacity_is E c w n -> capacity_is E c (hollow d w) n.
Proof.
  unfold capacity_is, exec. cbn [well_formed body].
  assert (Q : w_caches (hollow d w) = w_caches w) by (unfold SpecRefs.hollow; destruct (slot (w_caches w) d); auto).
  unfold alive, capacity, bind, get_cache. rewrite Q.
  destruct (slot (w_caches w) c); [|discriminate]. simpl. intros X. inversion X; subst; auto.
Qed.
Lemma hollow_other w ord d e l : reachable E w -> alive w d = true -> e <> d -> elements E ord e w l -> elements E ord e (hollow d w) l.
Proof.
  intros H A N. unfold elements. intros El. apply Nat.eqb_neq in N.
  assert (N' : (d =? e) = false) by (rewrite Nat.eqb_sym; auto).
  rewrite (hollow_frame G husk H A); [|destruct ord; auto|destruct ord; simpl; rewrite N'; auto].
  rewrite El. auto.
Qed.

(** c = d *)
Theorem assign_cache w c d l m n n' : reachable E w -> c <> d -> elements E false d w l -> contents E d w m ->
  capacity_is E c w n -> capacity_is E d w n' ->
  exists w', rexec (PAssign c d) w = Val RUnit w' /\ reachable E w' /\
    contents E c w' l /\ capacity_is E c w' (Nat.max n (length l)) /\
    contents E d w' (map hpair m) /\ capacity_is E d w' n' /\
    (forall ord e le, e <> c -> e <> d -> elements E ord e w le -> elements E ord e w' le).
Proof.
  intros H N El C Cap Cap'.
  assert (Ac : alive w c = true).
  { unfold capacity_is, exec in Cap. simpl in Cap. destruct (alive w c); auto; discriminate. }
  destruct (assign_lvalue_result G husk khusk H N Ac El) as (w1 & X & Y).
  destruct (reach_rel G H) as (aw & R). destruct (alive_inv R Ac) as (a & Ha).
  destruct (assign_keeps_all G (assigns_rvalue c l) H (contents_of G R Ha) Cap) as (w1' & l' & X' & C1 & N1 & _ & _ & D).
  rewrite X in X'. inversion X'; subst w1'. rewrite D in C1 by (eapply elements_distinct; eauto). clear D X' l'.
  pose proof (reachable_step H (o := AssignMove c l) eq_refl X) as H1.
  assert (Sp : forall e, e <> c -> (forall ord le, elements E ord e w le -> elements E ord e w1 le) /\
     (forall n, capacity_is E e w n -> capacity_is E e w1 n)).
  { intros e Ne. apply (spared (r := RUnit) H (o := AssignMove c l) eq_refl); auto.
    simpl. apply Nat.eqb_neq in Ne. rewrite Ne. auto. }
  destruct (Sp d) as (Sd & Sd'); [auto|].
  assert (Ad : alive w1 d = true).
  { destruct (elements_alive (Sd true m C)) as (x & Hx). unfold alive. rewrite Hx. auto. }
  exists (hollow d w1). split; [exact Y|]. split; [apply reach_hollow; auto|].
  split; [apply (hollow_other (ord := true)); auto|]. split; [apply hollow_capacity; auto|].
  split; [apply (hollow_elements G husk (ord := true)); auto; apply (Sd true); auto|].
  split; [apply hollow_capacity, Sd'; auto|].
  intros ord e le N2 N3 Q. apply hollow_other; auto. apply Sp; auto.
Qed.

(** Cache e(d) *)
Theorem copy_direct_cache w d l m n' : reachable E w -> timed w d = false -> elements E false d w l -> contents E d w m ->
  capacity_is E d w n' ->
  exists e w', rexec (PCopyDirect d) w = Val (RNat e) w' /\ reachable E w' /\ alive w e = false /\
    contents E e w' l /\ capacity_is E e w' (Nat.max (length l) 128) /\
    contents E d w' m /\ capacity_is E d w' n' /\
    (forall ord f lf, elements E ord f w lf -> elements E ord f w' lf).
Proof.
  intros H T El C Cap. rewrite (copy_direct_result G husk khusk H T El).
  destruct (build_result G (builds_iters None l) H) as (e & w' & X & Al & C' & N' & _).
  rewrite (lputs_distinct G) in C'; [|apply Nat.le_max_l|eapply elements_distinct; eauto|auto].
  rewrite app_nil_r, rev_involutive in C'.
  exists e, w'. split; auto. split; [eapply (reachable_step H (o := NewIters None l)); eauto|].
  split; auto. split; auto. split; auto.
  split; [|split].
  - eapply (spared H (o := NewIters None l) eq_refl eq_refl X) with (ord := true); auto.
  - eapply (spared H (o := NewIters None l) eq_refl eq_refl X); auto.
  - intros ord f lf. eapply (spared H (o := NewIters None l) eq_refl eq_refl X).
Qed.
End FillRes.
