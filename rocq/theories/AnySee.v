(** What the observers show in a world that satisfies the invariant of
    [AnyKeep]. *)
From Coq Require Import List Arith ZArith Bool Permutation Lia.
Import ListNotations.
From Verif Require Import Monad Types Model Api Spec Ref Lists SimBase SimRel SimIter SimRun Effects SpecCopy CopyBlind CopyEval AnyWorld AnyKeep AnyInsert AnyRun AnyCopy AnyAll.
Set Implicit Arguments.
Unset Strict Implicit.
Local Open Scope cpp_scope.

Section See.
Context {K V : Type}.
Variable E : env K V.
Hypothesis G : good E.

Notation world := (world K V).
Notation store := (store K V).
Notation mnode := (mnode K V).
Notation cell := (@cell K V).
Notation M := (M world).
Notation W := (W E).
Notation ws := (ws E).
Notation kw := (kw E).
Notation lc := (@lc K).
Implicit Types (w z : world) (s : store).

(** The cells of a store. *)
Definition holds s (c : lc) (cl : cell) : Prop :=
  cl_q cl = lq c /\ cl_m cl = lm c /\ e_key (cl_e cl) = lk c /\
  exists n, In (lm c, n) (s_map s) /\ e_key (cl_e cl) = n_key n /\ e_val (cl_e cl) = n_val n /\ e_time (cl_e cl) = n_time n.
Lemma ws_cells r s l : ws r s l -> exists cs, Forall2 (holds s) l cs.
Proof.
  intros Hl. assert (Q : forall m, incl m l -> exists cs, Forall2 (holds s) m cs).
  { induction m as [|c m IH]; intros I; [exists []; constructor|].
    destruct IH as (cs & H); [intros d Hd; apply I; simpl; auto|].
    destruct (ws_node Hl (I c (or_introl eq_refl))) as (n & In_ & Hk).
    exists (Cell (lq c) (lm c) (Ent (n_key n) (n_val n) (n_time n)) :: cs). constructor; auto.
    unfold holds. simpl. repeat split; auto. exists n. auto. }
  apply (Q l). apply incl_refl.
Qed.
Definition qof (l : list lc) (i : nat) : nat := match List.find (fun c => Nat.eqb (lm c) i) l with Some c => lq c | None => 0 end.
Lemma qof_in l c : NoDup (map (@lm K) l) -> In c l -> qof l (lm c) = lq c.
Proof.
  intros N I. unfold qof. destruct (List.find (fun d => Nat.eqb (lm d) (lm c)) l) as [d|] eqn:F.
  - apply find_some in F as (J & Q). apply Nat.eqb_eq in Q. rewrite (nd_inj (f := @lm K) N J I Q). auto.
  - pose proof (find_none _ _ F _ I) as Q. simpl in Q. rewrite Nat.eqb_refl in Q. discriminate.
Qed.
Definition mend r (l : list lc) (p : nat * mnode) : nat * mnode := (fst p, with_ord (r, qof l (fst p)) (snd p)).
Definition mended r s (l : list lc) : store := MkStore (map (mend r l) (s_map s)) (s_ord s) (s_next s) (s_epoch s).
Lemma cells_q s l cs : Forall2 (holds s) l cs -> map cl_q cs = map (@lq K) l.
Proof. induction 1 as [|c cl l cs H]; simpl; auto. destruct H as (-> & _). congruence. Qed.
Lemma cells_m s l cs : Forall2 (holds s) l cs -> map cl_m cs = map (@lm K) l.
Proof. induction 1 as [|c cl l cs H]; simpl; auto. destruct H as (_ & -> & _). congruence. Qed.
Lemma cells_k s l cs : Forall2 (holds s) l cs -> map (fun cl => e_key (cl_e cl)) cs = map (@lk K) l.
Proof. induction 1 as [|c cl l cs H]; simpl; auto. destruct H as (_ & _ & -> & _). congruence. Qed.
Lemma cells_row s l cs r : Forall2 (holds s) l cs -> map (qrow r) cs = map (orow r) l.
Proof. induction 1 as [|c cl l cs H]; simpl; auto. unfold qrow, orow in *. destruct H as (-> & -> & _). f_equal; auto. Qed.
Lemma in_l {A B} (R : A -> B -> Prop) l m a : Forall2 R l m -> In a l -> exists b, In b m /\ R a b.
Proof. induction 1; simpl; [tauto|]. intros [<-|I]; eauto. destruct (IHForall2 I) as (b & ? & ?); eauto. Qed.
Lemma in_r {A B} (R : A -> B -> Prop) l m b : Forall2 R l m -> In b m -> exists a, In a l /\ R a b.
Proof. induction 1; simpl; [tauto|]. intros [<-|I]; eauto. destruct (IHForall2 I) as (a & ? & ?); eauto. Qed.
Lemma nodup_fst {A} (l : list (nat * A)) : NoDup (map fst l) -> NoDup l.
Proof. apply NoDup_map_inv. Qed.
Lemma mended_rep r s l cs : ws r s l -> Forall2 (holds s) l cs -> rep_store E r (mended r s l) cs.
Proof.
  intros Hl H. constructor; simpl.
  - rewrite (cells_row r H). apply (ws_ord Hl).
  - apply NoDup_Permutation.
    + apply nodup_fst. rewrite map_map. simpl. apply (ws_nodup Hl).
    + apply nodup_fst. rewrite mrow_fst, (cells_m H). apply (ws_nm Hl).
    + intros (i & n). split; intros I.
      * apply in_map_iff in I as ((j & n') & Q & I). unfold mend in Q. simpl in Q. injection Q as -> <-.
        destruct (ws_cell Hl I) as (c & Ic & <- & Hk). destruct (in_l H Ic) as (cl & Icl & (Hq & Hm & Hk' & n2 & I2 & K2 & V2 & T2)).
        apply in_map_iff. exists cl. split; auto. unfold mrow, node_of, with_ord. rewrite Hm, Hq, (qof_in (ws_nm Hl) Ic).
        assert (n2 = n') as ->.
        { pose proof (proj2 (ws_assoc _ _ Hl) I) as J1. pose proof (proj2 (ws_assoc _ _ Hl) I2) as J2. congruence. }
        rewrite K2, V2, T2. destruct n'; auto.
      * apply in_map_iff in I as (cl & Q & I). destruct (in_r H I) as (c & Ic & (Hq & Hm & Hk' & n2 & I2 & K2 & V2 & T2)).
        apply in_map_iff. exists (lm c, n2). split; auto. unfold mend. simpl. rewrite <- Q. unfold mrow, node_of, with_ord.
        rewrite Hm, Hq, (qof_in (ws_nm Hl) Ic), K2, V2, T2. destruct n2; auto.
  - rewrite (cells_q H). apply (ws_nq Hl).
  - rewrite (cells_m H). apply (ws_nm Hl).
  - apply Forall_forall. intros cl I. destruct (in_r H I) as (c & Ic & (-> & -> & _)). apply (proj1 (Forall_forall _ _) (ws_lt Hl) c Ic).
  - assert (D : dk E (map (@e_key K V) (ents cs))) by (unfold ents; rewrite map_map, (cells_k H); apply (ws_keys Hl)).
    revert D. generalize (ents cs). induction l0 as [|e l0 IH]; simpl; auto. intros (F & D). split; auto. rewrite Forall_map in F. auto.
Qed.
Lemma mended_same r s l : same_store s (mended r s l).
Proof.
  repeat split. simpl. generalize (s_map s). induction l0; constructor; auto. repeat split.
Qed.
Lemma mended_tw w c x s l : at_ w c x s -> tw c (c_rid x) w (setS (c_rid x) (mended (c_rid x) s l) w).
Proof.
  intros (Hx & Hs). constructor; simpl; auto.
  - rewrite upd_length; auto.
  - intros d. destruct (slot (w_caches w) d) as [y|] eqn:Hy; simpl; auto. split; [apply same_cache_refl|]. split; auto.
    intros ->. congruence.
  - intros r. destruct (Nat.eq_dec (c_rid x) r) as [<-|N].
    + rewrite (slot_upd_same _ _ _ Hs), Hs. simpl. split; [apply mended_same|congruence].
    + rewrite slot_upd_other by auto. destruct (slot (w_stores w) r); simpl; auto. apply st_refl.
Qed.

(** What a store shows, from the least to the most recently used element. *)
Definition shown (cs : list cell) : list (K * V) := map pair_of (ents cs).
Lemma through w c x s l cs A (m : M A) a : at_ w c x s -> ws (c_rid x) s l -> Forall2 (holds s) l cs ->
  par c (c_rid x) m m eq -> within eq m ->
  (forall z t, at_ z c x t -> rep_store E (c_rid x) t cs -> m z = Val a z) -> m w = Val a w.
Proof.
  intros At Hl H P Q F. pose proof (mended_tw l At) as T. specialize (P _ _ T).
  rewrite F with (z := setS (c_rid x) (mended (c_rid x) s l) w) (t := mended (c_rid x) s l) in P.
  - specialize (Q w). destruct (m w) as [b w1|e w1|u|e]; unfold pres in P; try contradiction. destruct P as (_ & ->). subst w1. auto.
  - apply (at_setS (s := s)); auto.
  - apply mended_rep; auto.
Qed.
End See.
