(** Wrapped functions: invariants of histories. *)
From Coq Require Import List Arith ZArith Bool Permutation Lia.
Import ListNotations.
From Verif Require Import Monad Types Model Api Spec SpecStats SpecTimed Ref Lists SimBase SimRel SimOps SimIns SimErase SimIter SimNew SimObs SimExec RefEval SimRun LruProofs CallProofs LruMore TimedTrack Wrap SpecWrap WrapProofs.
Set Implicit Arguments.
Unset Strict Implicit.
Local Open Scope cpp_scope.

Section Histories.
Context {K V : Type}.
Variable E : env K V.
Hypothesis G : good E.
Variable F : nat -> nat -> K -> fbody K V.

Notation acache := (acache K V).
Notation aworld := (aworld K V).
Notation wworld := (wworld K V).
Notation entry := (entry K V).
Notation winv := (winv E).
Notation steps := (steps E F).
Implicit Types (a : acache) (aw : aworld) (w : wworld) (o : wobj) (e : entry).

(** *** Operations other than calls *)
Record other w w' : Prop := {
  ot_world : ww_world w' = ww_world w;
  ot_statics : ww_statics w' = ww_statics w;
  ot_asked : ww_asked w' = ww_asked w;
  ot_results : ww_results w' = ww_results w;
  ot_calls : ww_calls w' = ww_calls w;
  ot_objs : exists l, ww_objs w' = ww_objs w ++ l
}.
Lemma other_refl w : other w w.
Proof. constructor; auto. exists []. rewrite app_nil_r. auto. Qed.

Lemma exec_other depth p w : (forall i cat k, p <> CallWrapped i cat k) ->
  exists r w', wexec E F depth p w = Val r w' /\ other w w'.
Proof.
  intros N. unfold wexec. destruct (wop_well_formed w p) eqn:Wf; [|eauto using other_refl].
  destruct p as [z|x z|x|ty f ttl cap|ty f d cap|i|i cat k]; [| | | | | |exfalso; eapply N; eauto].
  - do 2 eexists. split; [reflexivity|]. constructor; auto. exists []. simpl. rewrite app_nil_r. auto.
  - do 2 eexists. split; [reflexivity|]. constructor; auto. exists []. simpl. rewrite app_nil_r. auto.
  - do 2 eexists. split; [reflexivity|]. constructor; auto. exists []. simpl. rewrite app_nil_r. auto.
  - destruct ttl as [[x|z]|], cap as [[y|z']|]; (do 2 eexists; split; [reflexivity|]; constructor; auto; eexists; reflexivity).
  - destruct cap as [[y|z']|]; (do 2 eexists; split; [reflexivity|]; constructor; auto; eexists; reflexivity).
  - simpl in Wf. apply Nat.ltb_lt in Wf. simpl. unfold bind, get_obj.
    destruct (nth_error (ww_objs w) i) as [o|] eqn:Ho; [|apply nth_error_None in Ho; lia].
    do 2 eexists. split; [reflexivity|]. constructor; auto. eexists; reflexivity.
Qed.

Lemma is_call (p : wop K) : (exists i cat k, p = CallWrapped i cat k) \/ (forall i cat k, p <> CallWrapped i cat k).
Proof. destruct p; try (right; discriminate). left; eauto. Qed.

Lemma closure_other w w' i o : other w w' -> closure w i o -> closure w' i o.
Proof.
  intros H Ho. destruct (ot_objs H) as (l & Q). red. rewrite Q. rewrite nth_error_app1; auto.
  apply nth_error_Some. red in Ho. congruence.
Qed.
Lemma winv_other w w' aw : other w w' -> winv w aw -> winv w' aw.
Proof. intros H I. apply (winv_same I); [apply (ot_world H)|apply (ot_statics H)]. Qed.

(** *** What any operation can change *)
Record wext w w' : Prop := {
  we_objs : exists l, ww_objs w' = ww_objs w ++ l;
  we_asked : exists l, ww_asked w' = l ++ ww_asked w;
  we_results : exists l, ww_results w' = l ++ ww_results w;
  we_static : forall s c, find_static s (ww_statics w) = Some c -> find_static s (ww_statics w') = Some c;
  we_calls : ww_calls w <= ww_calls w'
}.
Lemma wext_refl w : wext w w.
Proof. constructor; auto; exists []; rewrite ?app_nil_r; auto. Qed.
Lemma wext_trans w w1 w2 : wext w w1 -> wext w1 w2 -> wext w w2.
Proof.
  intros [(k & A) (l & C) (m & D) S N] [(k' & A') (l' & C') (m' & D') S' N']. constructor; auto.
  - exists (k ++ k'). rewrite app_assoc. congruence.
  - exists (l' ++ l). rewrite <- app_assoc. congruence.
  - exists (m' ++ m). rewrite <- app_assoc. congruence.
  - lia.
Qed.
Lemma ext_wext w w' : ext w w' -> wext w w'.
Proof. intros [A _ C D S N]. constructor; auto. exists []. rewrite app_nil_r. auto. Qed.
Lemma other_wext w w' : other w w' -> wext w w'.
Proof.
  intros [_ B C D N A]. constructor; auto; try (exists []; auto; fail).
  - rewrite B. auto.
  - lia.
Qed.

(** *** Histories *)
Section Invariant.
Variable P : wworld -> aworld -> Prop.
Variable Q : nat -> K -> answer V -> Prop.
Variable R : nat -> nat -> K -> V -> wworld -> aworld -> Prop.
Variable H : ub -> Prop.
Hypothesis St : steps P Q R H.
Variable allowed : wop K -> Prop.
Variable depth : nat.
(** Operations other than calls keep [P], too. *)
Hypothesis P_other : forall w aw p r w', winv w aw -> P w aw -> allowed p -> wexec E F depth p w = Val r w' ->
  (forall i cat k, p <> CallWrapped i cat k) -> other w w' -> P w' aw.

(** What one operation does. *)
Definition fine (p : wop K) w (out : woutcome V) w' aw' : Prop :=
  match p with
  | CallWrapped i cat k =>
      (out = WReturned WIll /\ nth_error (ww_objs w) i = None) \/
      (exists v, out = WReturned (WVal v) /\ Q i k (inl v) /\ R i cat k v w' aw') \/
      (exists x, out = WThrew x /\ Q i k (inr x))
  | _ => True
  end.

Lemma exec_ind p w aw : winv w aw -> P w aw -> allowed p ->
  match wexec E F depth p w with
  | Val r w' => exists aw', winv w' aw' /\ P w' aw' /\ wext w w' /\ aw_reads aw <= aw_reads aw' /\
                            fine p w (WReturned r) w' aw'
  | Exc x w' => exists aw', winv w' aw' /\ P w' aw' /\ wext w w' /\ aw_reads aw <= aw_reads aw' /\
                            fine p w (WThrew x) w' aw'
  | Undef u => H u
  | Term _ => False
  end.
Proof.
  intros I Hp Al. destruct (is_call p) as [(i & cat & k & ->)|N].
  - unfold wexec. simpl wop_well_formed. destruct (Nat.ltb_spec i (length (ww_objs w))) as [L|L].
    + simpl. unfold bind. pose proof (call_ind G St depth i cat k I Hp) as C.
      destruct (call_wrapped E F depth i cat k w) as [v w'|x w'|u|x]; simpl in C; auto.
      * destruct C as (aw' & I' & P' & X & N & Q' & R'). exists aw'. eauto 15 using ext_wext.
      * destruct C as (aw' & I' & P' & X & N & Q'). exists aw'. eauto 15 using ext_wext.
    + exists aw. split; auto. split; auto. split; [apply wext_refl|]. split; auto. left. split; auto.
      apply nth_error_None. auto.
  - destruct (exec_other depth w N) as (r & w' & Ev & O). rewrite Ev. exists aw.
    split; [eapply winv_other; eauto|]. split; [eapply P_other; eauto|]. split; [apply other_wext; auto|]. split; auto.
    destruct p; simpl; auto. exfalso. eapply N; eauto.
Qed.

Lemma run_ind l : forall w aw, winv w aw -> P w aw -> Forall allowed l ->
  match wrun E F depth l w with
  | WFinished outs w' => exists aw', winv w' aw' /\ P w' aw' /\ wext w w' /\ aw_reads aw <= aw_reads aw' /\
      forall n p out, nth_error l n = Some p -> nth_error outs n = Some out ->
        exists w1 w2 aw2, wext w2 w' /\ fine p w1 out w2 aw2
  | WUndefined _ u => H u
  | WTerminated _ _ => False
  end.
Proof.
  induction l as [|p l IH]; intros w aw I Hp Al; simpl.
  - exists aw. split; auto. split; auto. split; [apply wext_refl|]. split; auto. intros [|n] p out Hn; discriminate Hn.
  - inversion Al as [|? ? A1 A2]; subst. pose proof (exec_ind I Hp A1) as X.
    destruct (wexec E F depth p w) as [r w1|x w1|u|x]; auto.
    + destruct X as (aw1 & I1 & P1 & X1 & N1 & F1). specialize (IH w1 aw1 I1 P1 A2).
      destruct (wrun E F depth l w1) as [outs w'|outs u|outs x]; simpl; auto.
      destruct IH as (aw' & I' & P' & X' & N' & F'). exists aw'. split; auto. split; auto.
      split; [eapply wext_trans; eauto|]. split; [lia|].
      intros [|n] q out; simpl; [|apply F'].
      intros Q1 Q2. inversion Q1; inversion Q2; subst. exists w, w1, aw1. auto.
    + destruct X as (aw1 & I1 & P1 & X1 & N1 & F1). specialize (IH w1 aw1 I1 P1 A2).
      destruct (wrun E F depth l w1) as [outs w'|outs u|outs y]; simpl; auto.
      destruct IH as (aw' & I' & P' & X' & N' & F'). exists aw'. split; auto. split; auto.
      split; [eapply wext_trans; eauto|]. split; [lia|].
      intros [|n] q out; simpl; [|apply F'].
      intros Q1 Q2. inversion Q1; inversion Q2; subst. exists w, w1, aw1. auto.
Qed.

End Invariant.

Definition init_aw : aworld := MkAW [] [] [] 0.
Lemma winv_init : winv init_wworld init_aw.
Proof. constructor; simpl; [apply (rel_init E)| |]; discriminate. Qed.

(** *** No conditions *)
Definition any (u : ub) : Prop := u = FuelExhausted \/ u = DeadObject \/ u = DanglingReference.
Lemma steps_true : steps (fun _ _ => True) (fun _ _ _ => True) (fun _ _ _ _ _ _ => True) any.
Proof. constructor; unfold any; auto. Qed.

Lemma wreach depth w : wreachable E F depth w -> exists aw, winv w aw.
Proof.
  intros (ops & outs & Rn).
  assert (X := run_ind steps_true (allowed := fun _ => True) (depth := depth)
    (fun _ _ _ _ _ _ _ _ _ _ _ => Logic.I) (l := ops) winv_init Logic.I (proj2 (Forall_forall _ _) (fun _ _ => Logic.I))).
  rewrite Rn in X. destruct X as (aw & I & _). eauto.
Qed.

Lemma wrun_app depth l l' w : wrun E F depth (l ++ l') w =
  match wrun E F depth l w with
  | WFinished outs w' =>
      match wrun E F depth l' w' with
      | WFinished outs' w'' => WFinished (outs ++ outs') w''
      | WUndefined outs' u => WUndefined (outs ++ outs') u
      | WTerminated outs' x => WTerminated (outs ++ outs') x
      end
  | h => h
  end.
Proof.
  revert w. induction l as [|p l IH]; intros w; simpl.
  - destruct (wrun E F depth l' w); auto.
  - destruct (wexec E F depth p w) as [r w1|x w1|u|x]; auto; rewrite IH; destruct (wrun E F depth l w1) as [outs w'|outs u|outs y]; simpl; auto;
      destruct (wrun E F depth l' w'); auto.
Qed.

Lemma wreach_step depth w p w' : wreachable E F depth w ->
  (exists r, wexec E F depth p w = Val r w' \/ exists x, wexec E F depth p w = Exc x w') -> wreachable E F depth w'.
Proof.
  intros (ops & outs & Rn) (r & [X|(x & X)]); exists (ops ++ [p]); eexists; rewrite wrun_app, Rn; simpl; rewrite X; reflexivity.
Qed.

End Histories.
