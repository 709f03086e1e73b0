(** Lemmas on tables, numbered sequences and permutations. *)
From Coq Require Import List Arith ZArith Bool Permutation Lia.
Import ListNotations.
From Verif Require Import Monad Types Model.
Set Implicit Arguments.

Section Tables.
Context {A : Type}.

Lemma upd_length (l : list A) i a : length (upd l i a) = length l.
Proof. revert i; induction l as [|x l IH]; intros [|i]; simpl; auto. Qed.

Lemma upd_upd (l : list A) i a b : upd (upd l i a) i b = upd l i b.
Proof. revert i; induction l as [|x l IH]; intros [|i]; simpl; f_equal; auto. Qed.

Lemma upd_comm (l : list A) i j a b : i <> j -> upd (upd l i a) j b = upd (upd l j b) i a.
Proof.
  revert i j; induction l as [|x l IH]; intros [|i] [|j] H; simpl; auto; try lia.
  f_equal; apply IH; lia.
Qed.

Lemma nth_upd_other (l : list A) i j a d : i <> j -> nth j (upd l i a) d = nth j l d.
Proof.
  revert i j; induction l as [|x l IH]; intros [|i] [|j] H; simpl; auto; try lia.
Qed.

Lemma nth_upd_same (l : list A) i a d : i < length l -> nth i (upd l i a) d = a.
Proof.
  revert i; induction l as [|x l IH]; intros [|i] H; simpl in *; auto; try lia.
  apply IH; lia.
Qed.
End Tables.

Section Slots.
Context {A : Type}.
Implicit Type l : list (option A).

Lemma slot_lt l i a : slot l i = Some a -> i < length l.
Proof.
  unfold slot; intros H. destruct (Nat.lt_ge_cases i (length l)) as [|Hge]; auto.
  rewrite nth_overflow in H by lia; discriminate.
Qed.

Lemma slot_upd_same l i a b : slot l i = Some a -> slot (upd l i b) i = b.
Proof. intros H; apply nth_upd_same; eapply slot_lt; eauto. Qed.

Lemma slot_upd_lt l i b : i < length l -> slot (upd l i b) i = b.
Proof. intros H; apply nth_upd_same; auto. Qed.

Lemma slot_upd_other l i j b : i <> j -> slot (upd l i b) j = slot l j.
Proof. intros; apply nth_upd_other; auto. Qed.

Lemma upd_slot l i a : slot l i = Some a -> upd l i (Some a) = l.
Proof.
  unfold slot; revert i; induction l as [|x l IH]; intros [|i] H; simpl in *; auto.
  - subst; auto.
  - f_equal; auto.
Qed.

Lemma slot_app_lt l l' i : i < length l -> slot (l ++ l') i = slot l i.
Proof. intros; unfold slot; apply app_nth1; auto. Qed.

Lemma slot_app_new l a : slot (l ++ [Some a]) (length l) = Some a.
Proof. unfold slot; rewrite app_nth2, Nat.sub_diag; auto. Qed.

Lemma slot_app_some l a i b :
  slot (l ++ [Some a]) i = Some b ->
  (i < length l /\ slot l i = Some b) \/ (i = length l /\ b = a).
Proof.
  intros H. pose proof (slot_lt _ _ H) as L. rewrite app_length in L; simpl in L.
  destruct (Nat.eq_dec i (length l)) as [->|].
  - rewrite slot_app_new in H; inversion H; auto.
  - left; rewrite slot_app_lt in H by lia; split; auto; lia.
Qed.

Lemma slot_overflow l i : length l <= i -> slot l i = None.
Proof. intros; unfold slot; apply nth_overflow; auto. Qed.
End Slots.

Section Assoc.
Context {A : Type}.
Implicit Type l : list (nat * A).

Lemma assoc_in l i a : assoc i l = Some a -> In (i, a) l.
Proof.
  induction l as [|[j b] l IH]; simpl; [discriminate|].
  destruct (Nat.eqb_spec i j); intros H.
  - inversion H; subst; auto.
  - auto.
Qed.

Lemma in_assoc l i a : NoDup (map fst l) -> In (i, a) l -> assoc i l = Some a.
Proof.
  induction l as [|[j b] l IH]; simpl; [easy|].
  intros ND [H|H].
  - inversion H; subst; rewrite Nat.eqb_refl; auto.
  - inversion ND; subst. destruct (Nat.eqb_spec i j).
    + subst; exfalso; apply H2; apply (in_map fst) in H; auto.
    + auto.
Qed.

Lemma assoc_none l i : ~ In i (map fst l) -> assoc i l = None.
Proof.
  induction l as [|[j b] l IH]; simpl; auto.
  intros H. destruct (Nat.eqb_spec i j); [subst; exfalso; auto|]. auto.
Qed.

Lemma assoc_perm l l' i : NoDup (map fst l) -> Permutation l l' -> assoc i l = assoc i l'.
Proof.
  intros ND P.
  assert (ND' : NoDup (map fst l')) by (eapply Permutation_NoDup; [apply Permutation_map; eauto|auto]).
  destruct (assoc i l) eqn:H.
  - symmetry; apply in_assoc; auto. eapply Permutation_in; eauto. apply assoc_in; auto.
  - destruct (assoc i l') eqn:H'; auto.
    apply assoc_in in H'. apply Permutation_sym in P.
    pose proof (Permutation_in _ P H') as I. rewrite (in_assoc _ _ _ ND I) in H; discriminate.
Qed.

Lemma unassoc_mid l l' i a : ~ In i (map fst l) -> unassoc i (l ++ (i, a) :: l') = l ++ l'.
Proof.
  induction l as [|[j b] l IH]; simpl; intros H.
  - rewrite Nat.eqb_refl; auto.
  - destruct (Nat.eqb_spec i j); [subst; exfalso; auto|]. f_equal; auto.
Qed.

Lemma unassoc_none l i : ~ In i (map fst l) -> unassoc i l = l.
Proof.
  induction l as [|[j b] l IH]; simpl; intros H; auto.
  destruct (Nat.eqb_spec i j); [subst; exfalso; auto|]. f_equal; auto.
Qed.

Lemma unassoc_perm l l' i : NoDup (map fst l) -> Permutation l l' ->
  Permutation (unassoc i l) (unassoc i l').
Proof.
  intros ND P. destruct (in_dec Nat.eq_dec i (map fst l)) as [I|N].
  - apply in_map_iff in I as ([j a] & Hj & I); simpl in Hj; subst j.
    assert (ND' : NoDup (map fst l')) by (eapply Permutation_NoDup; [apply Permutation_map; eauto|auto]).
    pose proof (Permutation_in _ P I) as I'.
    apply in_split in I as (l1 & l2 & ->). apply in_split in I' as (m1 & m2 & ->).
    rewrite map_app in ND, ND'; simpl in ND, ND'.
    rewrite !unassoc_mid.
    + eapply Permutation_app_inv; eauto.
    + apply NoDup_remove_2 in ND'; intro; apply ND'; apply in_or_app; auto.
    + apply NoDup_remove_2 in ND; intro; apply ND; apply in_or_app; auto.
  - rewrite !unassoc_none; auto.
    intro; apply N. eapply Permutation_in; [apply Permutation_sym, Permutation_map; eauto|auto].
Qed.

Lemma alter_perm l l' i f : Permutation l l' -> Permutation (alter i f l) (alter i f l').
Proof. intros; unfold alter; apply Permutation_map; auto. Qed.

Lemma alter_app l l' i f : alter i f (l ++ l') = alter i f l ++ alter i f l'.
Proof. apply map_app. Qed.

Lemma alter_none l i f : ~ In i (map fst l) -> alter i f l = l.
Proof.
  induction l as [|[j b] l IH]; simpl; intros H; auto.
  destruct (Nat.eqb_spec i j); [subst; exfalso; auto|]. f_equal; auto.
Qed.

Lemma alter_fst l i f : map fst (alter i f l) = map fst l.
Proof.
  unfold alter; rewrite map_map; apply map_ext; intros [j b]; simpl.
  destruct (i =? j); auto.
Qed.

Lemma assoc_unassoc_other l i j : i <> j -> assoc i (unassoc j l) = assoc i l.
Proof.
  intros N. induction l as [|[m b] l IH]; simpl; auto.
  destruct (Nat.eqb_spec j m) as [->|Q]; simpl.
  - destruct (Nat.eqb_spec i m); [congruence|auto].
  - destruct (i =? m); auto.
Qed.

Lemma unassoc_length l i a : assoc i l = Some a -> S (length (unassoc i l)) = length l.
Proof.
  induction l as [|[j b] l IH]; simpl; [discriminate|].
  destruct (i =? j); simpl; auto.
Qed.
End Assoc.

Section Finds.
Context {A : Type}.

Lemma find_perm (f : A -> bool) l l' :
  (forall x y, In x l -> In y l -> f x = true -> f y = true -> x = y) ->
  Permutation l l' -> List.find f l = List.find f l'.
Proof.
  intros U P. destruct (List.find f l) eqn:H.
  - apply find_some in H as (I & F).
    destruct (List.find f l') eqn:H'.
    + apply find_some in H' as (I' & F'). f_equal; apply U; auto.
      eapply Permutation_in; [apply Permutation_sym; eauto|auto].
    + exfalso. pose proof (find_none _ _ H' _ (Permutation_in _ P I)). congruence.
  - destruct (List.find f l') eqn:H'; auto.
    apply find_some in H' as (I' & F').
    exfalso. pose proof (find_none _ _ H _ (Permutation_in _ (Permutation_sym P) I')). congruence.
Qed.

Lemma find_map {B} (g : B -> A) (f : A -> bool) l :
  List.find f (map g l) = option_map g (List.find (fun b => f (g b)) l).
Proof. induction l as [|x l IH]; simpl; auto. destruct (f (g x)); auto. Qed.

Lemma find_split (f : A -> bool) l x :
  List.find f l = Some x ->
  exists a b, l = a ++ x :: b /\ f x = true /\ List.find f a = None.
Proof.
  induction l as [|y l IH]; simpl; [discriminate|].
  destruct (f y) eqn:F.
  - intros H; inversion H; subst. exists [], l; auto.
  - intros H. destruct (IH H) as (a & b & -> & F' & N). exists (y :: a), b; simpl; rewrite F; auto.
Qed.
End Finds.
