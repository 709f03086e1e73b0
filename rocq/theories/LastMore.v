(** Consequences for programs with LastAccessed objects. *)
From Coq Require Import List Arith Bool Lia.
Import ListNotations.
From Verif Require Import Monad LastObj SpecLast LastProofs.
Set Implicit Arguments.

Section LastMore.
Context {K I : Type}.
Variable equal : nat -> K -> K -> option bool.
Notation lop := (lop K I).
Notation lstate := (lstate K I).
Notation init := (@init_lstate K I).

Lemma made_more (q : lop) h : objs_made h <= objs_made (q :: h).
Proof. unfold objs_made, counts. simpl. destruct q; simpl; lia. Qed.
Lemma made_app (m h : list lop) : objs_made h <= objs_made (m ++ h).
Proof. induction m as [|q m IH]; simpl; auto. pose proof (made_more q (m ++ h)). lia. Qed.

Lemma unconcerned (m h : list lop) x : existsb (concerns x) m = false -> x < objs_made h ->
  given (m ++ h) x = given h x /\ compares_with (m ++ h) x = compares_with h x.
Proof.
  induction m as [|q m IH]; [auto|]. intros H Hx. simpl in H. apply orb_false_iff in H as (Q & H).
  destruct (IH H Hx) as (G & C). pose proof (made_app m h) as L.
  assert (N : Nat.eqb x (objs_made (m ++ h)) = false) by (apply Nat.eqb_neq; lia).
  destruct q; simpl in *; rewrite ?N, ?Q; auto; try (destruct it; rewrite ?N, ?Q; auto; fail).
  apply orb_false_iff in Q as (-> & ->). auto.
Qed.
Lemma existsb_rev (x : nat) (m : list lop) : existsb (concerns x) (rev m) = existsb (concerns x) m.
Proof.
  induction m; simpl; auto. rewrite existsb_app, IHm. simpl. rewrite orb_false_r. apply orb_comm.
Qed.

(** The runs of two pieces. *)
Lemma lrun_app (l : list lop) : forall (m : list lop) (st : lstate), lrun equal (l ++ m) st =
  match lrun equal l st with
  | Some (o, st1) => option_map (fun p => (o ++ fst p, snd p)) (lrun equal m st1)
  | None => None
  end.
Proof.
  induction l as [|q l IH]; simpl; intros m st.
  - destruct (lrun equal m st) as [(o, s)|]; reflexivity.
  - destruct (lexec equal q st) as [r st1| | |]; auto. rewrite IH.
    destruct (lrun equal l st1) as [(o, s)|]; simpl; auto. destruct (lrun equal m s) as [(o', s')|]; reflexivity.
Qed.
Lemma lrun_length (l : list lop) : forall (st : lstate) o st', lrun equal l st = Some (o, st') -> length o = length l.
Proof.
  induction l as [|q l IH]; simpl; intros st o st' H; [injection H as <- <-; auto|].
  destruct (lexec equal q st) as [r st1| | |]; try discriminate. destruct (lrun equal l st1) as [(o1, s)|] eqn:R; [|discriminate].
  simpl in H. injection H as <- <-. simpl. f_equal. eapply IH; eauto.
Qed.
Lemma lrun_middle l q m o st : lrun equal (l ++ q :: m) init = Some (o, st) ->
  exists o1 st1 r st2 o2, lrun equal l init = Some (o1, st1) /\ lexec equal q st1 = Val r st2 /\
    lrun equal m st2 = Some (o2, st) /\ o = o1 ++ r :: o2 /\ nth_error o (length l) = Some r.
Proof.
  rewrite lrun_app. destruct (lrun equal l init) as [(o1, st1)|] eqn:L; [|discriminate]. simpl.
  destruct (lexec equal q st1) as [r st2| | |] eqn:Q; try discriminate.
  destruct (lrun equal m st2) as [(o2, s)|] eqn:R; [|discriminate]. simpl. intros H. injection H as <- <-.
  exists o1, st1, r, st2, o2. repeat split; auto. rewrite <- (lrun_length _ _ L).
  rewrite nth_error_app2, Nat.sub_diag by lia. reflexivity.
Qed.
Lemma step_tale l o st q r st' : lrun equal l init = Some (o, st) -> lexec equal q st = Val r st' ->
  foretold equal (rev l) q = Tells r.
Proof. intros H X. rewrite <- (last_foretold equal _ q H), X. reflexivity. Qed.
Lemma whether_tells c (t : @tale K I) r : whether c t = Tells r -> c = true /\ t = Tells r.
Proof. destruct c; simpl; auto; discriminate. Qed.


Lemma foretold_obj l o st q : lrun equal l init = Some (o, st) ->
  forall r, foretold equal (rev l) q = Tells r -> ends (lexec equal q st) = Tells r.
Proof. intros H r <-. apply (last_foretold equal _ _ H). Qed.

Lemma rev_middle (l : list lop) q m : rev (l ++ q :: m) = rev m ++ (q :: rev l).
Proof. rewrite rev_app_distr. simpl. rewrite <- app_assoc. reflexivity. Qed.

Theorem last_given l q m o st x a b r :
  lrun equal (l ++ q :: m) init = Some (o, st) -> nth_error o (length l) = Some r -> gives x a b q r ->
  existsb (concerns x) m = false ->
  ends (lexec equal (LValid x) st) = Tells (LBool true) /\
  ends (lexec equal (LKey x) st) = ends (lexec equal (LReadKey a) st) /\
  ends (lexec equal (LInfo x) st) = ends (lexec equal (LReadInfo b) st).
Proof.
  intros H N G C. destruct (lrun_middle _ _ _ H) as (o1 & st1 & r' & st2 & o2 & L & Q & R & E & N').
  rewrite N' in N. injection N as ->. pose proof (step_tale _ _ L Q) as F.
  assert (X : x < objs_made (q :: rev l) /\ given (q :: rev l) x = Some (a, b)).
  { destruct G as [e|e|]; simpl in F; apply whether_tells in F as (F1 & F).
    - injection F as <-. simpl. rewrite Nat.eqb_refl. unfold objs_made, counts. simpl. split; auto.
    - injection F as <-. simpl. rewrite Nat.eqb_refl. unfold objs_made, counts. simpl. split; auto.
    - apply andb_true_iff in F1 as (F1 & _). simpl. rewrite Nat.eqb_refl. split; auto. apply Nat.ltb_lt in F1. auto. }
  destruct X as (X & G'). rewrite <- existsb_rev in C. destruct (unconcerned _ _ C X) as (G2 & _). rewrite G' in G2.
  rewrite !(last_foretold equal _ _ H). rewrite rev_middle. simpl. rewrite G2. unfold exist_obj.
  pose proof (made_app (rev m) (q :: rev l)). rewrite (proj2 (Nat.ltb_lt _ _)) by lia. simpl. auto.
Qed.

Theorem last_invalid l m o st x :
  lrun equal (l ++ LInvalidate x :: m) init = Some (o, st) -> existsb (concerns x) m = false ->
  ends (lexec equal (LValid x) st) = Tells (LBool false) /\
  (forall k, ends (lexec equal (LEq x k) st) = Tells (LBool false)) /\
  (forall k, ends (lexec equal (LNe x k) st) = Tells (LBool true)) /\
  ends (lexec equal (LKey x) st) = Breaks /\ ends (lexec equal (LInfo x) st) = Breaks.
Proof.
  intros H C. destruct (lrun_middle _ _ _ H) as (o1 & st1 & r' & st2 & o2 & L & Q & R & E & N').
  pose proof (step_tale _ _ L Q) as F. simpl in F. apply whether_tells in F as (F & _). apply Nat.ltb_lt in F.
  assert (X : x < objs_made (LInvalidate x :: rev l)) by auto.
  rewrite <- existsb_rev in C. destruct (unconcerned _ _ C X) as (G & _). simpl in G. rewrite Nat.eqb_refl in G.
  pose proof (made_app (rev m) (LInvalidate x :: rev l)). assert (B : Nat.ltb x (objs_made (rev m ++ LInvalidate x :: rev l)) = true) by (apply Nat.ltb_lt; lia).
  repeat split; try intros k; rewrite (last_foretold equal _ _ H); rewrite rev_middle; simpl; unfold exist_obj, versus; rewrite ?B, G; reflexivity.
Qed.

(** Objects that agree. *)
Lemma agree h x y q q' : given h x = given h y -> compares_with h x = compares_with h y ->
  exist_obj (K := K) (I := I) h x = true -> exist_obj h y = true -> asks x q q' y ->
  foretold equal h q = foretold equal h q'.
Proof.
  intros G C X Y A. destruct A; simpl; unfold versus_iter, versus; rewrite ?X, ?Y, ?G, ?C; reflexivity.
Qed.
Theorem last_copy l m o st x y q q' :
  lrun equal (l ++ LCopy x :: m) init = Some (o, st) -> nth_error o (length l) = Some (LNum y) ->
  existsb (concerns x) m = false -> existsb (concerns y) m = false -> asks x q q' y ->
  ends (lexec equal q st) = ends (lexec equal q' st).
Proof.
  intros H N Cx Cy A. destruct (lrun_middle _ _ _ H) as (o1 & st1 & r' & st2 & o2 & L & Q & R & E & N').
  rewrite N' in N. injection N as ->. pose proof (step_tale _ _ L Q) as F. simpl in F. apply whether_tells in F as (F & F').
  injection F' as <-. apply Nat.ltb_lt in F.
  assert (M : objs_made (LCopy x :: rev l) = S (objs_made (rev l))) by reflexivity.
  rewrite <- existsb_rev in Cx, Cy.
  destruct (unconcerned _ (LCopy x :: rev l) Cx ltac:(lia)) as (G1 & C1).
  destruct (unconcerned _ (LCopy x :: rev l) Cy ltac:(lia)) as (G2 & C2).
  simpl in G1, C1, G2, C2. rewrite Nat.eqb_refl in G2, C2. replace (Nat.eqb x (objs_made (rev l))) with false in G1, C1 by (symmetry; apply Nat.eqb_neq; lia).
  pose proof (made_app (rev m) (LCopy x :: rev l)).
  rewrite !(last_foretold equal _ _ H), rev_middle. apply agree with (x := x) (y := objs_made (rev l)); auto; try congruence;
    unfold exist_obj; apply Nat.ltb_lt; lia.
Qed.

Lemma unexchanged (m h : list lop) x : existsb (exchanges x) m = false -> x < objs_made h ->
  compares_with (m ++ h) x = compares_with h x.
Proof.
  induction m as [|q m IH]; [auto|]. intros H Hx. simpl in H. apply orb_false_iff in H as (Q & H).
  specialize (IH H Hx). pose proof (made_app m h) as L.
  assert (N : Nat.eqb x (objs_made (m ++ h)) = false) by (apply Nat.eqb_neq; lia).
  destruct q; simpl in *; rewrite ?N, ?Q; auto.
  apply orb_false_iff in Q as (-> & ->). auto.
Qed.
Lemma existsb_rev' (x : nat) (m : list lop) : existsb (exchanges x) (rev m) = existsb (exchanges x) m.
Proof.
  induction m; simpl; auto. rewrite existsb_app, IHm. simpl. rewrite orb_false_r. apply orb_comm.
Qed.

Theorem last_equal l q m o st x e k k' :
  lrun equal (l ++ q :: m) init = Some (o, st) -> nth_error o (length l) = Some (LNum x) -> makes_with e q ->
  existsb (exchanges x) m = false -> ends (lexec equal (LKey x) st) = Tells (LKeyIs k') ->
  ends (lexec equal (LEq x k) st) = says (equal e k k').
Proof.
  intros H N G C A. destruct (lrun_middle _ _ _ H) as (o1 & st1 & r' & st2 & o2 & L & Q & R & E & N').
  rewrite N' in N. injection N as ->. pose proof (step_tale _ _ L Q) as F.
  assert (X : x < objs_made (q :: rev l) /\ compares_with (q :: rev l) x = e).
  { destruct G as [|a b|it]; simpl in F; try apply whether_tells in F as (F1 & F);
    injection F as <-; simpl; rewrite Nat.eqb_refl; unfold objs_made, counts; simpl; split; auto. }
  destruct X as (X & G'). rewrite <- existsb_rev' in C. pose proof (unexchanged _ _ C X) as G2. rewrite G' in G2.
  rewrite (last_foretold equal _ _ H), rev_middle in A. rewrite (last_foretold equal _ _ H), rev_middle. simpl in *. unfold exist_obj, versus.
  pose proof (made_app (rev m) (q :: rev l)). rewrite (proj2 (Nat.ltb_lt _ _)) by lia. simpl.
  destruct (given (rev m ++ q :: rev l) x) as [(a, b)|]; [|discriminate].
  destruct (key_now (rev m ++ q :: rev l) a) as [(k1, c)|]; [|discriminate]. injection A as ->. rewrite G2.
  destruct (equal e k k') as [[]|]; reflexivity.
Qed.

(** Comparison with iterators. *)
Theorem last_iter l o st x a b k :
  lrun equal l init = Some (o, st) -> ends (lexec equal (LReadKey a) st) = Tells (LKeyIs k) ->
  ends (lexec equal (LEqIt x (IAt a b)) st) = ends (lexec equal (LEq x k) st) /\
  ends (lexec equal (LNeIt x (IAt a b)) st) = ends (lexec equal (LNe x k) st).
Proof.
  intros H A. rewrite (last_foretold equal _ _ H) in A. rewrite !(last_foretold equal _ _ H). simpl in *.
  destruct (key_now (rev l) a) as [(k1, c)|]; [|discriminate]. injection A as ->. auto.
Qed.
Theorem last_end l o st x : lrun equal l init = Some (o, st) ->
  ends (lexec equal (LEqIt x IEnd) st) = Breaks /\ ends (lexec equal (LNeIt x IEnd) st) = Breaks.
Proof.
  intros H. rewrite !(last_foretold equal _ _ H). simpl. destruct (exist_obj (rev l) x); auto.
Qed.
Theorem last_not l o st x k : lrun equal l init = Some (o, st) ->
  ends (lexec equal (LNe x k) st) = opposite (ends (lexec equal (LEq x k) st)).
Proof.
  intros H. rewrite !(last_foretold equal _ _ H). simpl. destruct (exist_obj (rev l) x); simpl; auto.
  unfold versus. destruct (given (rev l) x) as [(a, b)|]; simpl; auto. destruct (key_now (rev l) a) as [(k1, c)|]; simpl; auto.
  destruct (equal (compares_with (rev l) x) k k1) as [[]|]; reflexivity.
Qed.
End LastMore.
