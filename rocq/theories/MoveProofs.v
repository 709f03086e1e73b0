(** Copies and moves: what the counted functions cost. *)
From Coq Require Import List Arith ZArith Bool Lia.
Import ListNotations.
From Verif Require Import Monad Types Model Api Spec Ref Lists SimBase SimRel RefEval SimRun Effects
  CallProofs LruProofs LruMore Settings Moves SpecMoves.
Set Implicit Arguments.
Unset Strict Implicit.
Local Open Scope cpp_scope.

Section MoveProofs.
Context {K V : Type}.
Variable E : env K V.
Notation world := (world K V).
Notation tworld := (tworld K V).
Notation T := (M tworld).
Notation MM := (M world).
Implicit Types (h : tworld) (w : world).

(** ** The same calls *)
Definition same {A} (mh : T A) (m : MM A) : Prop := forall h, uncounted (mh h) = m (t_world h).
Lemma same_bind {A B} (mh : T A) (m : MM A) (kh : A -> T B) (k : A -> MM B) :
  same mh m -> (forall a, same (kh a) (k a)) -> same (bind mh kh) (bind m k).
Proof.
  intros X Y h. unfold bind. rewrite <- X. destruct (mh h); simpl; auto. apply Y.
Qed.
Lemma same_lift {A} (m : MM A) : same (tlift m) m.
Proof. intros h. unfold tlift. destruct (m (t_world h)); auto. Qed.
Lemma same_ret {A} (a : A) : same (ret a) (ret a). Proof. intros h. auto. Qed.
Lemma same_throw {A} e : same (@throw _ A e) (throw e). Proof. intros h. auto. Qed.
Lemma same_undef {A} u : same (@undef _ A u) (undef u). Proof. intros h. auto. Qed.
Lemma same_tick {A} f (kh : T A) m : same kh m -> same (tick f;;; kh) m.
Proof. intros X h. unfold bind, tick, modify. rewrite X. auto. Qed.
Lemma same_key {A} a (kh : T A) m : same kh m -> same (make_key a;;; kh) m.
Proof. intros X. destruct a; try (apply same_tick; auto). intros h. apply X. Qed.
Lemma same_val {A} a (kh : T A) m : same kh m -> same (make_val a;;; kh) m.
Proof. intros X. destruct a; try (apply same_tick; auto). intros h. apply X. Qed.
Lemma same_foldM {A B} (fh : B -> A -> T B) (f : B -> A -> MM B) l : (forall b a, same (fh b a) (f b a)) ->
  forall b, same (foldM fh l b) (foldM f l b).
Proof.
  intros X. induction l as [|a l IH]; intros b; simpl; [apply same_ret|]. apply same_bind; auto.
Qed.
Ltac sam := repeat match goal with
  | |- same (bind (tick _) _) _ => apply same_tick
  | |- same (bind copy_key _) _ => apply same_tick
  | |- same (bind copy_val _) _ => apply same_tick
  | |- same (bind move_key _) _ => apply same_tick
  | |- same (bind move_val _) _ => apply same_tick
  | |- same (bind (make_key _) _) _ => apply same_key
  | |- same (bind (make_val _) _) _ => apply same_val
  | |- same (bind _ _) (bind _ _) => apply same_bind; [|intros]
  | |- same (tlift _) _ => apply same_lift
  | |- same (ret _) _ => apply same_ret
  | |- same (throw _) _ => apply same_throw
  | |- same (undef _) _ => apply same_undef
  | |- same (match ?x with _ => _ end) _ => destruct x
  | |- same (if ?x then _ else _) _ => destruct x
  | |- same (foldM _ _ _) _ => apply same_foldM; intros
  end.
Lemma same_mtfv c i v : same (t_move_to_front_value E c i v) (move_to_front_value E c i v).
Proof. unfold t_move_to_front_value, move_to_front_value. sam. Qed.
Lemma same_insert c k v : same (t_insert E c k v) (insert E c k v).
Proof. unfold t_insert, insert. sam. apply same_mtfv. Qed.
Lemma same_emplace c a b k v : same (t_emplace E c a b k v) (emplace E c k v).
Proof. unfold t_emplace, emplace. sam. apply same_mtfv. Qed.
Lemma same_insert_range c l : same (t_insert_range E c l) (insert_range E c l).
Proof. unfold t_insert_range, insert_range. sam. apply same_insert. Qed.
Lemma same_insert_move c l : same (t_insert_move E c l) (insert_move E c l).
Proof. unfold t_insert_move, insert_move. sam. apply same_emplace. Qed.
Lemma same_with_new n ttl bh b : (forall c, same (bh c) (b c)) -> same (@t_with_new K V n ttl bh) (with_new n ttl b).
Proof.
  intros X. unfold t_with_new, with_new. apply same_bind; [apply same_lift|]. intros c h. rewrite <- X.
  destruct (bh c h) as [r h1|e h1|u|e]; auto. simpl.
  change ((destroy c;;; throw e) (t_world h1)) with (((destroy c;;; throw e) : MM nat) (t_world h1)).
  rewrite <- (same_bind (mh := tlift (destroy c)) (kh := fun _ => @throw _ nat e) (k := fun _ => throw e)); auto.
  - apply same_lift.
  - intros; apply same_throw.
Qed.
Lemma same_calls a b o h : storing o = true -> uncounted (t_exec E a b o h) = exec E o (t_world h).
Proof.
  intros S. unfold t_exec, exec. destruct (well_formed (t_world h) o); auto. revert h.
  change (same (t_body E a b o) (body E o)).
  destruct o; try discriminate S; simpl;
    unfold t_assign_range, t_assign_move, assign_range, assign_move, t_new_from, t_new_from_move,
      new_from, new_from_move, new_from_iters, new_from_rvalue, new_from_list, new_from, new_from_move; sam;
    auto using same_insert, same_emplace, same_insert_range, same_insert_move;
    apply same_with_new; intros; auto using same_insert_range, same_insert_move.
Qed.

(** ** The price *)
Lemma tlift_val {A} (m : MM A) h (x : A) h' : tlift m h = Val x h' ->
  m (t_world h) = Val x (t_world h') /\ t_tally h' = t_tally h.
Proof. unfold tlift. destruct (m (t_world h)); intros X; inversion X; auto. Qed.
Lemma bind_inv {S A B} (m : M S A) (k : A -> M S B) (s s' : S) r : bind m k s = Val r s' ->
  exists x s1, m s = Val x s1 /\ k x s1 = Val r s'.
Proof. unfold bind. destruct (m s) as [x s1| | |]; intros X; try discriminate. eauto. Qed.

Ltac inv := repeat match goal with
  | H : bind _ _ _ = Val _ _ |- _ => apply bind_inv in H; destruct H as (? & ? & ? & H)
  | H : tlift _ _ = Val _ _ |- _ => apply tlift_val in H; destruct H as (? & H)
  | H : ret _ _ = Val _ _ |- _ => unfold ret in H; inversion H; subst; clear H
  | H : undef _ _ = Val _ _ |- _ => discriminate H
  | H : throw _ _ = Val _ _ |- _ => discriminate H
  | H : tick _ _ = Val _ _ |- _ => unfold tick, modify in H; inversion H; subst; clear H
  | H : (let '(_, _) := ?x in _) _ = Val _ _ |- _ => destruct x
  | H : (if ?x then _ else _) _ = Val _ _ |- _ => destruct x eqn:?
  | H : (match ?x with Some _ => _ | None => _ end) _ = Val _ _ |- _ => destruct x eqn:?
  end.

Definition cap_at c w (n : nat) : Prop := exists x, slot (w_caches w) c = Some x /\ c_cap x = n.
Lemma capacity_val c w n w' : capacity c w = Val n w' -> cap_at c w n.
Proof.
  unfold capacity, bind, get_cache. destruct (slot (w_caches w) c) as [x|] eqn:Q; intros X; inversion X; subst.
  exists x. auto.
Qed.
Lemma cap_at_inj c w n m : cap_at c w n -> cap_at c w m -> n = m.
Proof. intros (x & X & <-) (y & Y & <-). congruence. Qed.

Definition once (n : nat) : nat := if Nat.eqb n 0 then 0 else 1.


Ltac tal := simpl in *; unfold plus; simpl;
  repeat (match goal with H : t_tally ?x = _ |- context [t_tally ?x] => rewrite H end; simpl);
  unfold plus; simpl; try (f_equal; lia).

Lemma plus_assoc s t u : plus (plus s t) u = plus s (plus t u).
Proof. unfold plus. simpl. f_equal; lia. Qed.
Lemma plus_0 s : plus s (MkTally 0 0 0 0) = s.
Proof. destruct s. unfold plus. simpl. f_equal; lia. Qed.

Lemma mtfv_price c i v h x h' : t_move_to_front_value E c i v h = Val x h' ->
  t_tally h' = plus (t_tally h) (MkTally 0 0 1 0).
Proof. unfold t_move_to_front_value, copy_val. intros X. inv. tal. Qed.
Lemma insert_cost c k v h n r h' : cap_at c (t_world h) n -> t_insert E c k v h = Val r h' ->
  t_tally h' = plus (t_tally h) (insert_price (once n) (if fst r then 1 else 0)) /\
  (ui_pos (snd r) = UEnd c <-> n = 0).
Proof.
  intros C X. unfold t_insert, copy_key, copy_val, move_val in X. apply bind_inv in X as (m & h1 & X1 & X).
  apply tlift_val in X1 as (X1 & X2). apply capacity_val in X1. rewrite (cap_at_inj X1 C) in *. clear m X1.
  unfold once. destruct (Nat.eqb n 0) eqn:Z.
  - apply Nat.eqb_eq in Z. subst n. inv. split; [simpl; unfold insert_price; rewrite plus_0; auto|]. split; auto.
  - apply Nat.eqb_neq in Z. inv; simpl.
    + split; [|split; [discriminate|intros; contradiction]].
      match goal with H : t_move_to_front_value _ _ _ _ _ = _ |- _ => apply mtfv_price in H end. tal.
    + split; [tal|split; [discriminate|intros; contradiction]].
Qed.
Lemma make_key_tally a h x h' : make_key a h = Val x h' ->
  t_tally h' = plus (t_tally h) (MkTally (match a with ByCopy => 1 | _ => 0 end) (match a with ByMove => 1 | _ => 0 end) 0 0) /\
  t_world h' = t_world h.
Proof. destruct a; unfold make_key, copy_key, move_key; intros X; inv; split; auto; tal. destruct (t_tally h'); simpl; f_equal; lia. Qed.
Lemma make_val_tally a h x h' : make_val a h = Val x h' ->
  t_tally h' = plus (t_tally h) (MkTally 0 0 (match a with ByCopy => 1 | _ => 0 end) (match a with ByMove => 1 | _ => 0 end)) /\
  t_world h' = t_world h.
Proof. destruct a; unfold make_val, copy_val, move_val; intros X; inv; split; auto; tal. destruct (t_tally h'); simpl; f_equal; lia. Qed.
Lemma emplace_cost c a b k v h n r h' : cap_at c (t_world h) n -> t_emplace E c a b k v h = Val r h' ->
  t_tally h' = plus (t_tally h) (emplace_price a b (once n) (if fst r then 1 else 0)) /\
  (ui_pos (snd r) = UEnd c <-> n = 0).
Proof.
  intros C X. unfold t_emplace, move_key, move_val in X. apply bind_inv in X as (m & h1 & X1 & X).
  apply tlift_val in X1 as (X1 & X2). apply capacity_val in X1. rewrite (cap_at_inj X1 C) in *. clear m X1.
  unfold once. destruct (Nat.eqb n 0) eqn:Z.
  - apply Nat.eqb_eq in Z. subst n. inv. split; [|split; auto].
    unfold emplace_price. rewrite X2. destruct (t_tally h), a, b; unfold plus; simpl; f_equal; lia.
  - apply Nat.eqb_neq in Z. inv; simpl;
      (split; [|split; [discriminate|intros; contradiction]]);
      repeat match goal with
      | H : t_move_to_front_value _ _ _ _ _ = _ |- _ => apply mtfv_price in H
      | H : make_key _ _ = _ |- _ => apply make_key_tally in H as (H & _)
      | H : make_val _ _ = _ |- _ => apply make_val_tally in H as (H & _)
      end; tal; destruct a, b; simpl; f_equal; lia.
Qed.


Lemma cap_kept_insert c k v w n r w1 : cap_at c w n -> insert E c k v w = Val r w1 -> cap_at c w1 n.
Proof.
  intros (x & Q & <-) X. pose proof (@k_insert K V E _ (fun n _ _ _ => n) (fun _ => false) c k v w) as Y. rewrite X in Y.
  destruct (Y c x Q eq_refl) as (x' & Q' & G). exists x'. auto.
Qed.
Lemma cap_kept_emplace c k v w n r w1 : cap_at c w n -> emplace E c k v w = Val r w1 -> cap_at c w1 n.
Proof.
  intros (x & Q & <-) X. pose proof (@k_emplace K V E _ (fun n _ _ _ => n) (fun _ => false) c k v w) as Y. rewrite X in Y.
  destruct (Y c x Q eq_refl) as (x' & Q' & G). exists x'. auto.
Qed.
Lemma same_fwd {A} (mh : T A) m h x h' : same mh m -> mh h = Val x h' -> m (t_world h) = Val x (t_world h').
Proof. intros X Y. rewrite <- X, Y. auto. Qed.

Lemma insert_range_cost c l n : forall h cnt m h', cap_at c (t_world h) n ->
  foldM (fun cnt p => r <- t_insert E c (fst p) (snd p);; ret (if fst r then S cnt else cnt)) l cnt h = Val m h' ->
  cnt <= m /\ m - cnt <= once n * length l /\
  t_tally h' = plus (t_tally h) (insert_price (once n * length l) (m - cnt)).
Proof.
  induction l as [|p l IH]; intros h cnt m h' C X; simpl in X.
  - inv. rewrite Nat.sub_diag, Nat.mul_0_r. split; auto. split; auto. rewrite plus_0. auto.
  - apply bind_inv in X as (b & h1 & X1 & X). apply bind_inv in X1 as (r & h2 & X1 & X2). inv.
    destruct (insert_cost C X1) as (T1 & T2).
    apply (same_fwd (@same_insert c (fst p) (snd p))) in X1 as X3.
    destruct (IH h1 _ _ _ (cap_kept_insert C X3) X) as (L & L2 & Q).
    assert (N : once n = 0 -> fst r = false).
    { unfold once. destruct (Nat.eqb n 0) eqn:Z; [|discriminate]. intros _. apply Nat.eqb_eq in Z. subst n.
      unfold t_insert in X1. apply bind_inv in X1 as (m0 & h3 & X1 & Y). apply tlift_val in X1 as (X1 & _).
      apply capacity_val in X1. rewrite (cap_at_inj X1 C) in Y. simpl in Y. inv. auto. }
    simpl length. destruct (fst r) eqn:B.
    + assert (once n <> 0) by (intros Z; apply N in Z; discriminate).
      assert (once n = 1) by (unfold once in *; destruct (Nat.eqb n 0); auto; lia).
      split; [lia|]. split; [nia|]. rewrite Q, T1, plus_assoc. f_equal. unfold insert_price, plus. simpl. f_equal; nia.
    + split; [lia|]. split; [nia|]. rewrite Q, T1, plus_assoc. f_equal. unfold insert_price, plus. simpl. f_equal; nia.
Qed.
Lemma insert_move_cost c l n : forall h cnt m h', cap_at c (t_world h) n ->
  foldM (fun cnt p => r <- t_emplace E c ByMove ByMove (fst p) (snd p);; ret (if fst r then S cnt else cnt)) l cnt h = Val m h' ->
  cnt <= m /\ m - cnt <= once n * length l /\
  t_tally h' = plus (t_tally h) (emplace_price ByMove ByMove (once n * length l) (m - cnt)).
Proof.
  induction l as [|p l IH]; intros h cnt m h' C X; simpl in X.
  - inv. rewrite Nat.sub_diag, Nat.mul_0_r. split; auto. split; auto. rewrite plus_0. auto.
  - apply bind_inv in X as (b & h1 & X1 & X). apply bind_inv in X1 as (r & h2 & X1 & X2). inv.
    destruct (emplace_cost C X1) as (T1 & T2).
    apply (same_fwd (@same_emplace c ByMove ByMove (fst p) (snd p))) in X1 as X3.
    destruct (IH h1 _ _ _ (cap_kept_emplace C X3) X) as (L & L2 & Q).
    assert (N : once n = 0 -> fst r = false).
    { unfold once. destruct (Nat.eqb n 0) eqn:Z; [|discriminate]. intros _. apply Nat.eqb_eq in Z. subst n.
      unfold t_emplace in X1. apply bind_inv in X1 as (m0 & h3 & X1 & Y). apply tlift_val in X1 as (X1 & _).
      apply capacity_val in X1. rewrite (cap_at_inj X1 C) in Y. simpl in Y. inv. auto. }
    simpl length. destruct (fst r) eqn:B.
    + assert (once n <> 0) by (intros Z; apply N in Z; discriminate).
      assert (once n = 1) by (unfold once in *; destruct (Nat.eqb n 0); auto; lia).
      split; [lia|]. split; [nia|]. rewrite Q, T1, plus_assoc. f_equal. unfold emplace_price, plus. simpl. f_equal; nia.
    + assert (once n <= 1) by (unfold once; destruct (Nat.eqb n 0); lia).
      split; [lia|]. split; [nia|]. rewrite Q, T1, plus_assoc. f_equal. unfold emplace_price, plus. simpl. f_equal; nia.
Qed.

(** ** Calls *)
Hypothesis G : good E.

Lemma cap_at_is c w n : capacity_is E c w n <-> cap_at c w n.
Proof. apply capacity_is_slot. Qed.
Lemma range_news w c l o l0 n : puts_range c l o -> reachable E w -> contents E c w l0 -> capacity_is E c w n ->
  exists w', exec E o w = Val (RNat (fst (lputs E l (Lru n (rev l0))))) w'.
Proof.
  intros P H C N. destruct (open_cache G H C) as (aw & a & R & Ha & ->).
  pose proof (capacity_inv R Ha N) as Hn. subst n.
  destruct (call_val G R (range_ev E P Ha)) as (w' & X & R'). { destruct P; auto. }
  destruct (inserts_lputs G l 0 (rel_cinv R Ha) Ha) as (I1 & _). exists w'. rewrite X, I1. auto.
Qed.
Lemma fold_back {A} (mh : T A) m h (x : A) w' : same mh m -> m (t_world h) = Val x w' ->
  exists h', mh h = Val x h' /\ t_world h' = w'.
Proof.
  intros X Y. rewrite <- X in Y. destruct (mh h) as [y h'| | |]; simpl in Y; try discriminate.
  inversion Y; subst. eauto.
Qed.
Lemma contents_wf w c l : contents E c w l -> alive w c = true.
Proof.
  unfold contents, exec. simpl. destruct (alive w c); auto; discriminate.
Qed.
Lemma done_once l n its : once n * length l = done (V := V) (K := K) l (Lru n its).
Proof. unfold done, once. simpl. destruct (Nat.eqb n 0); lia. Qed.

Lemma fills c l l0 n h : reachable E (t_world h) -> contents E c (t_world h) l0 -> capacity_is E c (t_world h) n ->
  (exists h', t_insert_range E c l h = Val (fst (lputs E l (Lru n (rev l0)))) h' /\
     t_tally h' = plus (t_tally h) (insert_price (done l (Lru n (rev l0))) (fst (lputs E l (Lru n (rev l0)))))) /\
  (exists h', t_insert_move E c l h = Val (fst (lputs E l (Lru n (rev l0)))) h' /\
     t_tally h' = plus (t_tally h) (emplace_price ByMove ByMove (done l (Lru n (rev l0))) (fst (lputs E l (Lru n (rev l0)))))).
Proof.
  intros H C N. pose proof (contents_wf C) as Al. apply cap_at_is in N as N'. split.
  - destruct (range_news (puts_lvalue c l) H C N) as (w' & X). unfold exec in X. simpl in X. rewrite Al in X.
    apply bind_inv in X as (m & w1 & X & Y). inversion Y; subst. clear Y.
    destruct (fold_back (@same_insert_range c l) X) as (h' & X' & _).
    exists h'. split; auto. destruct (insert_range_cost N' X') as (_ & _ & Q).
    rewrite Nat.sub_0_r, (done_once l n (rev l0)) in Q. exact Q.
  - destruct (range_news (puts_rvalue c l) H C N) as (w' & X). unfold exec in X. simpl in X. rewrite Al in X.
    apply bind_inv in X as (m & w1 & X & Y). inversion Y; subst. clear Y.
    destruct (fold_back (@same_insert_move c l) X) as (h' & X' & _).
    exists h'. split; auto. destruct (insert_move_cost N' X') as (_ & _ & Q).
    rewrite Nat.sub_0_r, (done_once l n (rev l0)) in Q. exact Q.
Qed.
Lemma clear_fills c n d w : reachable E w -> alive w c = true -> capacity_is E c w n ->
  exists w1, clear_and_increase_capacity c d w = Val tt w1 /\ reachable E w1 /\
    contents E c w1 [] /\ capacity_is E c w1 (Nat.max n d).
Proof.
  intros H Al N. destruct (reach_rel G H) as (aw & R). destruct (alive_inv R Al) as (a & Ha).
  pose proof (contents_of G R Ha) as C.
  destruct (clear_result G H C N) as (w0 & X0 & C0 & N0).
  pose proof (reachable_step H (eq_refl : copy_free (Clear c : op K V) = true) X0) as H0.
  assert (Y0 : clear c w = Val tt w0).
  { unfold exec in X0. simpl in X0. rewrite Al in X0. apply bind_inv in X0 as ([] & w1 & X0 & Y).
    inversion Y; subst. auto. }
  apply cap_at_is in N0 as (x & Q & Qn).
  unfold clear_and_increase_capacity. unfold bind at 1. rewrite Y0. unfold bind at 1, get_cache at 1.
  rewrite Q, Qn. destruct (Nat.ltb n d) eqn:L.
  - apply Nat.ltb_lt in L. rewrite Nat.max_r by lia.
    destruct (set_capacity_result G d H0 C0) as (w1 & X1 & C1 & N1).
    exists w1. split; [|split; [eapply reachable_step; [exact H0| |exact X1]; reflexivity|split; auto]].
    unfold exec in X1. simpl in X1. pose proof (contents_wf C0) as A0. rewrite A0 in X1.
    destruct (open_cache G H0 C0) as (aw0 & a0 & R0 & Ha0 & Em). symmetry in Em. apply map_eq_nil in Em.
    pose proof (size_of R0 Ha0) as Sz. rewrite Em in Sz. unfold size_is, exec in Sz. simpl in Sz. rewrite A0 in Sz.
    apply bind_inv in Sz as (z & w2 & Sz & Y). inversion Y; subst z w2. clear Y.
    apply bind_inv in X1 as ([] & w2 & X1 & Y). inversion Y; subst w2. clear Y.
    unfold set_capacity in X1. unfold bind at 1 in X1. rewrite Sz in X1. simpl in X1.
    unfold bind at 1 in X1. unfold bind at 1 in X1. rewrite Sz in X1. simpl in X1.
    unfold bind at 1, get_cache in X1. rewrite Q in X1. exact X1.
  - apply Nat.ltb_ge in L. rewrite Nat.max_l by lia. exists w0. split; [reflexivity|]. split; auto. split; auto.
    apply cap_at_is. exists x. auto.
Qed.
Lemma new_fills n ttl w : reachable E w ->
  exists c w1, new_cache n ttl w = Val c w1 /\ reachable E w1 /\ contents E c w1 [] /\ capacity_is E c w1 n.
Proof.
  intros H. destruct (build_result G (builds_new ttl n) H) as (c & w1 & X & _ & C & N & _).
  exists c, w1. simpl in C. pose proof (reachable_step H (eq_refl : copy_free (New n ttl : op K V) = true) X) as H1.
  unfold exec in X. simpl in X. apply bind_inv in X as (c' & w2 & X & Y). inversion Y; subst. auto.
Qed.

Lemma put_price (price : nat -> nat -> tally) n k v l0 :
  price (once n) (if fst (fst (lput E k v (Lru n (rev l0)))) then 1 else 0) =
  price (done [(k, v)] (Lru n (rev l0))) (fst (lputs E [(k, v)] (Lru n (rev l0)))).
Proof.
  simpl. destruct (lput E k v (Lru n (rev l0))) as ((b & e) & s). simpl. destruct b; reflexivity.
Qed.

Lemma stored a b o price l s h : reachable E (t_world h) -> stores E (t_world h) a b o price l s ->
  exists r h', t_exec E a b o h = Val r h' /\
    t_tally h' = plus (t_tally h) (price (done l s) (fst (lputs E l s))).
Proof.
  intros H S. destruct S as [c k v l0 n C N|c k v l0 n C N|c l l0 n C N|c l l0 n C N|c l n C N|c l n C N|o ttl cap l B I|o ttl cap l B I].
  - destruct (put_result G (puts_insert c k v) H C N) as (w' & X & _).
    pose proof (contents_wf C) as Al. apply cap_at_is in N.
    destruct (@fold_back _ (t_exec E a b (Insert c k v)) (exec E (Insert c k v)) h _ _ (fun h => @same_calls a b (Insert c k v) h eq_refl) X) as (h' & X' & _).
    eexists _, h'. split; [exact X'|].
    unfold t_exec in X'. simpl in X'. rewrite Al in X'.
    apply bind_inv in X' as (r & h1 & X1 & X'). apply bind_inv in X' as (e & h2 & X2 & X').
    apply tlift_val in X2 as (X2 & T2). unfold ret in X'. injection X' as Q1 Q2 Q3. subst h2.
    destruct (insert_cost N X1) as (T1 & _). rewrite T2, T1. f_equal. rewrite Q1. apply put_price.
  - destruct (put_result G (puts_emplace c k v) H C N) as (w' & X & _).
    pose proof (contents_wf C) as Al. apply cap_at_is in N.
    destruct (@fold_back _ (t_exec E a b (Emplace c k v)) (exec E (Emplace c k v)) h _ _ (fun h => @same_calls a b (Emplace c k v) h eq_refl) X) as (h' & X' & _).
    eexists _, h'. split; [exact X'|].
    unfold t_exec in X'. simpl in X'. rewrite Al in X'.
    apply bind_inv in X' as (r & h1 & X1 & X'). apply bind_inv in X' as (e & h2 & X2 & X').
    apply tlift_val in X2 as (X2 & T2). unfold ret in X'. injection X' as Q1 Q2 Q3. subst h2.
    destruct (emplace_cost N X1) as (T1 & _). rewrite T2, T1. f_equal. rewrite Q1. apply put_price.
  - destruct (fills l H C N) as ((h' & X & Tl) & _). eexists _, h'. split; [|exact Tl].
    unfold t_exec. simpl. rewrite (contents_wf C). unfold bind. rewrite X. reflexivity.
  - destruct (fills l H C N) as (_ & (h' & X & Tl)). eexists _, h'. split; [|exact Tl].
    unfold t_exec. simpl. rewrite (contents_wf C). unfold bind. rewrite X. reflexivity.
  - destruct (clear_fills (length l) H C N) as (w1 & X & H1 & C1 & N1).
    destruct (@fills c l [] _ (MkT (t_tally h) w1) H1 C1 N1) as ((h' & Y & Tl) & _). eexists _, h'. split; [|exact Tl].
    unfold t_exec. simpl. rewrite C. unfold t_assign_range, bind, tlift. rewrite X. rewrite Y. reflexivity.
  - destruct (clear_fills (length l) H C N) as (w1 & X & H1 & C1 & N1).
    destruct (@fills c l [] _ (MkT (t_tally h) w1) H1 C1 N1) as (_ & (h' & Y & Tl)). eexists _, h'. split; [|exact Tl].
    unfold t_exec. simpl. rewrite C. unfold t_assign_move, bind, tlift. rewrite X. rewrite Y. reflexivity.
  - destruct (new_fills cap ttl H) as (c & w1 & X & H1 & C1 & N1).
    destruct (@fills c l [] _ (MkT (t_tally h) w1) H1 C1 N1) as ((h' & Y & Tl) & _). eexists _, h'. split; [|exact Tl].
    assert (Z : t_new_from E cap ttl l h = Val c h').
    { unfold t_new_from, t_with_new, bind, tlift. rewrite X, Y. auto. }
    assert (Z' : forall o, well_formed (t_world h) o = true -> t_body E a b o = (c <- t_new_from E cap ttl l;; ret (RNat c)) ->
      t_exec E a b o h = Val (RNat c) h').
    { intros o0 W1 W2. unfold t_exec. rewrite W1, W2. unfold bind. rewrite Z. auto. }
    apply Z'; destruct I as [<-|[<-|[<-|[]]]]; inversion B; subst; auto.
  - destruct (new_fills cap ttl H) as (c & w1 & X & H1 & C1 & N1).
    destruct (@fills c l [] _ (MkT (t_tally h) w1) H1 C1 N1) as (_ & (h' & Y & Tl)). eexists _, h'. split; [|exact Tl].
    assert (Z : t_new_from_move E cap ttl l h = Val c h').
    { unfold t_new_from_move, t_with_new, bind, tlift. rewrite X, Y. auto. }
    assert (Z' : forall o, well_formed (t_world h) o = true -> t_body E a b o = (c <- t_new_from_move E cap ttl l;; ret (RNat c)) ->
      t_exec E a b o h = Val (RNat c) h').
    { intros o0 W1 W2. unfold t_exec. rewrite W1, W2. unfold bind. rewrite Z. auto. }
    apply Z'; destruct I as [<-|[<-|[]]]; inversion B; subst; auto.
Qed.

(** Keys that are all new. *)
Lemma has_firstn k n l : has E k l = false -> has E k (firstn n l) = false.
Proof.
  revert n. induction l as [|p l IH]; intros [|n] Q; auto. unfold has in *. simpl in *.
  apply orb_false_elim in Q as (Q1 & Q2). rewrite Q1. apply IH; auto.
Qed.
Lemma lputs_all l : forall n its, distinct E l -> n <> 0 ->
  (forall k, In k (map fst l) -> has E k its = false) -> fst (lputs E l (Lru n its)) = length l.
Proof.
  induction l as [|[k v] l IH]; intros n its D L F; auto. simpl lputs. unfold lput.
  destruct (Nat.eqb (lcap (Lru n its)) 0) eqn:Z; [apply Nat.eqb_eq in Z; simpl in Z; lia|]. simpl items.
  assert (Q : look E k its = None).
  { pose proof (F k (or_introl eq_refl)) as Q. rewrite look_has in Q. destruct (look E k its); auto. discriminate. }
  rewrite Q. unfold ltake. simpl lcap. simpl items.
  specialize (IH n (firstn n ((k, v) :: its))). destruct D as (D1 & D2). simpl in D1.
  destruct (lputs E l (Lru n (firstn n ((k, v) :: its)))) as (m & s). simpl in *. rewrite IH; auto.
  intros k' I. apply has_firstn. unfold has. simpl. fold (has E k' its). rewrite F by auto. rewrite orb_false_r.
  destruct (key_equal E k' k) eqn:Q'; auto. rewrite (good_sym G) in Q'.
  assert (has E k l = true); [|congruence]. apply in_map_iff in I as (p & <- & I).
  unfold has. apply existsb_exists. eauto.
Qed.
Lemma nothing_copied a b a' b' o l s h : reachable E (t_world h) -> stores E (t_world h) a b o (emplace_price a' b') l s ->
  a' <> ByCopy -> b' <> ByCopy -> distinct E l -> (forall p, In p l -> has E (fst p) (items s) = false) ->
  exists r h', t_exec E a b o h = Val r h' /\
    key_copies (t_tally h') = key_copies (t_tally h) /\ val_copies (t_tally h') = val_copies (t_tally h).
Proof.
  intros H S A B D F. destruct (stored H S) as (r & h' & X & Tl). exists r, h'. split; auto. rewrite Tl.
  destruct s as [n its]. unfold plus, done. simpl in *. destruct (Nat.eqb n 0) eqn:Z.
  - destruct a', b'; try contradiction; simpl; lia.
  - apply Nat.eqb_neq in Z. rewrite lputs_all; auto.
    + destruct a', b'; try contradiction; simpl; lia.
    + intros k I. apply in_map_iff in I as (p & <- & I). auto.
Qed.
End MoveProofs.
