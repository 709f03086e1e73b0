(** Two worlds that differ only in the list iterators held by the nodes of one
    region, and in one cache's record of the last accessed element, cannot be
    told apart by calls that do not use these. *)
From Coq Require Import List Arith ZArith Bool Permutation Lia.
Import ListNotations.
From Verif Require Import Monad Types Model Api Spec Ref Lists SimBase SimRel SpecCopy.
Set Implicit Arguments.
Unset Strict Implicit.
Local Open Scope cpp_scope.

Section Blind.
Context {K V : Type}.
Variable E : env K V.
Hypothesis CB : forall ev w, cb E ev w = Val tt (with_log (fun l => l ++ [ev]) w).

Notation world := (world K V).
Notation store := (store K V).
Notation mnode := (mnode K V).
Notation M := (M world).
Implicit Types (w z : world) (s : store) (o : op K V).

Variables (d rd : nat).

Definition same_cache (x y : cache) : Prop :=
  c_rid x = c_rid y /\ c_cap x = c_cap y /\ c_stats x = c_stats y /\ c_cbs x = c_cbs y /\ c_ttl x = c_ttl y.
Definition cc (c : nat) (x y : cache) : Prop := same_cache x y /\ (c <> d -> x = y) /\ (c = d -> c_rid x = rd).
Definition st (r : nat) s s' : Prop := same_store s s' /\ (r <> rd -> s = s').
Definition opt_rel {A} (R : A -> A -> Prop) (x y : option A) : Prop :=
  match x, y with Some a, Some b => R a b | None, None => True | _, _ => False end.

Record tw w z : Prop := {
  tw_lc : length (w_caches w) = length (w_caches z);
  tw_ls : length (w_stores w) = length (w_stores z);
  tw_c : forall c, opt_rel (cc c) (slot (w_caches w) c) (slot (w_caches z) c);
  tw_s : forall r, opt_rel (st r) (slot (w_stores w) r) (slot (w_stores z) r);
  tw_st : w_stats w = w_stats z;
  tw_log : w_log w = w_log z;
  tw_reads : w_reads w = w_reads z;
  tw_steps : w_steps w = w_steps z
}.

Definition pres {A} (R : A -> A -> Prop) (r r' : res world A) : Prop :=
  match r, r' with
  | Val a w, Val b z => tw w z /\ R a b
  | Exc e w, Exc e' z => e = e' /\ tw w z
  | Undef u, Undef u' => u = u'
  | Term e, Term e' => e = e'
  | _, _ => False
  end.
Definition par {A} (m m' : M A) (R : A -> A -> Prop) : Prop := forall w z, tw w z -> pres R (m w) (m' z).

Lemma same_node_refl (n : mnode) : same_node n n. Proof. repeat split. Qed.
Lemma rows_refl (l : list (nat * mnode)) : Forall2 (@same_row K V) l l.
Proof. induction l; constructor; auto. split; auto. apply same_node_refl. Qed.
Lemma same_store_refl s : same_store s s.
Proof. repeat split. apply rows_refl. Qed.
Lemma same_cache_refl x : same_cache x x. Proof. repeat split. Qed.
Lemma st_refl r s : st r s s. Proof. split; auto. apply same_store_refl. Qed.
Lemma cc_refl c x : c_rid x = rd -> cc c x x. Proof. split; auto. apply same_cache_refl. Qed.

Lemma p_ret A (a b : A) (R : A -> A -> Prop) : R a b -> par (ret a) (ret b) R.
Proof. intros H w z T. simpl. auto. Qed.
Lemma p_bind A B (m m' : M A) (k k' : A -> M B) R R' :
  par m m' R -> (forall a b, R a b -> par (k a) (k' b) R') -> par (bind m k) (bind m' k') R'.
Proof.
  intros H C w z T. unfold bind. specialize (H w z T). unfold pres in H.
  destruct (m w), (m' z); try easy. destruct H. apply C; auto.
Qed.
Lemma p_throw A e R : par (A := A) (throw e) (throw e) R. Proof. intros w z T. simpl. auto. Qed.
Lemma p_undef A u R : par (A := A) (undef u) (undef u) R. Proof. intros w z T. simpl. auto. Qed.
Lemma p_noexcept A (m m' : M A) R : par m m' R -> par (noexcept m) (noexcept m') R.
Proof.
  intros H w z T. specialize (H w z T). unfold noexcept, pres in *. destruct (m w), (m' z); try easy; tauto.
Qed.
Lemma p_weak A (m m' : M A) (R R' : A -> A -> Prop) : par m m' R -> (forall a b, R a b -> R' a b) -> par m m' R'.
Proof. intros H C w z T. specialize (H w z T). unfold pres in *. destruct (m w), (m' z); try easy. intuition. Qed.
Lemma p_any A (m m' : M A) R : par m m' R -> par m m' (fun _ _ => True).
Proof. intros; eapply p_weak; eauto. Qed.

Lemma p_get_cache c : par (get_cache (K := K) (V := V) c) (get_cache c) (cc c).
Proof.
  intros w z T. unfold get_cache. pose proof (tw_c T c) as H.
  destruct (slot (w_caches w) c), (slot (w_caches z) c); simpl in *; try easy.
Qed.
Lemma tw_upd_cache c X Y w z : tw w z -> opt_rel (cc c) X Y ->
  tw (with_caches (fun l => upd l c X) w) (with_caches (fun l => upd l c Y) z).
Proof.
  intros T H. destruct T. constructor; simpl; auto.
  - rewrite !upd_length; auto.
  - intros e. destruct (Nat.eq_dec c e) as [<-|N].
    + destruct (Nat.lt_ge_cases c (length (w_caches w))) as [L|L].
      * unfold slot. rewrite !nth_upd_same by lia. auto.
      * rewrite !slot_overflow by (rewrite upd_length; lia). simpl; auto.
    + rewrite !slot_upd_other by auto. auto.
Qed.
Lemma tw_upd_store r X Y w z : tw w z -> opt_rel (st r) X Y ->
  tw (with_stores (fun l => upd l r X) w) (with_stores (fun l => upd l r Y) z).
Proof.
  intros T H. destruct T. constructor; simpl; auto.
  - rewrite !upd_length; auto.
  - intros e. destruct (Nat.eq_dec r e) as [<-|N].
    + destruct (Nat.lt_ge_cases r (length (w_stores w))) as [L|L].
      * unfold slot. rewrite !nth_upd_same by lia. auto.
      * rewrite !slot_overflow by (rewrite upd_length; lia). simpl; auto.
    + rewrite !slot_upd_other by auto. auto.
Qed.
Lemma p_put_cache c x y (R : unit -> unit -> Prop) : cc c x y -> R tt tt -> par (put_cache (K := K) (V := V) c x) (put_cache c y) R.
Proof. intros H HR w z T. simpl. split; auto. apply tw_upd_cache; auto. Qed.
Lemma p_drop_cache c : par (drop_cache (K := K) (V := V) c) (drop_cache c) eq.
Proof. intros w z T. simpl. split; auto. apply tw_upd_cache; simpl; auto. Qed.
Lemma p_drop_store r : par (drop_store (K := K) (V := V) r) (drop_store r) eq.
Proof. intros w z T. simpl. split; auto. apply tw_upd_store; simpl; auto. Qed.
Lemma p_get_store r : par (get_store r) (get_store r) (st r).
Proof.
  intros w z T. unfold get_store. pose proof (tw_s T r) as H.
  destruct (slot (w_stores w) r), (slot (w_stores z) r); simpl in *; try easy.
Qed.
Lemma p_put_store r s s' (R : unit -> unit -> Prop) : st r s s' -> R tt tt -> par (put_store r s) (put_store r s') R.
Proof. intros H HR w z T. simpl. split; auto. apply tw_upd_store; auto. Qed.
Lemma tw_stats_with f w z : tw w z -> tw (with_stats f w) (with_stats f z).
Proof. intros []. constructor; simpl; auto. congruence. Qed.
Lemma p_get_stats i : par (get_stats (V := V) i) (get_stats (V := V) i) eq.
Proof. intros w z T. unfold get_stats. rewrite (tw_st T). destruct (slot _ _); simpl; auto. Qed.
Lemma p_put_stats i x : par (put_stats (V := V) i x) (put_stats (V := V) i x) eq.
Proof. intros w z T. simpl. split; auto. apply tw_stats_with; auto. Qed.
Lemma p_alloc_stats x : par (alloc_stats (V := V) x) (alloc_stats (V := V) x) eq.
Proof. intros w z T. simpl. rewrite (tw_st T). split; auto. apply tw_stats_with; auto. Qed.
Lemma p_now : par (now E) (now E) eq.
Proof.
  intros w z T. simpl. destruct T. rewrite tw_reads0. split; auto. constructor; simpl; auto.
Qed.
Lemma p_fallible : par (fallible E) (fallible E) eq.
Proof.
  intros w z T. unfold fallible. destruct T. rewrite tw_steps0, tw_reads0.
  destruct (fails E _); simpl; split; auto; constructor; simpl; auto.
Qed.
Lemma p_cb ev : par (cb E ev) (cb E ev) eq.
Proof. intros w z T. rewrite !CB. simpl. split; auto. destruct T. constructor; simpl; auto. congruence. Qed.
Definition oo (c : nat) (p q : nat * store) : Prop := fst p = fst q /\ st (fst p) (snd p) (snd q).
Lemma p_own c : par (own c) (own c) (oo c).
Proof.
  unfold own. eapply p_bind; [apply p_get_cache|]. intros x y ((R & _) & _).
  rewrite <- R. eapply p_bind; [apply p_get_store|]. intros s s' H. apply p_ret. split; auto.
Qed.

(** Related maps. *)
Lemma rows_assoc i l l' : Forall2 (@same_row K V) l l' -> opt_rel (@same_node K V) (assoc i l) (assoc i l').
Proof.
  induction 1 as [|(j, n) (j', n') t t' H _ IH]; simpl; auto. destruct H as (Q & H). simpl in Q, H. subst.
  destruct (Nat.eqb i j'); simpl; auto.
Qed.
Lemma rows_len l l' : Forall2 (@same_row K V) l l' -> length l = length l'.
Proof. induction 1; simpl; auto. Qed.
Lemma rows_next i l l' : Forall2 (@same_row K V) l l' -> next_after i l = next_after i l'.
Proof.
  induction 1 as [|(j, n) (j', n') t t' H H' IH]; simpl; auto. destruct H as (Q & H). simpl in Q, H. subst.
  destruct (Nat.eqb i j'); auto. destruct H' as [|(u, ?) (u', ?) ? ? (Q & _) _]; auto.
Qed.
Lemma rows_with k l l' : Forall2 (@same_row K V) l l' -> opt_rel (@same_row K V) (node_with E k l) (node_with E k l').
Proof.
  unfold node_with. induction 1 as [|p p' t t' H H' IH]; simpl; auto.
  assert (n_key (snd p) = n_key (snd p')) as -> by apply H.
  destruct (key_equal E k _); simpl; auto.
Qed.
Lemma rows_unassoc i l l' : Forall2 (@same_row K V) l l' -> Forall2 (@same_row K V) (unassoc i l) (unassoc i l').
Proof.
  induction 1 as [|(j, n) (j', n') t t' H H' IH]; simpl; auto. pose proof H as (Q & _). simpl in Q. subst.
  destruct (Nat.eqb i j'); auto.
Qed.
Lemma rows_alter i f f' l l' : (forall n n', same_node n n' -> same_node (f n) (f' n')) ->
  Forall2 (@same_row K V) l l' -> Forall2 (@same_row K V) (alter i f l) (alter i f' l').
Proof.
  intros F. unfold alter. induction 1 as [|(j, n) (j', n') t t' H H' IH]; simpl; auto.
  pose proof H as (Q & HN). simpl in Q, HN. subst. constructor; auto.
  destruct (Nat.eqb i j'); auto. split; simpl; auto.
Qed.

Lemma p_cc A c (k k' : cache -> M A) R : (forall x y, cc c x y -> par (k x) (k' y) R) -> par (x <- get_cache c;; k x) (x <- get_cache c;; k' x) R.
Proof. intros H. eapply p_bind; [apply p_get_cache|]. auto. Qed.
Ltac cach := apply p_cc; let x := fresh "x" in let y := fresh "y" in intros x y ((?A1 & ?A2 & ?A3 & ?A4 & ?A5) & ?AQ); simpl in *;
  rewrite ?A1, ?A2, ?A3, ?A4, ?A5.
Create HintDb pb.
Ltac pstep := first
  [ apply p_ret; solve [auto] | apply (@p_ret _ _ _ eq); reflexivity | apply p_undef | apply p_throw
  | solve [eauto with pb] | apply p_noexcept
  | match goal with |- par (bind (get_cache _) _) _ _ => cach end
  | match goal with |- par (bind (get_store _) _) _ _ => eapply p_bind; [apply p_get_store|];
      let HR := fresh "HR" in let HO := fresh "HO" in let HN := fresh "HN" in let HE := fresh "HE" in
      intros ? ? ((HR & HO & HN & HE) & ?); rewrite ?HO, ?HN, ?HE, ?(rows_next _ HR) end
  | match goal with H : same_node _ _ |- _ => progress rewrite ?(proj1 H), ?(proj1 (proj2 H)) end
  | match goal with
    | |- par (bind _ _) (bind _ _) _ => eapply p_bind; [|intros ? ? ?]
    | |- par (match ?x with _ => _ end) (match ?x with _ => _ end) _ => destruct x eqn:?
    | |- par (let '(_, _) := ?x in _) (let '(_, _) := ?x in _) _ => destruct x
    | H : ?a = ?b |- _ => subst a || subst b
    | |- par _ _ (fun _ _ => True) => eapply p_any; solve [eauto with pb]
    end ].
Ltac pp := repeat (cbn beta iota zeta in *; pstep).
Hint Resolve p_get_cache p_drop_cache p_drop_store p_get_store p_get_stats
  p_put_stats p_alloc_stats p_now p_fallible p_cb p_own : pb.

Lemma p_deref p : par (deref p) (deref p) (@same_node K V).
Proof.
  unfold deref. eapply p_bind; [apply p_get_store|]. intros s s' ((H & _) & _).
  pose proof (rows_assoc (snd p) H) as A. destruct (assoc _ _), (assoc _ _); simpl in A; try contradiction.
  - apply p_ret; auto.
  - apply p_undef.
Qed.
Hint Resolve p_deref : pb.
Lemma p_deref_it i : par (deref_it i) (deref_it i) (@same_node K V).
Proof.
  unfold deref_it. eapply p_bind; [apply p_get_store|]. intros s s' ((H & _ & _ & Ep) & _). rewrite Ep. pp.
Qed.
Hint Resolve p_deref_it : pb.
Lemma p_map_find c k : par (map_find E c k) (map_find E c k) eq.
Proof.
  unfold map_find. eapply p_bind; [apply p_own|]. intros (r, s) (r', s') (Q & (H & _ & _ & Ep) & _). simpl in *. subst.
  pose proof (rows_with k H) as A. destruct (node_with _ _ _) as [(i, n)|], (node_with _ _ _) as [(i', n')|]; simpl in A; try contradiction.
  - destruct A as (A & _). simpl in A. subst. rewrite Ep. apply p_ret; auto.
  - apply p_ret; auto.
Qed.
Lemma p_map_size c : par (map_size c) (map_size c) eq.
Proof.
  unfold map_size. eapply p_bind; [apply p_own|]. intros (r, s) (r', s') (Q & (H & _ & _ & Ep) & _). simpl in *. subst.
  apply p_ret. apply rows_len; auto.
Qed.
Hint Resolve p_map_find p_map_size : pb.
Ltac own_ := eapply p_bind; [apply p_own|]; intros (?r, ?s) (?r', ?s') (?Q & (?H & ?HO & ?HN & ?HE) & ?HS); simpl in *; subst.
Lemma p_list_front c : par (list_front c) (list_front c) eq.
Proof. unfold list_front. own_. rewrite HO. pp. Qed.
Lemma p_list_begin c : par (list_begin c) (list_begin c) eq.
Proof. unfold list_begin. own_. rewrite HO. pp. Qed.
Lemma p_list_back c : par (list_back c) (list_back c) eq.
Proof. unfold list_back. own_. rewrite HO. pp. Qed.
Lemma p_list_prev_end c : par (list_prev_end c) (list_prev_end c) eq.
Proof. unfold list_prev_end. own_. rewrite HO. pp. Qed.
Lemma p_list_deref q : par (list_deref q) (list_deref q) eq.
Proof. unfold list_deref. eapply p_bind; [apply p_get_store|]. intros s s' ((_ & HO & _) & _). rewrite HO. pp. Qed.
Hint Resolve p_list_front p_list_begin p_list_back p_list_prev_end p_list_deref : pb.

Lemma st_ord r s s' l n : st r s s' -> st r (MkStore (s_map s) l n (s_epoch s)) (MkStore (s_map s') l n (s_epoch s')).
Proof.
  intros ((H & H1 & H2 & H3) & HS). split.
  - repeat split; auto.
  - intros N. rewrite (HS N); auto.
Qed.
Lemma p_splice c q : par (list_splice_back c q) (list_splice_back c q) eq.
Proof.
  unfold list_splice_back. eapply p_bind; [apply p_own|]. intros (r, s) (r', s') (Q & HS). simpl in *. subst r'.
  destruct q as [(q1, q2)|]; [|apply p_undef]. pose proof HS as ((_ & HO & HN & _) & _). rewrite HO, HN.
  pp. apply p_put_store; auto. apply st_ord; auto.
Qed.
Lemma p_set_front c p : par (list_set_front c p) (list_set_front c p) eq.
Proof.
  unfold list_set_front. eapply p_bind; [apply p_own|]. intros (r, s) (r', s') (Q & HS). simpl in *. subst r'.
  pose proof HS as ((_ & HO & HN & _) & _). rewrite HO, HN.
  pp. apply p_put_store; auto. apply st_ord; auto.
Qed.
Lemma p_emplace_back c p : par (list_emplace_back E c p) (list_emplace_back E c p) eq.
Proof.
  unfold list_emplace_back. eapply p_bind; [apply p_fallible|]. intros _ _ _.
  eapply p_bind; [apply p_own|]. intros (r, s) (r', s') (Q & HS). simpl in *. subst r'.
  pose proof HS as ((_ & HO & HN & _) & _). rewrite HO, HN.
  pp. apply p_put_store; auto. apply st_ord; auto.
Qed.
Lemma p_map_erase_key c k : par (map_erase_key E c k) (map_erase_key E c k) eq.
Proof.
  unfold map_erase_key. eapply p_bind; [apply p_own|]. intros (r, s) (r', s') (Q & HS). simpl in *. subst r'.
  pose proof HS as ((H & HO & HN & HE) & HQ).
  pose proof (rows_with k H) as A. destruct (node_with _ _ _) as [(i, n)|] , (node_with _ _ _) as [(i', n')|] ; simpl in A; try contradiction.
  - destruct A as (A & _). simpl in A. subst. apply p_put_store; auto. split.
    + split; simpl; auto. apply rows_unassoc; auto.
    + intros N. rewrite (HQ N). auto.
  - apply p_ret; auto.
Qed.
Lemma p_update_node p f f' : (forall n n', same_node n n' -> same_node (f n) (f' n')) -> (fst p <> rd -> f = f') ->
  par (update_node p f) (update_node p f') eq.
Proof.
  intros F FE. unfold update_node. eapply p_bind; [apply p_get_store|]. intros s s' ((H & HO & HN & HE) & HQ).
  pose proof (rows_assoc (snd p) H) as A. destruct (assoc _ _) , (assoc _ _) ; simpl in A; try contradiction.
  - apply p_put_store; auto. split.
    + split; simpl; auto. apply rows_alter; auto.
    + intros N. rewrite (HQ N), (FE N). auto.
  - apply p_undef.
Qed.
Hint Resolve p_splice p_set_front p_emplace_back p_map_erase_key : pb.
Lemma p_set_order p q : par (set_node_order p q) (set_node_order p q) eq.
Proof. unfold set_node_order. apply p_update_node; auto. Qed.

(** Changes of the cache object itself. *)
Lemma cc_map c x y f : cc c x y ->
  (forall x y, same_cache x y -> same_cache (f x) (f y)) -> (forall x, c_rid (f x) = c_rid x) -> cc c (f x) (f y).
Proof. intros (H & H' & H2) F F'. split; auto. split; [intros N; rewrite (H' N); auto|]. intros N. rewrite F'. auto. Qed.
Lemma p_set_last c p : par (set_last (K := K) (V := V) c p) (set_last c p) eq.
Proof.
  unfold set_last. eapply p_bind; [apply p_get_cache|]. intros x y H. apply p_put_cache; auto.
  apply (cc_map (f := fun x => MkCache (c_rid x) p (c_cap x) (c_stats x) (c_cbs x) (c_ttl x))); try assumption; [|reflexivity].
  intros ? ? (A1 & A2 & A3 & A4 & A5). repeat split; auto.
Qed.
Lemma p_set_stats c p : par (set_stats (K := K) (V := V) c p) (set_stats c p) eq.
Proof.
  unfold set_stats. eapply p_bind; [apply p_get_cache|]. intros x y H. apply p_put_cache; auto.
  apply (cc_map (f := fun x => MkCache (c_rid x) (c_last x) (c_cap x) p (c_cbs x) (c_ttl x))); try assumption; [|reflexivity].
  intros ? ? (A1 & A2 & A3 & A4 & A5). repeat split; auto.
Qed.
Lemma p_set_cbs c f : par (set_cbs (K := K) (V := V) c f) (set_cbs c f) eq.
Proof.
  unfold set_cbs. eapply p_bind; [apply p_get_cache|]. intros x y H. apply p_put_cache; auto.
  apply (cc_map (f := fun x => MkCache (c_rid x) (c_last x) (c_cap x) (c_stats x) (f (c_cbs x)) (c_ttl x))); try assumption; [|reflexivity].
  intros ? ? (A1 & A2 & A3 & A4 & A5). repeat split; simpl; auto. congruence.
Qed.
Hint Resolve p_set_order p_set_last p_set_stats p_set_cbs : pb.

Lemma p_capacity c : par (capacity (K := K) (V := V) c) (capacity c) eq. Proof. unfold capacity. cach. pp. Qed.
Lemma p_size c : par (size (K := K) (V := V) c) (size c) eq. Proof. unfold size. pp. Qed.
Hint Resolve p_capacity p_size : pb.
Lemma p_call_each_from sel all c mk ids : (forall i, par (mk i) (mk i) eq) ->
  par (call_each_from E sel all c mk ids) (call_each_from E sel all c mk ids) eq.
Proof. intros H. induction ids as [|i t IH]; simpl; pp. Qed.
Lemma p_call_each sel c mk : (forall i, par (mk i) (mk i) eq) -> par (call_each E sel c mk) (call_each E sel c mk) eq.
Proof. intros H. unfold call_each. cach. apply p_call_each_from; auto. Qed.
Lemma p_ce_miss c k : par (call_each E miss_cbs c (fun id => ret (EvMiss id k))) (call_each E miss_cbs c (fun id => ret (EvMiss id k))) eq.
Proof. apply p_call_each. intros; pp. Qed.
Lemma p_ce_acc c k b : par (call_each E acc_cbs c (fun id => ret (EvAccess id k b))) (call_each E acc_cbs c (fun id => ret (EvAccess id k b))) eq.
Proof. apply p_call_each. intros; pp. Qed.
Hint Resolve p_ce_miss p_ce_acc : pb.
Lemma p_register_miss c k : par (register_miss E c k) (register_miss E c k) eq.
Proof. unfold register_miss. pp. Qed.
Hint Resolve p_register_miss : pb.
Lemma p_mtf c q : par (move_to_front (K := K) (V := V) c q) (move_to_front c q) eq. Proof. unfold move_to_front. pp. Qed.
Lemma p_too_full c : par (is_too_full (K := K) (V := V) c) (is_too_full c) eq. Proof. unfold is_too_full. pp. Qed.
Hint Resolve p_mtf p_too_full : pb.
Lemma p_evict c p : par (evict_lru_for E c p) (evict_lru_for E c p) eq.
Proof. unfold evict_lru_for. pp. Qed.
Hint Resolve p_evict : pb.
Lemma p_insert_new c p : par (insert_new_key E c p) (insert_new_key E c p) eq. Proof. unfold insert_new_key. pp. Qed.
Lemma p_space_left c : par (space_left (K := K) (V := V) c) (space_left c) eq. Proof. unfold space_left. pp. Qed.
Lemma p_is_empty c : par (is_empty (K := K) (V := V) c) (is_empty c) eq. Proof. unfold is_empty. pp. Qed.
Lemma p_is_full c : par (is_full (K := K) (V := V) c) (is_full c) eq. Proof. unfold is_full. pp. Qed.
Lemma p_expired_info t n n' : same_node n n' -> par (has_expired_info E t n) (has_expired_info E t n') eq.
Proof. intros (_ & _ & H). unfold has_expired_info. rewrite H. pp. Qed.
Lemma p_timestamp c : par (timestamp E c) (timestamp E c) eq. Proof. unfold timestamp. cach. pp. Qed.
Hint Resolve p_insert_new p_space_left p_is_empty p_is_full p_expired_info p_timestamp : pb.
Lemma p_ubegin c : par (unordered_begin (K := K) (V := V) c) (unordered_begin c) eq.
Proof.
  unfold unordered_begin. own_. destruct H as [|(i, n) (i', n') ? ? (A & _) _]; [pp|]. simpl in A. subst. rewrite HE. pp.
Qed.
Lemma p_obegin c : par (ordered_begin (K := K) (V := V) c) (ordered_begin c) eq.
Proof. unfold ordered_begin. own_. rewrite HO. pp. Qed.
Hint Resolve p_ubegin p_obegin : pb.
Lemma p_u_next i : par (u_next (K := K) (V := V) i) (u_next i) eq.
Proof.
  unfold u_next. pp.
Qed.
Lemma p_o_next i : par (o_next (K := K) (V := V) i) (o_next i) eq.
Proof. unfold o_next. pp. Qed.
Lemma p_o_prev i : par (o_prev (K := K) (V := V) i) (o_prev i) eq.
Proof. unfold o_prev. destruct (oi_pos i); [own_; rewrite HO|]; pp. Qed.
Lemma p_u_deref i : par (u_deref (K := K) (V := V) i) (u_deref i) eq. Proof. unfold u_deref. pp. Qed.
Lemma p_o_deref i : par (o_deref E i) (o_deref E i) eq.
Proof. unfold o_deref. pp. Qed.
Hint Resolve p_u_next p_o_next p_o_prev p_u_deref p_o_deref : pb.
Lemma p_has_expired c t k : par (has_expired_key E c t k) (has_expired_key E c t k) eq.
Proof. unfold has_expired_key. pp. Qed.
Lemma p_has_expired_o c t i : par (has_expired_o E c t i) (has_expired_o E c t i) eq.
Proof. unfold has_expired_o. pp. Qed.
Hint Resolve p_has_expired p_has_expired_o : pb.
Lemma p_is_valid_o c i : par (is_valid_o E c i) (is_valid_o E c i) eq.
Proof. unfold is_valid_o. cach. pp. Qed.
Lemma p_throw_o c i : par (throw_if_invalid_o E c i) (throw_if_invalid_o E c i) eq.
Proof. unfold throw_if_invalid_o. cach. pp. Qed.
Hint Resolve p_is_valid_o p_throw_o : pb.
Lemma p_o_entry i : par (o_entry E i) (o_entry E i) eq. Proof. unfold o_entry. pp. Qed.
Hint Resolve p_o_entry : pb.
Lemma p_order_eq : forall x y, par (order_eq E x y) (order_eq E x y) eq.
Proof.
  induction x as [|(i, p) x IH]; intros [|(j, q) y]; simpl; pp.
Qed.
Hint Resolve p_order_eq : pb.
Lemma map_eq_same t l l' m m' : Forall2 (@same_row K V) l l' -> Forall2 (@same_row K V) m m' ->
  map_eq E t l m = map_eq E t l' m'.
Proof.
  intros H H'. unfold map_eq. rewrite (rows_len H), (rows_len H'). f_equal.
  induction H as [|p p' u u' Hp Hu IH]; simpl; auto. rewrite IH. f_equal.
  destruct Hp as (_ & A1 & A2 & A3). rewrite A1. pose proof (rows_with (n_key (snd p')) H') as W.
  destruct (node_with _ _ _) as [(i, n)|], (node_with _ _ _) as [(i', n')|]; simpl in W; try easy.
  destruct W as (_ & B1 & B2 & B3). simpl in *. unfold info_eq. rewrite B1, B2, B3, A2, A3. auto.
Qed.
Lemma p_equals c e : par (equals E c e) (equals E c e) eq.
Proof.
  unfold equals. apply p_noexcept.
  eapply p_bind; [apply p_own|]; intros (r, s) (r', s') (Q & (H & HO & HN & HE) & HS).
  eapply p_bind; [apply p_own|]; intros (r2, s2) (r2', s2') (Q2 & (H2 & HO2 & HN2 & HE2) & HS2). simpl in *.
  cach. rewrite (map_eq_same _ H H2), HO, HO2. pp.
Qed.
Lemma p_front c : par (front (K := K) (V := V) c) (front c) eq.
Proof. unfold front. pp. Qed.
Lemma p_back c : par (back (K := K) (V := V) c) (back c) eq.
Proof. unfold back. pp. Qed.
Lemma p_all_expired c t : par (all_expired E c t) (all_expired E c t) eq.
Proof. unfold all_expired. pp. Qed.
Lemma p_stats c : par (stats (K := K) (V := V) c) (stats c) eq. Proof. unfold stats. cach. pp. Qed.
Lemma p_read_entry p : par (read_entry (K := K) (V := V) p) (read_entry p) eq.
Proof. unfold read_entry. pp. Qed.
Hint Resolve p_equals p_front p_back p_all_expired p_stats p_read_entry : pb.
Lemma p_o_collect f c : forall i, par (o_collect E f c i) (o_collect E f c i) eq.
Proof. induction f; intros i; simpl; pp. Qed.
Lemma p_o_back f c : forall i, par (o_collect_back E f c i) (o_collect_back E f c i) eq.
Proof. induction f; intros i; simpl; pp. Qed.
Lemma p_u_collect f c : forall i, par (u_collect (K := K) (V := V) f c i) (u_collect f c i) eq.
Proof. induction f; intros i; simpl; pp. Qed.
Lemma p_o_advance f c : forall i, par (o_advance (K := K) (V := V) f c i) (o_advance f c i) eq.
Proof. induction f; intros i; simpl; pp. Qed.
Lemma p_u_advance f c : forall i, par (u_advance (K := K) (V := V) f c i) (u_advance f c i) eq.
Proof. induction f; intros i; simpl; pp. Qed.
Hint Resolve p_o_collect p_o_back p_u_collect p_o_advance p_u_advance : pb.
Lemma p_ordered_nth c n : par (ordered_nth (K := K) (V := V) c n) (ordered_nth c n) eq. Proof. unfold ordered_nth. pp. Qed.
Hint Resolve p_ordered_nth : pb.
Lemma p_denotes c i : par (denotes (K := K) (V := V) c i) (denotes c i) eq. Proof. unfold denotes. pp. Qed.
Hint Resolve p_denotes : pb.
Lemma p_with_ttl c f : (forall t, par (f t) (f t) eq) -> par (with_ttl (K := K) (V := V) c f) (with_ttl c f) eq.
Proof. intros. unfold with_ttl. cach. pp. Qed.
Lemma p_stats_or c f : par (stats_update_or (V := V) c f) (stats_update_or (V := V) c f) eq. Proof. unfold stats_update_or. pp. Qed.
Hint Resolve p_stats_or : pb.
Lemma p_destroy c : par (destroy (K := K) (V := V) c) (destroy c) eq.
Proof. unfold destroy. cach. pp. Qed.
Hint Resolve p_destroy : pb.

Lemma tw_alive w z c : tw w z -> alive w c = alive z c.
Proof. intros T. unfold alive. pose proof (tw_c T c) as H. destruct (slot _ c), (slot _ c); easy. Qed.
Lemma tw_timed w z c : tw w z -> timed w c = timed z c.
Proof.
  intros T. unfold timed. pose proof (tw_c T c) as H. destruct (slot _ c), (slot _ c); try easy.
  destruct H as ((_ & _ & _ & _ & H) & _). rewrite H. auto.
Qed.
Lemma tw_well_formed w z o : tw w z -> well_formed w o = well_formed z o.
Proof.
  intros T. destruct o; simpl; unfold same_kind, stats_alive;
    rewrite ?(tw_alive _ T), ?(tw_timed _ T), ?(tw_st T); auto.
Qed.
Lemma p_exec o w z : par (body E o) (body E o) eq -> tw w z -> pres eq (exec E o w) (exec E o z).
Proof. intros H T. unfold exec. rewrite (tw_well_formed _ T). destruct (well_formed z o); simpl; auto. Qed.

Theorem observer_blind o : observer o = true -> par (body E o) (body E o) eq.
Proof.
  intros H. destruct o; try discriminate; cbn [body];
    unfold traverse_ordered, traverse_backward, traverse_unordered, is_monitoring;
    try (apply p_with_ttl; intros t); try cach; pp.
Qed.
Theorem stats_blind o : registers o = true ->
    match o with Find _ _ | FindEntry _ _ | Contains _ _ | Lookup _ _ | Write _ _ _ | EraseFound _ _ => False
               | _ => True end -> par (body E o) (body E o) eq.
Proof. intros H. destruct o; try discriminate; simpl; intros; try easy; pp. Qed.

(** Monitoring and registration of callbacks. *)
Theorem admin_blind o : match o with
    | MonitorNew _ _ | MonitorShared _ _ | StopMonitoring _ | AddHit _ _ | AddMiss _ _ | AddAccess _ _
    | ClearHit _ | ClearMiss _ | ClearAccess _ | ClearCallbacks _ => True | _ => False end ->
  par (body E o) (body E o) eq.
Proof.
  intros H. destruct o; try contradiction; cbn [body];
    unfold monitor_new, monitor_shared, stop_monitoring, add_hit_callback, add_miss_callback, add_access_callback,
      clear_all_callbacks, clear_hit_callbacks, clear_miss_callbacks, clear_access_callbacks; pp.
Qed.

(** Insertion and search of an absent key. *)
Hypothesis HB : hash_blind E.
Lemma p_map_emplace c n : par (map_emplace E c n) (map_emplace E c n) eq.
Proof.
  unfold map_emplace. eapply p_bind; [apply p_own|]. intros (r, s) (r', s') (Q & HS). simpl in *. subst r'.
  pose proof HS as ((H & HO & HN & HE) & HQ).
  pose proof (rows_with (n_key n) H) as A. destruct (node_with _ _ _) as [(i, m)|] , (node_with _ _ _) as [(i', m')|] ; simpl in A; try contradiction.
  - destruct A as (A & _). simpl in A. subst. rewrite HE. apply p_ret; auto.
  - eapply p_bind; [apply p_fallible|]. intros _ _ _. rewrite (rehash_blind HB (proj1 HS)), HN, HE, HO.
    eapply p_bind with (R := eq); [apply p_put_store; [|reflexivity]|intros; apply p_ret; auto].
    split.
    + split; simpl; auto. apply (place_blind HB); auto. apply same_node_refl.
    + intros N. rewrite (HQ N). auto.
Qed.
Hint Resolve p_map_emplace : pb.

Lemma map_find_pure c k w i w' : map_find E c k w = Val i w' -> w' = w.
Proof.
  unfold map_find, own, bind, get_cache, get_store, ret.
  destruct (slot (w_caches w) c) as [x|]; [|discriminate]. destruct (slot (w_stores w) (c_rid x)) as [s|]; [|discriminate].
  destruct (node_with E k (s_map s)) as [(?, ?)|]; intros H; inversion H; auto.
Qed.
Lemma absent_twin c k w z : tw w z -> map_find E c k z = Val None z -> map_find E c k w = Val None w.
Proof.
  intros T F. pose proof (p_map_find c k T) as P. rewrite F in P. unfold pres in P.
  destruct (map_find E c k w) as [i w'|? ?|?|?] eqn:FZ; try contradiction. destruct P as (_ & ->).
  rewrite (map_find_pure FZ). auto.
Qed.
Lemma map_find_only c k w w' : w_caches w' = w_caches w -> w_stores w' = w_stores w ->
  map_find E c k w = Val None w -> map_find E c k w' = Val None w'.
Proof.
  intros C S. unfold map_find, own, bind, get_cache, get_store, ret. rewrite C.
  destruct (slot (w_caches w) c) as [x|]; [|discriminate]. rewrite S. destruct (slot (w_stores w) (c_rid x)) as [s|]; [|discriminate].
  destruct (node_with E k (s_map s)) as [(?, ?)|]; intros H; inversion H; auto.
Qed.
Lemma tw_slots c w z : tw w z -> 
  (exists x y, slot (w_caches w) c = Some x /\ slot (w_caches z) c = Some y /\ cc c x y) \/
  (slot (w_caches w) c = None /\ slot (w_caches z) c = None).
Proof.
  intros T. pose proof (tw_c T c) as H.
  destruct (slot (w_caches w) c) as [x|] eqn:Hx, (slot (w_caches z) c) as [y|] eqn:Hy; simpl in H; try easy; eauto 8.
Qed.
Lemma find_absent c k w z : tw w z -> map_find E c k z = Val None z -> pres eq (find E c k w) (find E c k z).
Proof.
  intros T F'. pose proof (absent_twin T F') as F.
  unfold find, bind, get_cache. destruct (tw_slots c T) as [(x & y & Hx & Hy & Hc)|(Hx & Hy)]; rewrite Hx, Hy; simpl; auto.
  destruct Hc as ((_ & _ & _ & _ & TT) & _). rewrite TT.
  assert (P : par (register_miss E c k;;; ret (unordered_end c)) (register_miss E c k;;; ret (unordered_end c)) eq) by pp.
  destruct (c_ttl y); unfold bind; rewrite F, F'; exact (P w z T).
Qed.

Lemma bind_val A B (m : M A) (k : A -> M B) w a w' : m w = Val a w' -> bind m k w = k a w'.
Proof. intros H. unfold bind. rewrite H. auto. Qed.
Lemma capacity_cases c w z : tw w z ->
  (exists n, capacity (K := K) (V := V) c w = Val n w /\ capacity (K := K) (V := V) c z = Val n z) \/
  (exists u, capacity (K := K) (V := V) c w = Undef u /\ capacity (K := K) (V := V) c z = Undef u).
Proof.
  intros T. unfold capacity, bind, get_cache. destruct (tw_slots c T) as [(x & y & Hx & Hy & Hc)|(Hx & Hy)]; rewrite Hx, Hy; simpl; eauto.
  destruct Hc as ((_ & TT & _) & _). rewrite TT. eauto.
Qed.
Lemma insert_absent c k v w z : tw w z -> map_find E c k z = Val None z -> pres eq (insert E c k v w) (insert E c k v z).
Proof.
  intros T F'. pose proof (absent_twin T F') as F. unfold insert.
  destruct (capacity_cases c T) as [(n & C & C')|(u & C & C')].
  - rewrite (bind_val _ C), (bind_val _ C'). destruct (Nat.eqb n 0); [simpl; auto|].
    rewrite (bind_val _ F), (bind_val _ F').
    match goal with |- pres _ (?m w) (?m z) => assert (P : par m m eq) by pp; exact (P w z T) end.
  - unfold bind. rewrite C, C'. simpl. auto.
Qed.

Lemma fallible_cases w z : tw w z ->
  (exists w' z', fallible E w = Val tt w' /\ fallible E z = Val tt z' /\ tw w' z' /\
     w_caches w' = w_caches w /\ w_stores w' = w_stores w /\ w_caches z' = w_caches z /\ w_stores z' = w_stores z) \/
  (exists e w' z', fallible E w = Exc e w' /\ fallible E z = Exc e z' /\ tw w' z').
Proof.
  intros T. pose proof (p_fallible T) as PF. unfold fallible in *.
  destruct (fails E (w_steps w)), (fails E (w_steps z)); simpl in PF; try contradiction.
  - right. destruct PF. eauto 8.
  - left. destruct PF. do 2 eexists. split; [reflexivity|]. split; [reflexivity|]. auto 8.
Qed.
Lemma emplace_absent c k v w z : tw w z -> map_find E c k z = Val None z -> pres eq (emplace E c k v w) (emplace E c k v z).
Proof.
  intros T F'. pose proof (absent_twin T F') as F. unfold emplace.
  destruct (capacity_cases c T) as [(n & C & C')|(u & C & C')].
  - rewrite (bind_val _ C), (bind_val _ C'). destruct (Nat.eqb n 0); [simpl; auto|].
    destruct (fallible_cases T) as [(w1 & z1 & X & X' & T' & W1 & W2 & Z1 & Z2)|(e & w1 & z1 & X & X' & T')].
    2: { unfold bind. rewrite X, X'. simpl. auto. }
    rewrite (bind_val _ X), (bind_val _ X').
    rewrite (bind_val _ (map_find_only W1 W2 F)), (bind_val _ (map_find_only Z1 Z2 F')).
    match goal with |- pres _ (?m _) (?m _) => assert (P : par m m eq) by pp; exact (P w1 z1 T') end.
  - unfold bind. rewrite C, C'. simpl. auto.
Qed.

Lemma pres_ret A B (m m' : res world A) (f : A -> B) R :
  pres R m m' -> (forall a b, R a b -> f a = f b) ->
  pres eq (match m with Val a w => ret (f a) w | Exc e w => Exc e w | Undef u => Undef u | Term e => Term e end)
          (match m' with Val a w => ret (f a) w | Exc e w => Exc e w | Undef u => Undef u | Term e => Term e end).
Proof. intros H F. unfold pres in *. destruct m, m'; simpl in *; try easy. intuition. Qed.

Lemma find_body d0 k w z : tw w z -> map_find E d0 k z = Val None z -> pres eq (body E (Find d0 k) w) (body E (Find d0 k) z).
Proof.
  intros T F. cbn [body]. pose proof (find_absent T F) as P. unfold bind at 1 3.
  destruct (find E d0 k w) as [p w1|? ?|?|?], (find E d0 k z) as [q z1|? ?|?|?]; try contradiction; simpl in P |- *; auto.
  destruct P as (T1 & ->).
  match goal with |- pres _ (?m w1) (?m' z1) => assert (Q : par m m' eq) by pp; exact (Q w1 z1 T1) end.
Qed.
Lemma insert_body d0 k v w z : tw w z -> map_find E d0 k z = Val None z -> pres eq (body E (Insert d0 k v) w) (body E (Insert d0 k v) z).
Proof.
  intros T F. cbn [body]. pose proof (insert_absent v T F) as P. unfold bind at 1 3.
  destruct (insert E d0 k v w) as [p w1|? ?|?|?], (insert E d0 k v z) as [q z1|? ?|?|?]; try contradiction; simpl in P |- *; auto.
  destruct P as (T1 & ->).
  match goal with |- pres _ (?m w1) (?m' z1) => assert (Q : par m m' eq) by pp; exact (Q w1 z1 T1) end.
Qed.
Lemma emplace_body d0 k v w z : tw w z -> map_find E d0 k z = Val None z -> pres eq (body E (Emplace d0 k v) w) (body E (Emplace d0 k v) z).
Proof.
  intros T F. cbn [body]. pose proof (emplace_absent v T F) as P. unfold bind at 1 3.
  destruct (emplace E d0 k v w) as [p w1|? ?|?|?], (emplace E d0 k v z) as [q z1|? ?|?|?]; try contradiction; simpl in P |- *; auto.
  destruct P as (T1 & ->).
  match goal with |- pres _ (?m w1) (?m' z1) => assert (Q : par m m' eq) by pp; exact (Q w1 z1 T1) end.
Qed.

Lemma set_capacity_blind c n m w z : tw w z -> size (K := K) (V := V) c z = Val m z -> m <= n ->
  pres eq (set_capacity E c n w) (set_capacity E c n z).
Proof.
  intros T S L. pose proof (p_size c T) as P. rewrite S in P.
  destruct (size c w) as [m' w'|? ?|?|?] eqn:SW; try contradiction. destruct P as (_ & ->).
  assert (w' = w) as ->.
  { revert SW. unfold size, map_size, own, bind, get_cache, get_store, ret.
    destruct (slot (w_caches w) c) as [x|]; [|discriminate]. destruct (slot (w_stores w) (c_rid x)) as [s|]; [|discriminate].
    intros H; inversion H; auto. }
  unfold set_capacity. rewrite (bind_val _ SW), (bind_val _ S).
  assert (X : forall y, size (K := K) (V := V) c y = Val m y -> erase_lru_while E m c n y = Val tt y).
  { intros y Y. destruct m; simpl; rewrite (bind_val _ Y); (replace (n <? _) with false by (symmetry; apply Nat.ltb_ge; lia)); auto. }
  rewrite (bind_val _ (X _ SW)), (bind_val _ (X _ S)).
  match goal with |- pres _ (?m _) (?m _) => assert (Q : par m m eq); [|exact (Q w z T)] end.
  apply p_cc. intros x y H. apply p_put_cache; auto.
  apply (cc_map (f := fun x => MkCache (c_rid x) (c_last x) n (c_stats x) (c_cbs x) (c_ttl x))); try assumption; [|reflexivity].
  intros ? ? (A1 & A2 & A3 & A4 & A5). repeat split; auto.
Qed.

(** Clearing and destroying erase the difference. *)
Lemma tw_eq w z : tw w z -> slot (w_caches w) d = slot (w_caches z) d -> slot (w_stores w) rd = slot (w_stores z) rd -> w = z.
Proof.
  intros T Hd Hr. destruct w as [c s t l r n], z as [c' s' t' l' r' n'], T; simpl in *. subst.
  f_equal.
  - apply (nth_ext _ _ None None); auto. intros i _. fold (slot c i) (slot c' i).
    destruct (Nat.eq_dec i d) as [->|N]; auto. specialize (tw_c0 i).
    destruct (slot c i), (slot c' i); simpl in *; try easy. destruct tw_c0 as (_ & Q & _). rewrite Q; auto.
  - apply (nth_ext _ _ None None); auto. intros i _. fold (slot s i) (slot s' i).
    destruct (Nat.eq_dec i rd) as [->|N]; auto. specialize (tw_s0 i).
    destruct (slot s i), (slot s' i); simpl in *; try easy. destruct tw_s0 as (_ & Q). rewrite Q; auto.
Qed.
Definition owns w : Prop := exists x s, slot (w_caches w) d = Some x /\ c_rid x = rd /\ slot (w_stores w) rd = Some s.
Lemma owns_slots w z : tw w z -> owns w -> exists x y s s',
  slot (w_caches w) d = Some x /\ slot (w_caches z) d = Some y /\ same_cache x y /\ c_rid x = rd /\ c_rid y = rd /\
  slot (w_stores w) rd = Some s /\ slot (w_stores z) rd = Some s' /\ same_store s s'.
Proof.
  intros T (x & s & Hx & R & Hs). pose proof (tw_c T d) as C. pose proof (tw_s T rd) as S.
  rewrite Hx in C. rewrite Hs in S. destruct (slot (w_caches z) d) as [y|] eqn:Hy; [|easy]. destruct (slot (w_stores z) rd) as [s'|] eqn:Hs'; [|easy].
  destruct C as (C & _), S as (S & _). exists x, y, s, s'. destruct C as (C & C'). unfold same_cache. rewrite <- C. auto 12.
Qed.
Lemma clear_same w z : tw w z -> owns w -> exists w1, clear (K := K) (V := V) d w = Val tt w1 /\ clear (K := K) (V := V) d z = Val tt w1.
Proof.
  intros T O. destruct (owns_slots T O) as (x & y & s & s' & Hx & Hy & Hc & Rx & Ry & Hs & Hs' & HS).
  eexists. split.
  - unfold clear, invalidate_last, set_last, own, bind, get_cache, get_store, put_store, put_cache, ret. simpl.
    rewrite Hx, Rx, Hs. simpl. rewrite Hx, Rx. unfold with_stores; cbn [w_stores w_caches]. rewrite (slot_upd_same _ _ _ Hs). simpl.
    rewrite Hx, Rx. unfold modify, with_caches; simpl. reflexivity.
  - unfold clear, invalidate_last, set_last, own, bind, get_cache, get_store, put_store, put_cache, ret. simpl.
    rewrite Hy, Ry, Hs'. simpl. rewrite Hy, Ry. unfold with_stores; cbn [w_stores w_caches]. rewrite (slot_upd_same _ _ _ Hs'). simpl.
    rewrite Hy, Ry. unfold modify, with_caches; simpl. f_equal. symmetry. 
    destruct Hc as (A1 & A2 & A3 & A4 & A5), HS as (B1 & B2 & B3 & B4).
    apply tw_eq; unfold slot; simpl.
    + unfold with_caches, with_stores; simpl.
      match goal with |- tw ?a ?b => 
        change (tw (with_caches (fun l => upd l d (Some (MkCache rd None (c_cap x) (c_stats x) (c_cbs x) (c_ttl x))))
                   (with_stores (fun l => upd (upd l rd (Some (MkStore [] (s_ord s) (s_next s) (s_epoch s)))) rd (Some (MkStore [] [] (s_next s) (s_epoch s)))) w))
                   (with_caches (fun l => upd l d (Some (MkCache rd None (c_cap y) (c_stats y) (c_cbs y) (c_ttl y))))
                   (with_stores (fun l => upd (upd l rd (Some (MkStore [] (s_ord s') (s_next s') (s_epoch s')))) rd (Some (MkStore [] [] (s_next s') (s_epoch s')))) z))) end.
      apply tw_upd_cache.
      * apply (tw_upd_store (w := with_stores (fun l => upd l rd (Some (MkStore [] (s_ord s) (s_next s) (s_epoch s)))) w)
                            (z := with_stores (fun l => upd l rd (Some (MkStore [] (s_ord s') (s_next s') (s_epoch s')))) z)).
        -- apply tw_upd_store; auto. simpl. rewrite B2, B3, B4. apply st_refl.
        -- simpl. rewrite B3, B4. apply st_refl.
      * simpl. rewrite A2, A3, A4, A5. apply cc_refl; auto.
    + rewrite !nth_upd_same by (first [exact (slot_lt _ _ Hx)|exact (slot_lt _ _ Hy)]). congruence.
    + rewrite !nth_upd_same by (rewrite upd_length; first [exact (slot_lt _ _ Hs)|exact (slot_lt _ _ Hs')]). congruence.
Qed.
Lemma destroy_same w z : tw w z -> owns w -> exists w1, destroy (K := K) (V := V) d w = Val tt w1 /\ destroy (K := K) (V := V) d z = Val tt w1.
Proof.
  intros T O. pose proof (p_destroy d T) as P. destruct (owns_slots T O) as (x & y & s & s' & Hx & Hy & Hc & Rx & Ry & Hs & Hs' & HS).
  unfold destroy, bind, get_cache, drop_store, drop_cache, ret in *. rewrite Hx, Hy, Rx, Ry in *. simpl in *.
  eexists. split; [reflexivity|]. unfold modify. f_equal. symmetry. destruct P as (P & _). apply tw_eq; auto; unfold slot; simpl.
  - rewrite !nth_upd_same by (first [exact (slot_lt _ _ Hx)|exact (slot_lt _ _ Hy)]). congruence.
  - rewrite !nth_upd_same by (first [exact (slot_lt _ _ Hs)|exact (slot_lt _ _ Hs')]). congruence.
Qed.
Lemma assign_range_same l w z : tw w z -> owns w -> assign_range E d l w = assign_range E d l z.
Proof.
  intros T O. destruct (clear_same T O) as (w1 & C & C').
  unfold assign_range, clear_and_increase_capacity, bind. rewrite C, C'. auto.
Qed.
Lemma assign_move_same l w z : tw w z -> owns w -> assign_move E d l w = assign_move E d l z.
Proof.
  intros T O. destruct (clear_same T O) as (w1 & C & C').
  unfold assign_move, clear_and_increase_capacity, bind. rewrite C, C'. auto.
Qed.
End Blind.
