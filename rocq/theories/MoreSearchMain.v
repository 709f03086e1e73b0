(** Searches of ranges, constructors, copies, comparison and timed caches: what becomes
    of their exceptions. *)
From Coq Require Import List Arith ZArith Bool Lia Permutation.
Import ListNotations.
From Verif Require Import Monad Types Model Api Spec Ref Lists SimBase SimRel SimOps SimIns SimErase SimIter SimNew SimObs SimExec RefEval SimRun LruProofs CallProofs LruMore Flat Global Safe Frame StatProofs MemoCalls PairProofs SwapProofs Searches SpecSearches SearchProofs SearchMain SearchCost MoreSearches SpecMoreSearches MoreSearchProofs.
Set Implicit Arguments.
Unset Strict Implicit.
Local Open Scope cpp_scope.

Section Main.
Context {K V : Type}.
Variable E : env K V.
Hypothesis G : good E.
Variables st ct : nat -> option nat.
Variable keeps : bool.
Notation world := (world K V).
Notation hworld := (hworld K V).
Notation H := (M hworld).
Notation MM := (M world).
Implicit Types Q : world -> Prop.
Notation follows := (follows st ct).
Notation m_exec := (m_exec E st ct keeps).
Notation m_body := (m_body E st ct keeps).

Ltac fol := repeat match goal with
  | |- SearchProofs.follows _ _ _ (bind _ _) (bind _ _) _ => apply follows_bind; [|intros]
  | |- SearchProofs.follows _ _ _ (lift _) _ _ => apply follows_lift
  | |- SearchProofs.follows _ _ _ (ret _) _ _ => apply follows_ret
  | |- SearchProofs.follows _ _ _ (throw _) _ _ => apply follows_throw
  | |- SearchProofs.follows _ _ _ (undef _) _ _ => apply follows_undef
  | |- SearchProofs.follows _ _ _ (h_last_is _ _ _ _) _ _ => apply follows_last_is
  | |- SearchProofs.follows _ _ _ (match ?x with _ => _ end) _ _ => destruct x
  | |- SearchProofs.follows _ _ _ (if ?x then _ else _) _ _ => destruct x
  end.

Lemma follows_m_exec Q o h : follows Q (m_body o) (body E o) h -> follows Q (m_exec o) (exec E o) h.
Proof.
  intros F. unfold MoreSearches.m_exec, exec, SearchProofs.follows. destruct (well_formed (h_world h) o); auto.
  left. exists (h_searches h), (h_compares h). repeat split; auto. destruct h; auto.
Qed.
Lemma follows_m_settle Q o h : follows Q (m_body o) (body E o) h ->
  forget (m_exec o h) = exec E o (h_world h) \/ failed st h (m_exec o h) Q \/ ended ct h (m_exec o h).
Proof.
  intros F. destruct (follows_m_exec F) as [(s & t & _ & _ & X)|[(n & i & h' & X)|(n & i & X)]].
  - left. rewrite X. destruct (exec E o (h_world h)); auto.
  - right. left. exists i, n, h'. auto.
  - right. right. exists i, n. auto.
Qed.

(** Constructors. *)
Definition fIns c : K * V -> op K V := fun p => Insert c (fst p) (snd p).
Definition fEmp c : K * V -> op K V := fun p => Emplace c (fst p) (snd p).
Lemma fIns_puts c : puts c (fIns c). Proof. left. reflexivity. Qed.
Lemma fEmp_puts c : puts c (fEmp c). Proof. right. reflexivity. Qed.
Lemma constructor_settles ttl o cap l h : builds ttl o cap l -> reachable E (h_world h) ->
  forget (m_exec o h) = exec E o (h_world h) \/ failed st h (m_exec o h) (as_before E (h_world h)) \/ ended ct h (m_exec o h).
Proof.
  intros B R. apply follows_m_settle.
  assert (X : forall cap, follows (as_before E (h_world h)) (h_new_from E st cap ttl l) (new_from E cap ttl l) h).
  { intros cap0. eapply follows_weak; [|exact (new_follows G st ct cap0 ttl l fIns_puts R)].
    intros w. apply (undone_as_before G fIns_puts R). }
  assert (Y : forall cap, follows (as_before E (h_world h)) (h_new_from_move E st cap ttl l) (new_from_move E cap ttl l) h).
  { intros cap0. eapply follows_weak; [|exact (new_follows G st ct cap0 ttl l fEmp_puts R)].
    intros w. apply (undone_as_before G fEmp_puts R). }
  destruct B; cbn [MoreSearches.m_body body]; unfold new_from_iters, new_from_rvalue, new_from_list;
    try (apply follows_bind; [auto|intros; apply follows_ret]).
  apply follows_lift.
Qed.

(** Insertion and assignment of ranges. *)
Lemma range_follows_any c l h : follows (fun _ => True) (h_insert_range E st c l) (insert_range E c l) h.
Proof. exact (range_follows G st ct l (fIns_puts c) 0 h). Qed.
Lemma move_follows_any c l h : follows (fun _ => True) (h_insert_move E st c l) (insert_move E c l) h.
Proof. exact (range_follows G st ct l (fEmp_puts c) 0 h). Qed.
Lemma range_settles c l o h : puts_range c l o \/ assigns c l o ->
  forget (m_exec o h) = exec E o (h_world h) \/ failed st h (m_exec o h) (fun _ => True) \/ ended ct h (m_exec o h).
Proof.
  intros O. apply follows_m_settle. destruct O as [[]|[]]; cbn [MoreSearches.m_body body];
    unfold h_assign_range, assign_range, h_assign_move, assign_move;
    repeat (apply follows_bind; [|intros]); try apply follows_ret; try apply follows_lift;
    auto using range_follows_any, move_follows_any.
Qed.

(** Timed caches. *)
Lemma pure_deref_it i : pure (@deref_it K V i).
Proof.
  unfold deref_it. apply pure_bind; [apply pure_get_store|]. intros z. destruct (s_epoch z =? snd i); [apply pure_deref|apply pure_undef].
Qed.
Lemma pure_is_empty c : pure (@is_empty K V c).
Proof. unfold is_empty. apply pure_bind; [apply pure_size|intros; apply pure_ret]. Qed.
Lemma pure_list_back c : pure (@list_back K V c).
Proof. unfold list_back. apply pure_bind; [apply pure_own|]. intros (r & s). destruct (rev (s_ord s)) as [|(i & p) t]; [apply pure_undef|apply pure_ret]. Qed.
Definition nobody (i : nat) : option nat := None.
Lemma follows_no_compare Q o h : SearchProofs.follows st nobody Q (m_body o) (body E o) h ->
  forget (m_exec o h) = exec E o (h_world h) \/ failed st h (m_exec o h) Q.
Proof.
  intros F. unfold MoreSearches.m_exec, exec. destruct (well_formed (h_world h) o); [|left; destruct h; auto].
  destruct F as [(s & t & _ & _ & X)|[(n & i & h' & X)|(n & i & X & _)]].
  - left. rewrite X. destruct (body E o (h_world h)); auto.
  - right. exists i, n, h'. auto.
  - discriminate.
Qed.
Lemma all_expired_settles c h :
  forget (m_exec (AllExpired c) h) = exec E (AllExpired c) (h_world h) \/
  failed st h (m_exec (AllExpired c) h) (unchanged (h_world h)).
Proof.
  apply follows_no_compare. cbn [MoreSearches.m_body body]. unfold h_with_ttl, with_ttl. apply follows_bind; [apply follows_lift|]. intros x s t w' X.
  apply pure_get_cache in X. subst w'. destruct (c_ttl x); [|apply follows_ret]. apply follows_bind; [|intros; apply follows_ret].
  unfold h_all_expired, all_expired. apply follows_bind; [apply follows_lift|]. intros e s1 t1 w1 X.
  apply pure_is_empty in X. simpl in X. subst w1. destruct e; [apply follows_ret|].
  apply follows_bind; [apply follows_lift|]. intros p s2 t2 w2 X. apply pure_list_back in X. simpl in X. subst w2.
  apply follows_bind; [apply follows_lift|]. intros n s3 t3 w3 X. apply pure_deref in X. simpl in X. subst w3.
  apply follows_bind; [apply follows_map_find; apply unchanged_refl|]. intros; fol.
Qed.

(** Calls out of which nothing is thrown. *)
Definition seals {A} (mh : H A) (m : MM A) h : Prop :=
  (exists s t, h_searches h <= s /\ h_compares h <= t /\ mh h = counted s t (m (h_world h))) \/
  (exists i n, st i = Some n /\ h_searches h <= i /\ mh h = Term (UserExn n)).
Lemma seals_noexcept {A} Q (mh : H A) (m m' : MM A) h : SearchProofs.follows st nobody Q mh m h ->
  (forall e w, m (h_world h) <> Exc e w) -> m' (h_world h) = m (h_world h) -> seals (noexcept mh) m' h.
Proof.
  intros F S Q'. destruct F as [(s & t & Ls & Lt & X)|[(n & i & h' & X1 & X2 & X3 & X & _)|(n & i & X & _)]].
  - left. exists s, t. split; auto. split; auto. rewrite Q'. unfold noexcept. rewrite X. destruct (m (h_world h)) eqn:Z; auto. destruct (S _ _ eq_refl).
  - right. exists i, n. split; auto. split; auto. unfold noexcept. rewrite X. auto.
  - discriminate.
Qed.
Lemma seals_last {A B} (mh : H A) (m : MM A) (f : A -> B) h : seals mh m h ->
  seals (a <- mh;; ret (f a)) (a <- m;; ret (f a)) h.
Proof.
  intros [(s & t & Ls & Lt & X)|(i & n & X1 & X2 & X)].
  - left. exists s, t. split; auto. split; auto. unfold bind. rewrite X. destruct (m (h_world h)); auto.
  - right. exists i, n. split; auto. split; auto. unfold bind. rewrite X. auto.
Qed.
Lemma seals_settle o h : seals (m_body o) (body E o) h ->
  forget (m_exec o h) = exec E o (h_world h) \/ ended_searching st h (m_exec o h).
Proof.
  intros F. unfold MoreSearches.m_exec, exec. destruct (well_formed (h_world h) o); [|left; destruct h; auto].
  destruct F as [(s & t & _ & _ & X)|(i & n & X)].
  - left. rewrite X. destruct (body E o (h_world h)); auto.
  - right. exists i, n. auto.
Qed.

Lemma silent_has_expired d n : silent (has_expired_info E d n).
Proof. intros w e w'. rewrite has_expired_ev. discriminate. Qed.
Lemma expired_seals c d k h : seals (h_has_expired_key E st c d k) (has_expired_key E c d k) h.
Proof.
  eapply seals_noexcept with (Q := fun _ => True) (m := has_expired_key E c d k); auto.
  - unfold has_expired_key. apply follows_bind; [apply follows_map_find; auto|]. intros; fol.
  - intros e w. unfold has_expired_key. revert e w. apply silent_bind; [apply silent_map_find|].
    intros [i|]; [|apply silent_ret]. apply silent_bind; [apply silent_deref_it|intros; apply silent_has_expired].
Qed.

Lemma follows_all_in b t a Q h : Q (h_world h) -> SearchProofs.follows st nobody Q (h_all_in E st b a t)
  (ret (forallb (fun p => match node_with E (n_key (snd p)) t with
                    | None => false
                    | Some (_, m) => key_eqop E (n_key (snd p)) (n_key m) && info_eq E b (snd p) m
                    end) a)) h.
Proof.
  revert h. induction a as [|p a IH]; intros h HQ; cbn [h_all_in forallb]; [apply follows_ret|].
  destruct (st (h_searches h)) as [n|] eqn:X.
  - right. left. exists n, (h_searches h). eexists. unfold bind, search. rewrite X. split; auto. split; auto. split; [|split; [reflexivity|]]; auto.
  - set (h1 := MkH (S (h_searches h)) (h_compares h) (h_world h)).
    assert (Z : forall B (kh : unit -> H B), bind (search st) kh h = kh tt h1).
    { intros B kh. unfold bind, search. rewrite X. reflexivity. }
    assert (F : SearchProofs.follows st nobody Q
       (if match node_with E (n_key (snd p)) t with
                    | None => false
                    | Some (_, m) => key_eqop E (n_key (snd p)) (n_key m) && info_eq E b (snd p) m
                    end then h_all_in E st b a t else ret false)
       (ret (match node_with E (n_key (snd p)) t with
                    | None => false
                    | Some (_, m) => key_eqop E (n_key (snd p)) (n_key m) && info_eq E b (snd p) m
                    end && forallb (fun p => match node_with E (n_key (snd p)) t with
                    | None => false
                    | Some (_, m) => key_eqop E (n_key (snd p)) (n_key m) && info_eq E b (snd p) m
                    end) a)) h1).
    { destruct (match node_with E (n_key (snd p)) t with None => false | Some _ => _ end); [|apply follows_ret].
      simpl. apply (IH h1). exact HQ. }
    destruct F as [(s & t1 & L1 & L2 & Y)|[(n & i & h' & Y1 & L1 & L2 & Y & Y2)|(n & i & Y & _)]]; [| |discriminate].
    + left. exists s, t1. rewrite Z. cbn [h1 h_searches h_compares h_world] in *. split; [lia|]. split; [lia|]. exact Y.
    + right. left. exists n, i, h'. rewrite Z. cbn [h1 h_searches h_compares h_world] in *. split; auto. split; [lia|]. auto.
Qed.
Lemma follows_map_eq b t a Q h : Q (h_world h) ->
  SearchProofs.follows st nobody Q (h_map_eq E st b a t) (ret (map_eq E b a t)) h.
Proof.
  intros HQ. unfold h_map_eq, map_eq. destruct (Nat.eqb (length a) (length t)); [|apply follows_ret]. apply follows_all_in. auto.
Qed.
Lemma silent_order a : forall b, silent (order_eq E a b).
Proof.
  induction a as [|(i & p) a IH]; intros [|(j & q) b]; cbn [order_eq]; try apply silent_ret.
  apply silent_bind; [apply silent_deref|]. intros n. apply silent_bind; [apply silent_deref|]. intros m.
  destruct (key_eqop E (n_key n) (n_key m)); [apply IH|apply silent_ret].
Qed.
Lemma equals_seals c d h : seals (h_equals E st c d) (equals E c d) h.
Proof.
  set (m := '(_, s) <- own c;; '(_, s') <- own d;; x <- get_cache c;;
    if Nat.eqb c d then ret true
    else same <- ret (map_eq E (match c_ttl x with None => false | _ => true end) (s_map s) (s_map s'));;
      if same : bool then order_eq E (s_ord s) (s_ord s') else ret false).
  assert (S : silent m).
  { unfold m. apply silent_bind; [apply silent_own|]. intros (r & s). apply silent_bind; [apply silent_own|]. intros (r' & s').
    apply silent_bind; [apply silent_get_cache|]. intros x. destruct (Nat.eqb c d); [apply silent_ret|].
    apply silent_bind; [apply silent_ret|]. intros []; [apply silent_order|apply silent_ret]. }
  eapply seals_noexcept with (Q := fun _ => True) (m := m); auto.
  - unfold m. apply follows_bind; [apply follows_lift|]. intros (r & s) s0 t0 w0 _.
    apply follows_bind; [apply follows_lift|]. intros (r' & s') s1 t1 w1 _.
    apply follows_bind; [apply follows_lift|]. intros x s2 t2 w2 _. destruct (Nat.eqb c d); [apply follows_ret|].
    apply follows_bind; [apply follows_map_eq; auto|]. intros []; intros; [apply follows_lift|apply follows_ret].
  - assert (X : forall w, equals E c d w = noexcept m w).
    { intros w. reflexivity. }
    rewrite X. unfold noexcept. destruct (m (h_world h)) eqn:Y; auto. destruct (S _ _ _ Y).
Qed.

(** Copies. *)
Lemma follows_rehash {A} Q (l : list A) h : Q (h_world h) ->
  SearchProofs.follows st nobody Q (h_rehash st keeps l) (ret tt) h.
Proof.
  revert h. induction l as [|x l IH]; intros h HQ; cbn [h_rehash]; [apply follows_ret|].
  change (@ret world unit tt) with (@bind world unit unit (ret tt) (fun _ => ret tt)).
  apply follows_bind; [|intros [] s t w' X; apply IH; inversion X; subst; exact HQ].
  destruct keeps; [apply follows_ret|].
  destruct (st (h_searches h)) as [n|] eqn:X.
  - right. left. exists n, (h_searches h). eexists. unfold search. rewrite X.
    split; auto. split; auto. split; [|split; [reflexivity|]]; auto.
  - left. exists (S (h_searches h)), (h_compares h). unfold search. rewrite X. repeat split; auto.
Qed.
Lemma follows_reassign Q c ids : (forall w, Q w) -> forall h,
  SearchProofs.follows st nobody Q (h_reassign E st c ids) (reassign E c ids) h.
Proof.
  intros HQ. induction ids as [|i t IH]; intros h; cbn [h_reassign reassign]; [apply follows_ret|].
  apply follows_bind; [apply follows_lift|]. intros (r & s) s0 t0 w0 _.
  apply follows_bind; [apply follows_lift|]. intros p s1 t1 w1 _.
  apply follows_bind; [apply follows_lift|]. intros n s2 t2 w2 _.
  apply follows_bind; [apply follows_map_find; auto|]. intros [f|] s3 t3 w3 _; [|apply follows_undef].
  apply follows_bind; [apply follows_lift|]. intros; apply IH.
Qed.
Lemma silent_list_deref q : silent (@list_deref K V q).
Proof. unfold list_deref. apply silent_bind; [apply silent_get_store|]. intros s. destruct (assoc (snd q) (s_ord s)); [apply silent_ret|apply silent_undef]. Qed.
Lemma silent_reassign c ids : silent (reassign E c ids).
Proof.
  induction ids as [|i t IH]; cbn [reassign]; [apply silent_ret|].
  apply silent_bind; [apply silent_own|]. intros (r & s). apply silent_bind; [apply silent_list_deref|]. intros p.
  apply silent_bind; [apply silent_deref|]. intros n. apply silent_bind; [apply silent_map_find|]. intros [f|]; [|apply silent_undef].
  apply silent_bind; [apply silent_put_store|]. auto.
Qed.
Lemma silent_references c : silent (reassign_references E c).
Proof. unfold reassign_references. apply silent_bind; [apply silent_own|]. intros (r & s). apply silent_reassign. Qed.
Lemma references_seals c h : seals (h_reassign_references E st c) (reassign_references E c) h.
Proof.
  eapply seals_noexcept with (Q := fun _ => True) (m := reassign_references E c); auto.
  - unfold reassign_references. apply follows_bind; [apply follows_lift|]. intros (r & s) s0 t0 w0 _. apply follows_reassign; auto.
  - intros e w. apply silent_references.
Qed.

(** Follows, throws before anything is changed, or ends. *)
Definition copies_or {A} Q (mh : H A) (m : MM A) h : Prop :=
  SearchProofs.follows st nobody Q mh m h \/
  (exists i n, st i = Some n /\ h_searches h <= i /\ mh h = Term (UserExn n)).
Lemma or_bind {A B} Q (mh : H A) (m : MM A) (kh : A -> H B) (k : A -> MM B) h :
  SearchProofs.follows st nobody Q mh m h ->
  (forall a s t w', m (h_world h) = Val a w' -> copies_or Q (kh a) (k a) (MkH s t w')) -> copies_or Q (bind mh kh) (bind m k) h.
Proof.
  intros F Y. destruct F as [(s & t & Ls & Lt & X)|[(n & i & h' & X1 & L1 & L2 & X & X2)|(n & i & X1 & _)]]; [| |discriminate].
  - destruct (m (h_world h)) as [a w'|e w'|u|e] eqn:Q1; simpl in X.
    + destruct (Y a s t w' eq_refl) as [[(s' & t' & Ls' & Lt' & Z)|[Z|Z]]|Z].
      * left. left. exists s', t'. simpl in *. split; [lia|]. split; [lia|]. unfold bind. rewrite X, Q1. auto.
      * left. right. left. destruct Z as (n & i & h' & Z1 & L3 & L4 & Z2 & Z3). exists n, i, h'. simpl in *.
        split; auto. split; [lia|]. unfold bind. rewrite X. auto.
      * destruct Z as (n & i & Z1 & _). discriminate.
      * right. destruct Z as (i & n & Z1 & Z2 & Z3). exists i, n. simpl in *. split; auto. split; [lia|]. unfold bind. rewrite X. auto.
    + left. left. exists s, t. unfold bind. rewrite X, Q1. auto.
    + left. left. exists s, t. unfold bind. rewrite X, Q1. auto.
    + left. left. exists s, t. unfold bind. rewrite X, Q1. auto.
  - left. right. left. exists n, i, h'. unfold bind. rewrite X. auto.
Qed.
Lemma or_seals {A} Q (mh : H A) (m : MM A) h : seals mh m h -> copies_or Q mh m h.
Proof. intros [X|X]; [left; left|right]; auto. Qed.
Lemma or_noexcept {A} Q (mh : H A) (m m' : MM A) h : copies_or Q mh m h ->
  (forall e w, m (h_world h) <> Exc e w) -> m' (h_world h) = m (h_world h) -> seals (noexcept mh) m' h.
Proof.
  intros [F|(i & n & X1 & X2 & X)] S Q'; [eapply seals_noexcept; eauto|].
  right. exists i, n. split; auto. split; auto. unfold noexcept. rewrite X. auto.
Qed.
Lemma or_last {A B} Q (mh : H A) (m : MM A) (f : A -> B) h : copies_or Q mh m h ->
  copies_or Q (a <- mh;; ret (f a)) (a <- m;; ret (f a)) h.
Proof.
  intros [F|(i & n & X1 & X2 & X)].
  - left. apply follows_bind; auto. intros. apply follows_ret.
  - right. exists i, n. split; auto. split; auto. unfold bind. rewrite X. auto.
Qed.
Lemma copy_follows c h : copies_or (unchanged (h_world h)) (h_copy_new E st keeps c) (copy_new E c) h.
Proof.
  change (copy_new E c) with (x <- get_cache c;; s <- get_store (c_rid x);; ret tt;;; fallible E;;; fallible E;;;
    r <- alloc_store (MkStore (copy_map E (s_map s)) (s_ord s) (s_next s) 0);;
    d <- alloc_cache (MkCache r (c_last x) (c_cap x) (c_stats x) (c_cbs x) (c_ttl x));;
    reassign_references E d;;; ret d).
  unfold h_copy_new. apply or_bind; [apply follows_lift|]. intros x s t w' X. apply pure_get_cache in X. subst w'.
  apply or_bind; [apply follows_lift|]. intros s0 s1 t1 w1 X. apply pure_get_store in X. simpl in X. subst w1.
  apply or_bind; [apply follows_rehash; apply unchanged_refl|]. intros [] s2 t2 w2 X. inversion X; subst w2. clear X.
  apply or_bind; [apply follows_lift|]. intros u1 s3 t3 w3 _. apply or_bind; [apply follows_lift|]. intros u2 s4 t4 w4 _.
  apply or_bind; [apply follows_lift|]. intros r s5 t5 w5 _. apply or_bind; [apply follows_lift|]. intros d s6 t6 w6 _.
  apply (or_last (fun _ => d)). apply or_seals, references_seals.
Qed.
Lemma copy_settles c h :
  forget (m_exec (Copy c) h) = exec E (Copy c) (h_world h) \/
  failed st h (m_exec (Copy c) h) (unchanged (h_world h)) \/ ended_searching st h (m_exec (Copy c) h).
Proof.
  assert (F : copies_or (unchanged (h_world h)) (m_body (Copy c)) (body E (Copy c)) h).
  { apply (or_last (fun d => RNat d)). apply copy_follows. }
  unfold MoreSearches.m_exec, exec. destruct (well_formed (h_world h) (Copy c)); [|left; destruct h; auto].
  destruct F as [[(s & t & _ & _ & X)|[(n & i & h' & X)|(n & i & X & _)]]|(i & n & X)].
  - left. rewrite X. destruct (body E (Copy c) (h_world h)); auto.
  - right. left. exists i, n, h'. auto.
  - discriminate.
  - right. right. exists i, n. auto.
Qed.
Lemma assign_seals c d h : seals (h_copy_assign E st keeps c d) (copy_assign E c d) h.
Proof.
  set (m := if Nat.eqb c d then ret tt
    else
      x <- get_cache c;; y <- get_cache d;; s <- get_store (c_rid y);; ret tt;;; fallible E;;; fallible E;;;
      drop_store (c_rid x);;;
      r <- alloc_store (MkStore (copy_map E (s_map s)) (s_ord s) (s_next s) 0);;
      put_cache c (MkCache r (c_last y) (c_cap y) (c_stats y) (c_cbs y) (c_ttl y));;;
      reassign_references E c).
  assert (S : silent m).
  { unfold m. destruct (Nat.eqb c d); [apply silent_ret|]. apply silent_bind; [apply silent_get_cache|]. intros x.
    apply silent_bind; [apply silent_get_cache|]. intros y. apply silent_bind; [apply silent_get_store|]. intros s.
    apply silent_bind; [apply silent_ret|]. intros _. apply silent_bind; [apply (silent_fallible G)|]. intros _.
    apply silent_bind; [apply (silent_fallible G)|]. intros _. apply silent_bind; [apply silent_modify|]. intros _.
    apply silent_bind; [discriminate|]. intros r. apply silent_bind; [apply silent_put_cache|]. intros _. apply silent_references. }
  eapply or_noexcept with (Q := fun _ => True) (m := m); auto.
  - unfold m. destruct (Nat.eqb c d); [left; apply follows_ret|].
    apply or_bind; [apply follows_lift|]. intros x s1 t1 w1 _. apply or_bind; [apply follows_lift|]. intros y s2 t2 w2 _.
    apply or_bind; [apply follows_lift|]. intros s s3 t3 w3 _. apply or_bind; [apply follows_rehash; auto|]. intros [] s4 t4 w4 _.
    apply or_bind; [apply follows_lift|]. intros _ s5 t5 w5 _. apply or_bind; [apply follows_lift|]. intros _ s6 t6 w6 _.
    apply or_bind; [apply follows_lift|]. intros _ s7 t7 w7 _. apply or_bind; [apply follows_lift|]. intros r s8 t8 w8 _.
    apply or_bind; [apply follows_lift|]. intros _ s9 t9 w9 _. apply or_seals, references_seals.
  - assert (X : copy_assign E c d (h_world h) = noexcept m (h_world h)).
    { unfold copy_assign, m. destruct (Nat.eqb c d); reflexivity. }
    rewrite X. unfold noexcept. destruct (m (h_world h)) eqn:Y; auto. destruct (S _ _ _ Y).
Qed.
Lemma seals_ret {A} (a : A) h : seals (ret a) (ret a) h.
Proof. left. exists (h_searches h), (h_compares h). destruct h; auto. Qed.
Lemma seals_first {A B} (m : MM A) (kh : A -> H B) (k : A -> MM B) h : pure m -> (forall a, seals (kh a) (k a) h) ->
  seals (bind (lift m) kh) (bind m k) h.
Proof.
  intros P X. unfold seals, bind, lift. destruct (m (h_world h)) as [a w|e w|u|e] eqn:Y;
    try (left; exists (h_searches h), (h_compares h); auto; fail).
  apply P in Y. subst w. destruct h as [s t w]. apply X.
Qed.
Lemma sealed_settles o h : sealed o ->
  forget (m_exec o h) = exec E o (h_world h) \/ ended_searching st h (m_exec o h).
Proof.
  intros [c d|c k|c d]; apply seals_settle; cbn [MoreSearches.m_body body].
  - apply (seals_last (fun _ => RUnit)). apply assign_seals.
  - apply seals_first; [apply pure_get_cache|]. intros x. destruct (c_ttl x) as [z|]; [|apply seals_ret].
    apply (seals_last (fun b => RBool b)). apply expired_seals.
  - apply (seals_last (fun b => RBool b)). apply equals_seals.
Qed.

(** clear_expired. *)
Notation loop := (clear_expired_loop E).
Definition past (d : Z) (cl : @cell K V) (w : world) : bool :=
  Z.ltb d (dcast E (clock E (w_reads w) - e_time (cl_e cl))).
Lemma contents_at (w : world) c x s a l : at_ w c x s -> rep E x s a l -> contents E c w (map pair_of (ents l)).
Proof.
  intros At Rp. unfold contents, exec. cbn [well_formed]. rewrite (at_alive At). cbn [body]. unfold bind.
  rewrite (traverse_ordered_ev G At (rp_store Rp)). reflexivity.
Qed.
Lemma head_ev (w : world) c x s a cl l : at_ w c x s -> rep E x s a (cl :: l) ->
  exists rest nd, own c w = Val (c_rid x, s) w /\ s_ord s = (cl_q cl, (c_rid x, cl_m cl)) :: rest /\
    deref (c_rid x, cl_m cl) w = Val nd w /\
    map_find E c (n_key nd) w = Val (Some ((c_rid x, cl_m cl), s_epoch s)) w /\
    deref_it ((c_rid x, cl_m cl), s_epoch s) w = Val nd w /\ n_time nd = e_time (cl_e cl).
Proof.
  intros At Rp. pose proof (rp_store Rp) as RS. exists (map (qrow (c_rid x)) l), (node_of (c_rid x) cl).
  split; [apply (own_ev At)|]. split; [rewrite (rs_ord RS); reflexivity|].
  split; [eapply deref_ev; eauto; [apply At|left; auto]|]. split.
  - rewrite (map_find_ev G _ At RS). pose proof (find_cell_mid G _ [] _ _ (rs_keys RS) (good_refl G _)) as F. cbn [app] in F.
    cbn [n_key node_of]. rewrite F. reflexivity.
  - split; [|reflexivity]. eapply deref_it_ev; eauto; [apply At|left; auto].
Qed.
Lemma clear_follows c d l : forall fuel cnt h x s a, length l <= fuel -> at_ (h_world h) c x s -> rep E x s a l ->
  exists n w1, loop fuel c d cnt (h_world h) = Val n w1 /\ cnt <= n /\
   follows (fun w => exists m, cnt + m <= n /\ contents E c w (map pair_of (skipn m (ents l))))
     (h_clear_expired_loop E st ct fuel c d cnt) (loop fuel c d cnt) h.
Proof.
  induction l as [|cl l IH]; intros fuel cnt h x s a L At Rp.
  - assert (O : s_ord s = []) by (rewrite (rs_ord (rp_store Rp)); reflexivity).
    exists cnt, (h_world h). split; [|split; auto].
    + destruct fuel; cbn [clear_expired_loop]; rewrite (bind_val _ _ _ (own_ev At)), O; reflexivity.
    + destruct fuel; cbn [clear_expired_loop h_clear_expired_loop]; (apply follows_bind; [apply follows_lift|]);
        intros (r & s') s0 t0 w0 X; rewrite (own_ev At) in X; inversion X; subst; rewrite O; apply follows_ret.
  - destruct fuel as [|fuel]; [simpl in L; lia|].
    destruct (head_ev At Rp) as (rest & nd & H1 & H2 & H3 & H4 & H5 & H6).
    assert (At' : at_ (tock (h_world h)) c x s) by exact At.
    destruct (erase_it_ev G (l1 := []) At' Rp) as (s' & w' & E1 & C & R' & _).
    assert (A1 : at_ w' c (erased_cache E a (e_key (cl_e cl)) x) s') by (eapply chg_at; eauto; apply erased_rid).
    assert (EV : loop (S fuel) c d cnt (h_world h) =
      if past d cl (h_world h) then loop fuel c d (S cnt) w' else Val cnt (tock (h_world h))).
    { cbn [clear_expired_loop]. rewrite (bind_val _ _ _ H1), H2, (bind_val _ _ _ H3), (bind_val _ _ _ H4), (bind_val _ _ _ H5).
      rewrite (bind_val _ _ _ (has_expired_ev E (h_world h) d nd)), H6. unfold past.
      destruct (Z.ltb d _); [|reflexivity]. rewrite (bind_val _ _ _ E1). reflexivity. }
    assert (HH : forall (n : nat) kh k, cnt <= n ->
      (forall s2 t2, follows (fun w => exists m, cnt + m <= n /\ contents E c w (map pair_of (skipn m (ents (cl :: l)))))
         (kh ((c_rid x, cl_m cl), s_epoch s) (past d cl (h_world h))) (k ((c_rid x, cl_m cl), s_epoch s) (past d cl (h_world h))) (MkH s2 t2 (tock (h_world h)))) ->
      follows (fun w => exists m, cnt + m <= n /\ contents E c w (map pair_of (skipn m (ents (cl :: l)))))
        ('(_, s) <- lift (own c);;
         match s_ord s with
         | [] => ret cnt
         | (_, p) :: _ =>
            n <- lift (deref p);; i <- h_map_find E st c (n_key n);;
            match i with
            | None => undef PastTheEnd
            | Some i => n <- lift (deref_it i);; ex <- lift (has_expired_info E d n);; kh i ex
            end
         end)
        ('(_, s) <- own c;;
         match s_ord s with
         | [] => ret cnt
         | (_, p) :: _ =>
            n <- deref p;; i <- map_find E c (n_key n);;
            match i with
            | None => undef PastTheEnd
            | Some i => n <- deref_it i;; ex <- has_expired_info E d n;; k i ex
            end
         end) h).
    { intros n kh k Ln X.
      apply follows_bind; [apply follows_lift|]. intros (r & s1) s0 t0 w0 Y. rewrite H1 in Y. inversion Y; subst r s1 w0. clear Y. rewrite H2.
      apply follows_bind; [apply follows_lift|]. intros nd1 s2 t2 w2 Y. cbn [h_world] in Y. rewrite H3 in Y. inversion Y; subst nd1 w2. clear Y.
      apply follows_bind.
      { apply follows_map_find. cbn [h_world]. exists 0. split; [lia|]. apply (contents_at At Rp). }
      intros i s3 t3 w3 Y. cbn [h_world] in Y. rewrite H4 in Y. inversion Y; subst i w3. clear Y.
      apply follows_bind; [apply follows_lift|]. intros nd1 s4 t4 w4 Y. cbn [h_world] in Y. rewrite H5 in Y. inversion Y; subst nd1 w4. clear Y.
      apply follows_bind; [apply follows_lift|]. intros ex s5 t5 w5 Y. cbn [h_world] in Y. rewrite has_expired_ev, H6 in Y.
      inversion Y; subst ex w5. apply X. }
    rewrite EV. cbn [clear_expired_loop h_clear_expired_loop].
    destruct (past d cl (h_world h)) eqn:P.
    + simpl in L. destruct (IH fuel (S cnt) (MkH 0 0 w') _ _ _ ltac:(lia) A1 R') as (n & w1 & Y1 & Y2 & _).
      exists n, w1. split; auto. split; [lia|].
      apply (HH n
        (fun i (ex : bool) => if ex then h_erase_it E ct c i;;; h_clear_expired_loop E st ct fuel c d (S cnt) else ret cnt)
        (fun i (ex : bool) => if ex then erase_it E c i;;; loop fuel c d (S cnt) else ret cnt) ltac:(lia)). intros s2 t2. cbv beta iota.
      apply follows_bind; [apply follows_erase_it|].
      intros [] s3 t3 w3 Y. cbn [h_world] in Y. rewrite E1 in Y. inversion Y; subst w3.
      destruct (IH fuel (S cnt) (MkH s3 t3 w') _ _ _ ltac:(lia) A1 R') as (n1 & w4 & Z1 & Z2 & Z3).
      cbn [h_world] in *. rewrite Y1 in Z1. inversion Z1; subst n1 w4.
      eapply follows_weak; [|exact Z3]. intros w (m & Lm & Cm). exists (S m). split; [lia|]. exact Cm.
    + exists cnt, (tock (h_world h)). split; auto. split; auto.
      apply (HH cnt
        (fun i (ex : bool) => if ex then h_erase_it E ct c i;;; h_clear_expired_loop E st ct fuel c d (S cnt) else ret cnt)
        (fun i (ex : bool) => if ex then erase_it E c i;;; loop fuel c d (S cnt) else ret cnt) ltac:(lia)).
      intros. apply follows_ret.
Qed.
(** What one round of the loop does. *)
Lemma clear_step (w : world) c d x s a cl l fuel cnt : at_ w c x s -> rep E x s a (cl :: l) ->
  exists x' s' a' w', erase_it E c ((c_rid x, cl_m cl), s_epoch s) (tock w) = Val tt w' /\ at_ w' c x' s' /\ rep E x' s' a' l /\
    loop (S fuel) c d cnt w = if past d cl w then loop fuel c d (S cnt) w' else Val cnt (tock w).
Proof.
  intros At Rp. destruct (head_ev At Rp) as (rest & nd & H1 & H2 & H3 & H4 & H5 & H6).
  assert (At' : at_ (tock w) c x s) by exact At.
  destruct (erase_it_ev G (l1 := []) At' Rp) as (s' & w' & E1 & C & R' & _).
  eexists _, s', _, w'. split; [exact E1|]. split; [eapply chg_at; eauto; apply erased_rid|]. split; [exact R'|].
  cbn [clear_expired_loop]. rewrite (bind_val _ _ _ H1), H2, (bind_val _ _ _ H3), (bind_val _ _ _ H4), (bind_val _ _ _ H5).
  rewrite (bind_val _ _ _ (has_expired_ev E w d nd)), H6. unfold past.
  destruct (Z.ltb d _); [|reflexivity]. rewrite (bind_val _ _ _ E1). reflexivity.
Qed.

Lemma skipn_map {A B} (f : A -> B) n l : skipn n (map f l) = map f (skipn n l).
Proof. revert l. induction n as [|n IH]; intros [|x l]; simpl; auto. Qed.
Lemma clear_settles c l h : reachable E (h_world h) -> contents E c (h_world h) l ->
  forget (m_exec (ClearExpired c) h) = exec E (ClearExpired c) (h_world h) \/
  failed st h (m_exec (ClearExpired c) h) (part_cleared E c l (h_world h)) \/ ended ct h (m_exec (ClearExpired c) h).
Proof.
  intros R C. apply follows_m_settle. cbn [MoreSearches.m_body body].
  destruct (open_cache G R C) as (aw & a & Rl & Ha & ->). destruct (rel_get _ Rl Ha) as (x & s & cl & At & Rp).
  unfold h_with_ttl, with_ttl. apply follows_bind; [apply follows_lift|]. intros x0 s0 t0 w0 X.
  rewrite (get_cache_ev _ _ (proj1 At)) in X. inversion X; subst x0 w0. clear X.
  destruct (c_ttl x) as [d|] eqn:T; [|apply follows_ret].
  apply follows_bind; [|intros; apply follows_ret]. unfold h_clear_expired, clear_expired, is_empty.
  apply follows_bind; [apply follows_lift|]. intros e s1 t1 w1 X. cbn [h_world] in X.
  rewrite (bind_val _ _ _ (size_ev At)), (rep_size (rp_store Rp)) in X. inversion X; subst e w1. clear X.
  destruct (Nat.eqb (length cl) 0) eqn:Z; [apply follows_ret|].
  apply follows_bind; [apply follows_lift|]. intros sz s2 t2 w2 X. cbn [h_world] in X.
  rewrite (size_ev At), (rep_size (rp_store Rp)) in X. inversion X; subst sz w2. clear X.
  destruct (@clear_follows c d cl (length cl) 0 (MkH s2 t2 (h_world h)) x s a (le_n _) At Rp) as (n & w1 & X1 & _ & X3).
  eapply follows_weak; [|exact X3]. intros w (m & Lm & Cm). exists m, n, w1. cbn [h_world] in X1. split; [|split; [lia|]].
  - unfold exec. cbn [well_formed]. unfold timed. rewrite (proj1 At), T. cbn [body]. unfold with_ttl.
    rewrite (bind_val _ _ _ (get_cache_ev _ _ (proj1 At))), T. unfold clear_expired, is_empty. rewrite !bind_assoc.
    rewrite (bind_val _ _ _ (size_ev At)), (rep_size (rp_store Rp)). rewrite bind_ret, Z. rewrite bind_assoc.
    rewrite (bind_val _ _ _ (size_ev At)), (rep_size (rp_store Rp)). rewrite (bind_val _ _ _ X1). reflexivity.
  - rewrite (rp_ents Rp), skipn_map. exact Cm.
Qed.

(** When nothing throws, the calls are those without counters. *)
Lemma also_forget o h : calm st -> calm ct -> reachable E (h_world h) -> also_searching o = true ->
  forget (m_exec o h) = exec E o (h_world h).
Proof.
  intros Cs Cc R S.
  assert (F1 : forall P, failed st h (m_exec o h) P -> False).
  { intros P (i & n & h' & X & _). rewrite Cs in X. discriminate. }
  assert (F2 : ended ct h (m_exec o h) -> False).
  { intros (i & n & X & _). rewrite Cc in X. discriminate. }
  assert (F3 : ended_searching st h (m_exec o h) -> False).
  { intros (i & n & X & _). rewrite Cs in X. discriminate. }
  assert (BD : forall ttl cap l, builds ttl o cap l -> forget (m_exec o h) = exec E o (h_world h)).
  { intros ttl cap l B. destruct (constructor_settles B R) as [X|[X|X]]; auto; exfalso; eauto. }
  assert (RG : forall c l, puts_range c l o \/ assigns c l o -> forget (m_exec o h) = exec E o (h_world h)).
  { intros c l B. destruct (range_settles h B) as [X|[X|X]]; auto; exfalso; eauto. }
  assert (SE : sealed o -> forget (m_exec o h) = exec E o (h_world h)).
  { intros B. destruct (sealed_settles h B) as [X|X]; auto; exfalso; eauto. }
  destruct o; try discriminate; try (eapply BD; constructor); try (apply SE; constructor);
    try (eapply RG; left; constructor); try (eapply RG; right; constructor).
  - match goal with |- forget (_ (Copy ?c) h) = _ => destruct (copy_settles c h) as [X|[X|X]] end; auto; exfalso; [exact (F1 _ X)|auto].
  - destruct (alive (h_world h) c) eqn:Al.
    + destruct (reach_rel G R) as (aw & Rl). destruct (alive_inv Rl Al) as (a & Ha).
      destruct (clear_settles R (contents_of G Rl Ha)) as [X|[X|X]]; auto; exfalso; eauto.
    + unfold MoreSearches.m_exec, exec. cbn [well_formed]. unfold timed, alive in *.
      destruct (slot (w_caches (h_world h)) c); [discriminate|]. destruct h; auto.
  - match goal with |- forget (_ (AllExpired ?c) h) = _ => destruct (all_expired_settles c h) as [X|X] end; auto; exfalso; exact (F1 _ X).
Qed.
End Main.
