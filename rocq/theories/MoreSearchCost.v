(** Searches: how many the calls of MoreSearches.v make when nothing throws. *)
From Coq Require Import List Arith ZArith Bool Lia Permutation.
Import ListNotations.
From Verif Require Import Monad Types Model Api Spec Ref Lists SimBase SimRel SimOps SimIns SimErase SimIter SimNew SimObs SimExec RefEval SimRun LruProofs CallProofs LruMore Flat Global Safe Frame StatProofs MemoCalls PairProofs SwapProofs CopyProofs MoveProofs Searches SpecSearches SearchProofs SearchMain SearchCost MoreSearches SpecMoreSearches MoreSearchProofs MoreSearchMain.
Set Implicit Arguments.
Unset Strict Implicit.
Local Open Scope cpp_scope.

Section Cost.
Context {K V : Type}.
Variable E : env K V.
Hypothesis G : good E.
Variables st ct : nat -> option nat.
Hypothesis Cs : calm st.
Hypothesis Cc : calm ct.
Variable keeps : bool.
Notation world := (world K V).
Notation hworld := (hworld K V).
Notation H := (M hworld).
Notation MM := (M world).
Notation m_exec := (m_exec E st ct keeps).

(** From the searches spent to those made by the whole call. *)
Lemma spent_searched o h n r w' : reachable E (h_world h) -> also_searching o = true ->
  exec E o (h_world h) = Val r w' -> spends n (m_exec o) h -> searched h (m_exec o h) n.
Proof.
  intros R S X Y. pose proof (also_forget G keeps Cs Cc R S) as F. rewrite X in F.
  unfold spends in Y. unfold searched. destruct (m_exec o h); try discriminate; auto.
Qed.
Lemma spends_m_exec n o h : well_formed (h_world h) o = true ->
  spends n (m_body E st ct keeps o) h -> spends n (m_exec o) h.
Proof. intros W X. unfold spends, MoreSearches.m_exec in *. rewrite W. auto. Qed.
Lemma steady_bind {A B} (mh : H A) (kh : A -> H B) h : steady mh h ->
  (forall a h1, mh h = Val a h1 -> steady (kh a) h1) -> steady (bind mh kh) h.
Proof.
  unfold steady, bind. intros X Y e h'. destruct (mh h) as [a h1|e1 h1|u|e1] eqn:Z; try discriminate; eauto.
  intros _. exact (X _ _ eq_refl).
Qed.
Lemma spends_noexcept {A} n (mh : H A) h : spends n mh h -> spends n (noexcept mh) h.
Proof. unfold spends, noexcept. destruct (mh h); auto. Qed.
Lemma steady_noexcept {A} (mh : H A) h : steady (noexcept mh) h.
Proof. intros e h'. unfold noexcept. destruct (mh h); discriminate. Qed.
Lemma spends_cast {A} n m (mh : H A) h : n = m -> spends n mh h -> spends m mh h.
Proof. intros ->. auto. Qed.

(** *** Timed caches *)
Lemma with_ttl_spends n c (f : Z -> H (out K V)) (h : hworld) x s : at_ (h_world h) c x s ->
  (forall d, spends n (f d) h) -> n = 0 \/ timed (h_world h) c = true -> spends n (h_with_ttl c f) h.
Proof.
  intros At X T. unfold spends in *. unfold h_with_ttl, bind, lift. rewrite (get_cache_ev _ _ (proj1 At)).
  cbn [h_searches h_compares]. destruct (c_ttl x) as [d|] eqn:Q.
  - specialize (X d). destruct h. exact X.
  - unfold timed in T. rewrite (proj1 At), Q in T. destruct T as [->|]; [simpl; auto|discriminate].
Qed.
Lemma expired_spends c d k h : spends 1 (h_has_expired_key E st c d k) h.
Proof.
  unfold h_has_expired_key. apply spends_noexcept. apply spends_last; [apply (spends_search Cs)|].
  intros [i|] h1; [|apply spends_ret]. apply spends_last; [apply spends_lift|intros; apply spends_lift].
Qed.
Lemma steady_list_back c h : steady (lift (@list_back K V c)) h.
Proof.
  apply steady_lift. unfold list_back. apply silent_bind; [apply silent_own|]. intros (r & s).
  destruct (rev (s_ord s)) as [|(i & p) t]; [apply silent_undef|apply silent_ret].
Qed.
Lemma steady_is_empty c h : steady (lift (@is_empty K V c)) h.
Proof. apply steady_lift. unfold is_empty. apply silent_bind; [apply silent_size|intros; apply silent_ret]. Qed.
Lemma all_spends c d (h : hworld) x s : at_ (h_world h) c x s ->
  spends (if Nat.eqb (length (s_map s)) 0 then 0 else 1) (h_all_expired E st c d) h.
Proof.
  intros At. unfold h_all_expired. apply spends_bind; [apply spends_lift|apply steady_is_empty|]. intros e h1 X.
  apply lift_val in X. unfold is_empty in X. rewrite (bind_val _ _ _ (size_ev At)) in X. inversion X; subst e.
  destruct (Nat.eqb (length (s_map s)) 0); [apply spends_ret|].
  apply spends_bind; [apply spends_lift|apply steady_list_back|]. intros p h2 _.
  apply spends_bind; [apply spends_lift|apply steady_lift, silent_deref|]. intros n h3 _.
  apply spends_last; [apply (spends_search Cs)|]. intros [i|] h4; [|apply spends_undef].
  apply spends_last; [apply spends_lift|intros; apply spends_lift].
Qed.

Notation loop := (clear_expired_loop E).
Lemma clear_spends c d l : forall fuel cnt (h : hworld) x s a, length l <= fuel -> at_ (h_world h) c x s -> rep E x s a l ->
  exists n w1, loop fuel c d cnt (h_world h) = Val n w1 /\ cnt <= n /\
    spends (Nat.min (length l) (S (n - cnt))) (h_clear_expired_loop E st ct fuel c d cnt) h.
Proof.
  induction l as [|cl l IH]; intros fuel cnt h x s a L At Rp.
  - assert (O : s_ord s = []) by (rewrite (rs_ord (rp_store Rp)); reflexivity).
    exists cnt, (h_world h). split; [|split; auto].
    + destruct fuel; cbn [clear_expired_loop]; rewrite (bind_val _ _ _ (own_ev At)), O; reflexivity.
    + change (Nat.min (length (@nil (@cell K V))) (S (cnt - cnt))) with 0.
      destruct fuel; cbn [h_clear_expired_loop]; (apply spends_bind; [apply spends_lift|apply steady_lift, silent_own|]);
        intros (r & s') h1 X; apply lift_val in X; rewrite (own_ev At) in X; inversion X; subst; rewrite O; apply spends_ret.
  - destruct fuel as [|fuel]; [simpl in L; lia|].
    destruct (head_ev G At Rp) as (rest & nd & H1 & H2 & H3 & H4 & H5 & H6).
    destruct (clear_step G d fuel cnt At Rp) as (x' & s' & a' & w' & E1 & A1 & R' & EV).
    simpl in L. destruct (IH fuel (S cnt) (MkH 0 0 w') _ _ _ ltac:(lia) A1 R') as (n & w1 & Y1 & Y2 & _). cbn [h_world] in Y1.
    set (b := past E d cl (h_world h)) in *.
    exists (if b then n else cnt), (if b then w1 else tock (h_world h)).
    split; [rewrite EV; destruct b; auto|]. split; [destruct b; lia|].
    apply spends_cast with (n := 1 + if b then Nat.min (length l) (S (n - S cnt)) else 0).
    { simpl length. destruct b; lia. }
    cbn [h_clear_expired_loop]. apply spends_bind; [apply spends_lift|apply steady_lift, silent_own|].
    intros (r & s1) h1 X. apply lift_val in X. rewrite H1 in X. inversion X as [[X1 X2 X3]]. subst r s1. rewrite H2.
    apply spends_bind; [apply spends_lift|apply steady_lift, silent_deref|].
    intros nd1 h2 Y. apply lift_val in Y. rewrite <- X3, H3 in Y. inversion Y as [[Z1 Z2]]. subst nd1.
    apply spends_then; [apply (spends_search Cs)|apply (steady_search Cs), silent_map_find|].
    intros i h3 Z. apply (search_val Cs) in Z. rewrite <- Z2, H4 in Z. inversion Z as [[Z3 Z4]]. subst i.
    apply spends_bind; [apply spends_lift|apply steady_lift, silent_deref_it|].
    intros nd1 h4 W. apply lift_val in W. rewrite <- Z4, H5 in W. inversion W as [[W1 W2]]. subst nd1.
    apply spends_bind; [apply spends_lift|apply steady_lift; intros w e w2; rewrite has_expired_ev; discriminate|].
    intros ex h5 U. apply lift_val in U. rewrite <- W2, has_expired_ev, H6 in U. inversion U as [[U1 U2]].
    fold (past E d cl (h_world h)). fold b. destruct b; [|apply spends_ret].
    destruct (follows_erase_it E st ct (fun _ => True) c ((c_rid x, cl_m cl), s_epoch s) h5) as [(s2 & t2 & _ & _ & F)|[F|F]].
    + rewrite <- U2, E1 in F. cbn [counted] in F.
      apply spends_bind; [apply (spends_erase_it E Cc)|intros e h6 Q; rewrite F in Q; discriminate|].
      intros [] h6 Q. rewrite F in Q. inversion Q; subst h6.
      destruct (IH fuel (S cnt) (MkH s2 t2 w') _ _ _ ltac:(lia) A1 R') as (n' & w1' & V1 & V2 & V3).
      cbn [h_world] in V1. rewrite Y1 in V1. inversion V1; subst. auto.
    + destruct F as (n0 & i & h' & F & _). rewrite Cs in F. discriminate.
    + destruct F as (n0 & i & F & _). rewrite Cc in F. discriminate.
Qed.

(** *** Copies *)
Lemma rehash_spends {A} (l : list A) (h : hworld) : spends (if keeps then 0 else length l) (h_rehash st keeps l) h.
Proof.
  revert h. induction l as [|y l IH]; intros h; cbn [h_rehash].
  - apply spends_cast with (n := 0); [destruct keeps; auto|apply spends_ret].
  - unfold spends in *. unfold bind. destruct keeps.
    + exact (IH h).
    + unfold search. rewrite Cs. specialize (IH (MkH (S (h_searches h)) (h_compares h) (h_world h))). cbn [h_searches] in IH.
      destruct (h_rehash st false l _); auto; simpl; lia.
Qed.
Lemma rehash_steady {A} (l : list A) (h : hworld) : steady (h_rehash st keeps l) h.
Proof.
  revert h. induction l as [|y l IH]; intros h; cbn [h_rehash]; [apply steady_ret|].
  apply steady_bind; [|intros; apply IH]. destruct keeps; [apply steady_ret|]. intros e h'. unfold search. rewrite Cs. discriminate.
Qed.
Lemma rehash_val {A} (l : list A) (h : hworld) u h1 : h_rehash st keeps l h = Val u h1 -> h_world h1 = h_world h.
Proof.
  revert h. induction l as [|y l IH]; intros h X; cbn [h_rehash] in X; [inversion X; auto|].
  unfold bind in X. destruct keeps.
  - simpl in X. apply (IH h X).
  - unfold search in X. rewrite Cs in X. apply IH in X. exact X.
Qed.
Lemma reassign_spends c ids : forall h, spends (length ids) (h_reassign E st c ids) h.
Proof.
  induction ids as [|i t IH]; intros h; cbn [h_reassign]; [apply spends_ret|].
  change (length (i :: t)) with (1 + length t).
  apply spends_bind; [apply spends_lift|apply steady_lift, silent_own|]. intros (r & s) h1 _.
  apply spends_bind; [apply spends_lift|apply steady_lift, silent_list_deref|]. intros p h2 _.
  apply spends_bind; [apply spends_lift|apply steady_lift, silent_deref|]. intros n h3 _.
  apply spends_then; [apply (spends_search Cs)|apply (steady_search Cs), silent_map_find|]. intros [f|] h4 _; [|apply spends_undef].
  apply spends_bind; [apply spends_lift|apply steady_lift, silent_put_store|]. intros _ h5 _. apply IH.
Qed.
Lemma references_spends c (h : hworld) x s : at_ (h_world h) c x s -> spends (length (s_ord s)) (h_reassign_references E st c) h.
Proof.
  intros At. unfold h_reassign_references. apply spends_noexcept.
  apply spends_bind; [apply spends_lift|apply steady_lift, silent_own|]. intros (r & s1) h1 X. apply lift_val in X.
  rewrite (own_ev At) in X. inversion X; subst. rewrite <- (map_length fst). apply reassign_spends.
Qed.

Lemma rep_at c l w : reachable E w -> contents E c w l -> exists x s a cl, at_ w c x s /\ rep E x s a cl /\
  length (s_map s) = length l /\ length (s_ord s) = length l.
Proof.
  intros R C. destruct (open_cache G R C) as (aw & a & Rl & Ha & ->). destruct (rel_get _ Rl Ha) as (x & s & cl & At & Rp).
  exists x, s, a, cl. split; auto. split; auto. rewrite map_length, (rp_ents Rp), (rep_size (rp_store Rp)).
  rewrite (rs_ord (rp_store Rp)). unfold ents. rewrite !map_length. auto.
Qed.
Notation copying := (copy_searches keeps).
Lemma copying_eq n : (if keeps then 0 else n) + n = copying n.
Proof. unfold copy_searches. destruct keeps; auto. Qed.
Lemma copy_spends c h x s : at_ (h_world h) c x s -> length (s_ord s) = length (s_map s) ->
  spends (copying (length (s_map s))) (h_copy_new E st keeps c) h.
Proof.
  intros At LN. rewrite <- copying_eq. unfold h_copy_new.
  apply spends_bind; [apply spends_lift|apply steady_lift, silent_get_cache|]. intros x1 h1 X. apply lift_val in X.
  rewrite (get_cache_ev _ _ (proj1 At)) in X. inversion X as [[X1 X2]]. subst x1.
  apply spends_bind; [apply spends_lift|apply steady_lift, silent_get_store|]. intros s1 h2 Y. apply lift_val in Y.
  rewrite <- X2, (get_store_ev _ _ (proj2 At)) in Y. inversion Y as [[Y1 Y2]]. subst s1.
  apply spends_then; [apply rehash_spends|apply rehash_steady|]. intros _ h3 _.
  apply spends_bind; [apply spends_lift|apply steady_lift, (silent_fallible G)|]. intros _ h4 _.
  apply spends_bind; [apply spends_lift|apply steady_lift, (silent_fallible G)|]. intros _ h5 _.
  apply spends_bind; [apply spends_lift|apply steady_lift; discriminate|]. intros r h6 A. apply lift_val in A.
  apply spends_bind; [apply spends_lift|apply steady_lift; discriminate|]. intros d h7 B. apply lift_val in B.
  assert (At1 : at_ (h_world h7) d (MkCache r (c_last x) (c_cap x) (c_stats x) (c_cbs x) (c_ttl x))
                  (MkStore (copy_map E (s_map s)) (s_ord s) (s_next s) 0)).
  { unfold alloc_store, alloc_cache in A, B. injection A as A1 A2. rewrite <- A2 in B. injection B as B1 B2.
    rewrite <- B1, <- B2, <- A1. split; apply slot_app_new. }
  apply spends_last; [|intros; apply spends_ret]. rewrite <- LN. exact (references_spends At1).
Qed.
Lemma assign_spends c d h x s y s' : c <> d -> at_ (h_world h) c y s' -> at_ (h_world h) d x s -> length (s_ord s) = length (s_map s) ->
  spends (copying (length (s_map s))) (h_copy_assign E st keeps c d) h.
Proof.
  intros N At' At LN. rewrite <- copying_eq. unfold h_copy_assign. apply spends_noexcept.
  destruct (Nat.eqb_spec c d); [contradiction|].
  apply spends_bind; [apply spends_lift|apply steady_lift, silent_get_cache|]. intros y1 h0 Z. apply lift_val in Z.
  rewrite (get_cache_ev _ _ (proj1 At')) in Z. inversion Z as [[Z1 Z2]]. subst y1.
  apply spends_bind; [apply spends_lift|apply steady_lift, silent_get_cache|]. intros x1 h1 X. apply lift_val in X.
  rewrite <- Z2, (get_cache_ev _ _ (proj1 At)) in X. inversion X as [[X1 X2]]. subst x1.
  apply spends_bind; [apply spends_lift|apply steady_lift, silent_get_store|]. intros s1 h2 Y. apply lift_val in Y.
  rewrite <- X2, (get_store_ev _ _ (proj2 At)) in Y. inversion Y as [[Y1 Y2]]. subst s1.
  apply spends_then; [apply rehash_spends|apply rehash_steady|]. intros u3 h3 W3. apply rehash_val in W3.
  apply spends_bind; [apply spends_lift|apply steady_lift, (silent_fallible G)|]. intros u4 h4 F4. apply lift_val, fallible_unchanged in F4.
  apply spends_bind; [apply spends_lift|apply steady_lift, (silent_fallible G)|]. intros u5 h5 F5. apply lift_val, fallible_unchanged in F5.
  apply spends_bind; [apply spends_lift|apply steady_lift; discriminate|]. intros u h6 D. apply lift_val in D.
  apply spends_bind; [apply spends_lift|apply steady_lift; discriminate|]. intros r h7 A. apply lift_val in A.
  apply spends_bind; [apply spends_lift|apply steady_lift; discriminate|]. intros v h8 B. apply lift_val in B.
  assert (At1 : at_ (h_world h8) c (MkCache r (c_last x) (c_cap x) (c_stats x) (c_cbs x) (c_ttl x))
                  (MkStore (copy_map E (s_map s)) (s_ord s) (s_next s) 0)).
  { unfold alloc_store, drop_store, put_cache, modify in A, B, D. injection D as D1 D2. rewrite <- D2 in A.
    injection A as A1 A2. rewrite <- A2 in B. injection B as B1 B2. rewrite <- B2, <- A1. split; simpl.
    - erewrite slot_upd_same; [reflexivity|]. destruct F5 as (F5 & _), F4 as (F4 & _). rewrite F5, F4, W3, <- Y2. apply At'.
    - apply slot_app_new. }
  rewrite <- LN. exact (references_spends At1).
Qed.

(** *** Comparison *)
Lemma all_in_ev b t a (h : hworld) : exists r n, h_all_in E st b a t h = Val r (MkH (h_searches h + n) (h_compares h) (h_world h)) /\
  n <= length a /\ (r = true -> n = length a) /\ (a <> [] -> 1 <= n).
Proof.
  revert h. induction a as [|p a IH]; intros h; cbn [h_all_in].
  - exists true, 0. rewrite Nat.add_0_r. destruct h. simpl. repeat split; auto. intros []; auto.
  - unfold bind, search. rewrite Cs. destruct (match node_with E (n_key (snd p)) t with Some (_, m) => _ | None => false end).
    + destruct (IH (MkH (S (h_searches h)) (h_compares h) (h_world h))) as (r & n & X & L & Q & _). rewrite X.
      exists r, (S n). cbn [h_searches h_compares h_world]. rewrite <- plus_n_Sm. split; [reflexivity|]. simpl.
      split; [lia|]. split; [intros Z; rewrite (Q Z); auto|lia].
    + exists false, 1. rewrite Nat.add_1_r. split; [reflexivity|]. simpl. split; [lia|]. split; [discriminate|lia].
Qed.
Lemma equal_searches c d l l' h b w' : reachable E (h_world h) -> contents E c (h_world h) l -> contents E d (h_world h) l' -> c <> d ->
  exec E (Equal c d) (h_world h) = Val (RBool b) w' ->
  exists n, searched h (m_exec (Equal c d) h) n /\ n <= length l /\ (b = true -> n = length l) /\
    (length l = length l' -> l <> [] -> 1 <= n) /\ (length l <> length l' -> n = 0).
Proof.
  intros R C D N X. pose proof (also_forget G keeps Cs Cc R (eq_refl : also_searching (Equal c d : op K V) = true)) as F.
  destruct (rep_at R C) as (x & s & a & cl & At & Rp & L1 & _). destruct (rep_at R D) as (x' & s' & a' & cl' & At' & Rp' & L2 & _).
  assert (W : same_kind (h_world h) c d = true).
  { unfold exec in X. cbn [well_formed] in X. destruct (same_kind (h_world h) c d); [auto|discriminate]. }
  rewrite X in F. clear X. unfold MoreSearches.m_exec, m_body, h_equals in *. cbn [well_formed] in *.
  unfold bind, noexcept, lift in *. rewrite W in *. clear R C D.
  rewrite (own_ev At) in *. cbn [h_world] in *. rewrite (own_ev At') in *. cbn [h_world] in *.
  rewrite (get_cache_ev _ _ (proj1 At)) in *. destruct (Nat.eqb_spec c d) as [|_]; [contradiction|]. unfold h_map_eq in *. rewrite L1, L2 in *.
  destruct (Nat.eqb_spec (length l) (length l')) as [LL|LL].
  - match goal with |- context [h_all_in E st ?b ?a ?t ?hh] => destruct (@all_in_ev b t a hh) as (r & n & Q1 & Q2 & Q3 & Q4); rewrite Q1 in * end.
    cbn [h_searches h_compares h_world] in *. rewrite L1 in *. exists n.
    assert (NZ : l <> [] -> 1 <= n).
    { intros Z. apply Q4. intros Z1. rewrite Z1 in L1. destruct l; [auto|discriminate]. }
    destruct r; cbn [ret] in *.
    + unfold lift in *. cbn [h_world] in *. destruct (order_eq E (s_ord s) (s_ord s') (h_world h)) as [e w1| | |]; try discriminate; cbn [h_searches h_compares] in *.
      unfold searched, ret. cbn [h_searches]. repeat split; auto; try contradiction.
    + unfold searched, ret. cbn [h_searches]. repeat split; auto; try contradiction. intros ->. unfold ret in F. discriminate.
  - exists 0. cbn [ret] in *. unfold ret in *. unfold searched. cbn [h_searches] in *. repeat split; auto; try lia; try contradiction.
    intros ->. discriminate.
Qed.

(** *** Ranges *)
Lemma lput_size k v n l0 : distinct E l0 -> length l0 <= n -> 0 < n ->
  let r := lput E k v (Lru n (rev l0)) in
  fst (fst r) = negb (has E k l0) /\
  length (rev (items (snd r))) = if has E k l0 then length l0 else Nat.min n (S (length l0)).
Proof.
  intros D L Z. unfold lput. cbn [lcap items]. destruct (Nat.eqb_spec n 0); [lia|].
  assert (HR : has E k (rev l0) = has E k l0) by (apply has_perm, Permutation_sym, Permutation_rev).
  assert (HL : has E k (rev l0) = is_some (look E k (rev l0))).
  { clear HR. unfold has, look. induction (rev l0) as [|p t IH]; auto. simpl. destruct (key_equal E k (fst p)); auto. }
  destruct (look E k (rev l0)) as [(k0 & v0)|] eqn:LK; simpl in HL; rewrite HR in HL; rewrite HL; cbn [fst snd items negb].
  - split; auto. rewrite rev_length. simpl. rewrite <- (rev_length l0).
    assert (DR : distinct E (rev l0)) by (eapply distinct_perm; eauto using Permutation_rev).
    rewrite <- (without_one G DR (k := k)); auto. congruence.
  - split; auto. unfold ltake. cbn [items lcap]. rewrite rev_length, firstn_length. simpl. rewrite rev_length. auto.
Qed.
Lemma has_look k l : has E k l = is_some (look E k l).
Proof. unfold has, look. induction l as [|q l IH]; auto. simpl. destruct (key_equal E k (fst q)); auto. Qed.
Lemma put_cost c f p h l0 cap : puts c f -> reachable E (h_world h) -> contents E c (h_world h) l0 -> capacity_is E c (h_world h) cap ->
  0 < cap ->
  let r := lput E (fst p) (snd p) (Lru cap (rev l0)) in
  exists e h1, h_exec E st ct (f p) h = Val (RIns (fst (fst r)) e) h1 /\ reachable E (h_world h1) /\
    contents E c (h_world h1) (rev (items (snd r))) /\ capacity_is E c (h_world h1) cap /\
    h_searches h1 = h_searches h + (1 + (if fst (fst r) then 1 else 0) + (length l0 + (if fst (fst r) then 1 else 0) - cap)) /\
    length (rev (items (snd r))) = Nat.min cap (length l0 + if fst (fst r) then 1 else 0).
Proof.
  intros F R C N Z r.
  assert (PT : Spec.puts c (fst p) (snd p) (f p)) by (destruct F as [-> | ->]; constructor).
  assert (SR : searching (f p) = true) by (destruct F as [-> | ->]; auto).
  assert (OR : f p = Insert c (fst p) (snd p) \/ f p = Emplace c (fst p) (snd p)) by (destruct F as [-> | ->]; auto).
  destruct (put_result G PT R C N) as (w1 & X & C1 & N1). fold r in X, C1.
  destruct (keys_unique G R (or_introl C)) as (D & SZ).
  assert (LE : length l0 <= cap).
  { destruct (open_cache G R C) as (aw & a & Rl & Ha & ->). destruct (rel_get _ Rl Ha) as (x & s & cl & At & Rp).
    rewrite map_length, (rp_ents Rp). unfold ents. rewrite map_length, <- (capacity_inv Rl Ha N). apply Rp. }
  destruct (lput_size (fst p) (snd p) D LE Z) as (Q1 & Q2). fold r in Q1, Q2.
  destruct (calm_exec G h Cs Cc SR) as (s & t & _ & Y). rewrite X in Y. cbn [counted] in Y.
  eexists _, (MkH s t w1). split; [exact Y|]. cbn [h_world h_searches].
  split; [eapply reachable_step; [exact R|apply (put_copy_free p F)|exact X]|]. split; auto. split; auto.
  pose proof (has_look (fst p) l0) as HL.
  rewrite Q1, Q2. rewrite HL in *.
  assert (SE : forall j, makes E c l0 cap (f p) j -> s = h_searches h + j).
  { intros j M. pose proof (makes_ok G Cs Cc R C N M) as S. rewrite Y in S. exact S. }
  destruct (look E (fst p) l0) as [q|] eqn:LK; simpl is_some; cbn [negb].
  - split; [|lia]. rewrite (SE 1); [lia|]. eapply makes_update; eauto. congruence.
  - destruct (Nat.eq_dec (length l0) cap) as [Qc|Qc].
    + split; [|lia]. rewrite (SE 3); [lia|]. eapply makes_evict; eauto.
    + split; [|lia]. rewrite (SE 2); [lia|]. eapply makes_new; eauto. lia.
Qed.
Lemma put_nothing c f p h l0 : puts c f -> reachable E (h_world h) -> contents E c (h_world h) l0 -> capacity_is E c (h_world h) 0 ->
  exists e h1, h_exec E st ct (f p) h = Val (RIns false e) h1 /\ reachable E (h_world h1) /\
    contents E c (h_world h1) (rev (rev l0)) /\ capacity_is E c (h_world h1) 0 /\ h_searches h1 = h_searches h.
Proof.
  intros F R C N.
  assert (PT : Spec.puts c (fst p) (snd p) (f p)) by (destruct F as [-> | ->]; constructor).
  assert (SR : searching (f p) = true) by (destruct F as [-> | ->]; auto).
  assert (OR : f p = Insert c (fst p) (snd p) \/ f p = Emplace c (fst p) (snd p)) by (destruct F as [-> | ->]; auto).
  destruct (put_result G PT R C N) as (w1 & X & C1 & N1).
  destruct (calm_exec G h Cs Cc SR) as (s & t & _ & Y). rewrite X in Y. cbn [counted] in Y.
  eexists _, (MkH s t w1). split; [exact Y|]. cbn [h_world h_searches].
  split; [eapply reachable_step; [exact R|apply (put_copy_free p F)|exact X]|]. split; auto. split; auto.
  pose proof (makes_ok G Cs Cc R C N (makes_nothing E l0 OR eq_refl)) as S. rewrite Y in S. simpl in S. lia.
Qed.
Notation new_keys := (new_keys E).
Notation range_price := (range_searches E).
Lemma each_cost c f l : puts c f -> forall m h l0 cap, reachable E (h_world h) -> contents E c (h_world h) l0 ->
  capacity_is E c (h_world h) cap -> 0 < cap -> length l0 <= cap ->
  exists h', each E st ct f l m h = Val (RNat (m + new_keys l cap l0)) h' /\
    h_searches h' = h_searches h + (length l + new_keys l cap l0 + (length l0 + new_keys l cap l0 - cap)).
Proof.
  intros F. induction l as [|p l IH]; intros m h l0 cap R C N Z L.
  - exists h. unfold SpecMoreSearches.new_keys. simpl. rewrite Nat.add_0_r. split; auto. lia.
  - destruct (put_cost p F R C N Z) as (e & h1 & X & R1 & C1 & N1 & S1 & Q1). cbn [each]. rewrite X.
    unfold SpecMoreSearches.new_keys. destruct p as (k & v). cbn [lputs fst snd] in *.
    assert (LC : lcap (snd (lput E k v (Lru cap (rev l0)))) = cap).
    { unfold lput. cbn [lcap items]. destruct (Nat.eqb cap 0); auto. destruct (look E k (rev l0)) as [(? & ?)|]; auto. }
    destruct (lput E k v (Lru cap (rev l0))) as ((b & e') & s1). cbn [fst snd] in *.
    destruct (IH (if b then S m else m) h1 _ cap R1 C1 N1 Z) as (h' & Y & S2); [lia|].
    unfold SpecMoreSearches.new_keys in Y, S2. rewrite rev_involutive in Y, S2. rewrite Q1 in S2.
    replace (Lru cap (items s1)) with s1 in * by (destruct s1; simpl in *; subst; auto).
    destruct (lputs E l s1) as (j & s2). cbn [fst] in *. exists h'. split.
    + rewrite Y. f_equal. f_equal. destruct b; lia.
    + rewrite S2, S1. simpl length. destruct b; lia.
Qed.
Lemma each_nothing c f l : puts c f -> forall m h l0, reachable E (h_world h) -> contents E c (h_world h) l0 ->
  capacity_is E c (h_world h) 0 -> exists h', each E st ct f l m h = Val (RNat m) h' /\ h_searches h' = h_searches h.
Proof.
  intros F. induction l as [|p l IH]; intros m h l0 R C N; [exists h; auto|].
  destruct (put_nothing p F R C N) as (e & h1 & X & R1 & C1 & N1 & S1). cbn [each]. rewrite X.
  destruct (IH m h1 _ R1 C1 N1) as (h' & Y & S2). exists h'. rewrite S2. auto.
Qed.
Lemma new_keys_le l cap l0 : new_keys l cap l0 <= length l.
Proof.
  unfold SpecMoreSearches.new_keys. generalize (Lru cap (rev l0)). induction l as [|(k & v) l IH]; intros s; simpl; auto.
  destruct (lput E k v s) as ((b & e) & s1). specialize (IH s1). destruct (lputs E l s1) as (j & s2). simpl in *. destruct b; lia.
Qed.

Lemma full_length c l cap w : reachable E w -> contents E c w l -> capacity_is E c w cap -> length l <= cap.
Proof.
  intros R C N. destruct (open_cache G R C) as (aw & a & Rl & Ha & ->). destruct (rel_get _ Rl Ha) as (x & s & cl & At & Rp).
  rewrite map_length, (rp_ents Rp). unfold ents. rewrite map_length, <- (capacity_inv Rl Ha N). apply Rp.
Qed.
Lemma each_price c f l h l0 cap : puts c f -> reachable E (h_world h) -> contents E c (h_world h) l0 ->
  capacity_is E c (h_world h) cap ->
  exists n h', each E st ct f l 0 h = Val (RNat n) h' /\ h_searches h' = h_searches h + range_price l cap l0.
Proof.
  intros F R C N. unfold range_searches. destruct (Nat.eqb_spec cap 0) as [->|Z].
  - destruct (each_nothing l F 0 R C N) as (h' & X & S). exists 0, h'. split; auto. lia.
  - destruct (each_cost l F 0 R C N) as (h' & X & S); [lia|eapply full_length; eauto|]. eauto.
Qed.
Lemma range_cost c l o h l0 cap : puts_range c l o -> reachable E (h_world h) -> contents E c (h_world h) l0 ->
  capacity_is E c (h_world h) cap -> searched h (m_exec o h) (range_price l cap l0).
Proof.
  intros P R C N.
  assert (S : exists f, singly c l o f) by (destruct P; eexists; constructor). destruct S as (f & S).
  assert (Al : alive (h_world h) c = true) by (destruct (rep_at R C) as (x & s & a & cl & At & _); exact (at_alive At)).
  rewrite (one_by_one G st ct keeps S R Al).
  destruct (each_price l (singly_puts S) R C N) as (n & h' & X & Q). rewrite X. exact Q.
Qed.
Lemma range_ret c f l h n h' : puts c f -> reachable E (h_world h) -> alive (h_world h) c = true ->
  each E st ct f l 0 h = Val (RNat n) h' -> h_range E st f l 0 h = Val n h'.
Proof.
  intros F R Al X. rewrite <- (range_each G st ct l F 0 R Al) in X. unfold bind in X.
  destruct (h_range E st f l 0 h) as [m h1|e h1|u|e]; try discriminate. inversion X; auto.
Qed.
Lemma assign_cost c l o h cap : assigns c l o -> reachable E (h_world h) -> alive (h_world h) c = true ->
  capacity_is E c (h_world h) cap -> searched h (m_exec o h) (length l + new_keys l (Nat.max cap (length l)) []).
Proof.
  intros A R Al N. destruct (clear_fills G (length l) R Al N) as (w1 & X & R1 & C1 & N1).
  assert (B : forall f, puts c f -> exists n h', h_range E st f l 0 (MkH (h_searches h) (h_compares h) w1) = Val n h' /\
     h_searches h' = h_searches h + (length l + new_keys l (Nat.max cap (length l)) [])).
  { intros f F. destruct (@each_price c f l (MkH (h_searches h) (h_compares h) w1) [] _ F R1 C1 N1) as (n & h' & Y & Q).
    exists n, h'. split.
    - eapply range_ret; eauto. destruct (rep_at R1 C1) as (x & s & a & cl & At & _). exact (at_alive At).
    - rewrite Q. unfold range_searches. cbn [h_searches]. pose proof (new_keys_le l (Nat.max cap (length l)) []).
      destruct (Nat.eqb_spec (Nat.max cap (length l)) 0); simpl length; lia. }
  unfold searched, MoreSearches.m_exec. destruct A; cbn [well_formed m_body]; rewrite Al;
    unfold h_assign_range, h_assign_move, bind, lift; rewrite X.
  - destruct (B _ (fIns_puts c)) as (n & h' & Y & Q).
    change (h_insert_range E st c l) with (h_range E st (fIns c) l 0). rewrite Y. exact Q.
  - destruct (B _ (fEmp_puts c)) as (n & h' & Y & Q).
    change (h_insert_move E st c l) with (h_range E st (fEmp c) l 0). rewrite Y. exact Q.
Qed.
Lemma build_cost ttl o cap l h : builds ttl o cap l -> reachable E (h_world h) ->
  searched h (m_exec o h) (range_price l cap []).
Proof.
  intros B R.
  assert (X : forall (f : nat -> K * V -> op K V), (forall c, puts c (f c)) -> exists c h',
     h_with_new cap ttl (fun c => h_range E st (f c) l 0) h = Val c h' /\ h_searches h' = h_searches h + range_price l cap []).
  { intros f F. destruct (new_fills G cap ttl R) as (c & w1 & X & R1 & C1 & N1).
    destruct (@each_price c (f c) l (MkH (h_searches h) (h_compares h) w1) [] _ (F c) R1 C1 N1) as (n & h' & Y & Q).
    exists c, h'. split; auto. unfold h_with_new, bind, lift. rewrite X.
    assert (Al : alive w1 c = true) by (destruct (rep_at R1 C1) as (x & s & a & cl & At & _); exact (at_alive At)).
    rewrite (@range_ret c (f c) l (MkH (h_searches h) (h_compares h) w1) n h' (F c) R1 Al Y). reflexivity. }
  destruct (X _ fIns_puts) as (c1 & h1 & X1 & S1). destruct (X _ fEmp_puts) as (c2 & h2 & X2 & S2).
  unfold searched, MoreSearches.m_exec.
  assert (Y1 : h_new_from E st cap ttl l h = Val c1 h1) by exact X1.
  assert (Y2 : h_new_from_move E st cap ttl l h = Val c2 h2) by exact X2.
  destruct B; cbn [well_formed m_body] in *; unfold bind.
  - unfold h_body, lift. cbn [body]. unfold bind. destruct (new_fills G cap ttl R) as (c & w1 & X3 & _). rewrite X3. simpl.
    unfold range_searches, SpecMoreSearches.new_keys. simpl. destruct (Nat.eqb cap 0); lia.
  - rewrite Y1. exact S1.
  - rewrite Y2. exact S2.
  - unfold DEFAULT_CAPACITY. rewrite Y1. exact S1.
  - rewrite Y2. exact S2.
  - rewrite Y1. exact S1.
Qed.

(** *** The theorems *)
Lemma also_makes_ok c l o n h : reachable E (h_world h) -> contents E c (h_world h) l -> also_makes c l o n ->
  well_formed (h_world h) o = true -> searched h (m_exec o h) n.
Proof.
  intros R C M W. destruct (rep_at R C) as (x & s & a & cl & At & Rp & L1 & L2).
  assert (TM : timed (h_world h) c = true -> exists d, c_ttl x = Some d).
  { unfold timed. rewrite (proj1 At). destruct (c_ttl x); eauto. discriminate. }
  assert (EX : copy_free o = true -> also_searching o = true -> spends n (m_exec o) h -> searched h (m_exec o h) n).
  { intros CF AS SP. pose proof (also_forget G keeps Cs Cc R AS) as F.
    destruct (reach_rel G R) as (aw & Rl). destruct (exec_step G Rl CF) as (ch & Z). pose proof (step_safe ch o (awf_rel Rl)) as A.
    unfold spends in SP. unfold searched. destruct (m_exec o h) as [r h'|e h'|u|e]; simpl in F; auto; exfalso;
      rewrite <- F in Z.
    - destruct (astep E ch o aw); simpl in *; try easy. subst u0.
      destruct A as [(c0 & -> & _)|(c0 & k & -> & _)]; discriminate.
    - destruct (astep E ch o aw); simpl in *; try easy. subst e0.
      destruct A as (-> & c0 & a0 & [-> | ->] & _); discriminate. }
  assert (SP : also_searching o = true -> spends n (m_body E st ct keeps o) h -> searched h (m_exec o h) n).
  { intros AS SP. destruct (copy_free o) eqn:CF.
    - apply EX; auto. apply spends_m_exec; auto.
    - destruct M; discriminate || idtac.
      eapply spent_searched; eauto; [|apply spends_m_exec; auto].
      unfold exec. rewrite W. cbn [body]. unfold copy_assign, noexcept. rewrite Nat.eqb_refl. reflexivity. }
  destruct M as [k|NE|NE| |]; (apply SP; [reflexivity|]); cbn [m_body].
  - eapply with_ttl_spends; eauto. intros d. apply spends_last; [apply expired_spends|intros; apply spends_ret].
  - eapply with_ttl_spends; eauto. intros d. apply spends_last; [|intros; apply spends_ret].
    pose proof (all_spends d At) as X. rewrite L1 in X. destruct l; [contradiction|exact X].
  - eapply with_ttl_spends; eauto. intros d. apply spends_last; [|intros; apply spends_ret].
    pose proof (all_spends d At) as X. rewrite L1 in X. subst l. exact X.
  - apply spends_last; [|intros; apply spends_ret]. unfold h_equals. apply spends_noexcept.
    apply spends_last; [apply spends_lift|]. intros (r & s1) h1. apply spends_last; [apply spends_lift|]. intros (r2 & s2) h2.
    apply spends_last; [apply spends_lift|]. intros x1 h3. rewrite Nat.eqb_refl. apply spends_ret.
  - apply spends_last; [|intros; apply spends_ret]. unfold h_copy_assign. apply spends_noexcept. rewrite Nat.eqb_refl. apply spends_ret.
Qed.
Lemma clear_cost c l h n w' : reachable E (h_world h) -> contents E c (h_world h) l ->
  exec E (ClearExpired c) (h_world h) = Val (RNat n) w' ->
  searched h (m_exec (ClearExpired c) h) (Nat.min (length l) (S n)).
Proof.
  intros R C X. eapply spent_searched; eauto.
  destruct (open_cache G R C) as (aw & a & Rl & Ha & ->). destruct (rel_get _ Rl Ha) as (x & s & cl & At & Rp).
  assert (LN : length (map pair_of (a_ents a)) = length cl).
  { rewrite map_length, (rp_ents Rp). unfold ents. rewrite map_length. auto. }
  rewrite LN. unfold exec in X. destruct (well_formed (h_world h) (ClearExpired c)) eqn:W; [|discriminate].
  apply spends_m_exec; auto. cbn [well_formed body m_body] in *. unfold with_ttl, h_with_ttl in *.
  rewrite (bind_val _ _ _ (get_cache_ev _ _ (proj1 At))) in X.
  apply spends_bind; [apply spends_lift|apply steady_lift, silent_get_cache|]. intros x1 h1 Y. apply lift_val in Y.
  rewrite (get_cache_ev _ _ (proj1 At)) in Y. inversion Y as [[Y1 Y2]]. subst x1.
  destruct (c_ttl x) as [d|]; [|discriminate]. apply spends_last; [|intros; apply spends_ret].
  unfold clear_expired, is_empty, h_clear_expired in *. rewrite !bind_assoc in X.
  rewrite (bind_val _ _ _ (size_ev At)), (rep_size (rp_store Rp)), bind_ret in X.
  apply spends_bind; [apply spends_lift|apply steady_is_empty|]. intros e h2 Z. apply lift_val in Z. unfold is_empty in Z.
  rewrite <- Y2, (bind_val _ _ _ (size_ev At)), (rep_size (rp_store Rp)) in Z. inversion Z as [[Z1 Z2]].
  destruct (Nat.eqb_spec (length cl) 0) as [Q|Q]; [rewrite Q; apply spends_ret|].
  rewrite bind_assoc, (bind_val _ _ _ (size_ev At)), (rep_size (rp_store Rp)) in X.
  apply spends_bind; [apply spends_lift|apply steady_lift, silent_size|]. intros sz h3 T. apply lift_val in T.
  rewrite <- Z2, (size_ev At), (rep_size (rp_store Rp)) in T. inversion T as [[T1 T2]]. 
  assert (At3 : at_ (h_world h3) c x s) by (rewrite <- T2; exact At).
  destruct (@clear_spends c d cl (length cl) 0 h3 x s a (le_n _) At3 Rp) as (n1 & w1 & U1 & _ & U2).
  rewrite <- T2 in U1. rewrite (bind_val _ _ _ U1) in X. inversion X; subst n1. rewrite Nat.sub_0_r in U2. exact U2.
Qed.
Lemma copy_cost c l h : reachable E (h_world h) -> contents E c (h_world h) l ->
  searched h (m_exec (Copy c) h) (copying (length l)).
Proof.
  intros R C. destruct (rep_at R C) as (x & s & a & cl & At & Rp & L1 & L2).
  destruct (reach_rel G R) as (aw & Rl). destruct (alive_inv Rl (at_alive At)) as (a1 & Ha).
  destruct (copy_sound G Rl Ha) as (w' & z & X & _). eapply spent_searched; eauto.
  apply spends_m_exec; [exact (at_alive At)|]. cbn [m_body]. apply spends_last; [|intros; apply spends_ret].
  rewrite <- L1. apply (copy_spends At). congruence.
Qed.
Lemma copy_assign_cost c d l h : reachable E (h_world h) -> contents E d (h_world h) l -> c <> d ->
  same_kind (h_world h) c d = true -> searched h (m_exec (CopyAssign c d) h) (copying (length l)).
Proof.
  intros R C N W. destruct (rep_at R C) as (x & s & a & cl & At & Rp & L1 & L2).
  assert (Al : alive (h_world h) c = true).
  { unfold same_kind, alive in *. destruct (slot (w_caches (h_world h)) c); auto. }
  destruct (reach_rel G R) as (aw & Rl). destruct (alive_inv Rl Al) as (a2 & Ha2). destruct (rel_get _ Rl Ha2) as (y & s' & cl' & At' & _).
  destruct (alive_inv Rl (at_alive At)) as (a1 & Ha).
  destruct (copy_assign_sound G Rl (not_eq_sym N) Ha Ha2 W) as (w' & z & X & _). eapply spent_searched; eauto.
  apply spends_m_exec; auto. cbn [m_body]. apply spends_last; [|intros; apply spends_ret].
  rewrite <- L1. apply (assign_spends N At' At). congruence.
Qed.
End Cost.

(** What is left of a range call that threw. *)
Section Threw.
Context {K V : Type}.
Variable E : env K V.
Hypothesis G : good E.
Variables st ct : nat -> option nat.
Variable keeps : bool.
Notation m_exec := (m_exec E st ct keeps).
Lemma range_threw c l o f h e h' : singly c l o f -> reachable E (h_world h) -> alive (h_world h) c = true ->
  m_exec o h = Exc e h' ->
  exists m p outs h1, nth_error l m = Some p /\ run E (map f (firstn m l)) (h_world h) = Finished outs (h_world h1) /\
    h_searches h <= h_searches h1 /\ h_exec E st ct (f p) h1 = Exc e h'.
Proof.
  intros S R Al X. rewrite (one_by_one G st ct keeps S R Al) in X.
  destruct (each_threw G (singly_puts S) R Al X) as (m & p & outs & h1 & X1 & X2 & X3 & X4 & _). exists m, p, outs, h1. auto.
Qed.
Lemma assign_threw c l o h e h' cap : assigns c l o -> reachable E (h_world h) -> alive (h_world h) c = true ->
  capacity_is E c (h_world h) cap -> m_exec o h = Exc e h' ->
  exists f w1 m p outs h1, (exists o', singly c l o' f) /\ reachable E w1 /\ contents E c w1 [] /\ capacity_is E c w1 (Nat.max cap (length l)) /\
    nth_error l m = Some p /\ run E (map f (firstn m l)) w1 = Finished outs (h_world h1) /\
    h_searches h <= h_searches h1 /\ h_exec E st ct (f p) h1 = Exc e h'.
Proof.
  intros A R Al N X. destruct (clear_fills G (length l) R Al N) as (w1 & Y & R1 & C1 & N1).
  assert (Al1 : alive w1 c = true).
  { unfold contents, exec in C1. cbn [well_formed] in C1. destruct (alive w1 c); auto. discriminate. }
  assert (Z : exists f, MoreSearchProofs.puts c f /\ (exists o', singly c l o' f) /\ each E st ct f l 0 (MkH (h_searches h) (h_compares h) w1) = Exc e h').
  { unfold MoreSearches.m_exec in X. destruct A; cbn [well_formed m_body] in X; rewrite Al in X;
      unfold h_assign_range, h_assign_move, bind, lift in X; rewrite Y in X.
    - exists (fIns c). split; [apply fIns_puts|]. split; [exists (InsertRange c l); constructor|].
      rewrite <- (range_each G st ct l (fIns_puts c) 0 (h := MkH (h_searches h) (h_compares h) w1) R1 Al1). unfold bind.
      change (h_insert_range E st c l) with (h_range E st (fIns c) l 0) in X.
      destruct (h_range E st (fIns c) l 0 _); try discriminate. exact X.
    - exists (fEmp c). split; [apply fEmp_puts|]. split; [exists (InsertMove c l); constructor|].
      rewrite <- (range_each G st ct l (fEmp_puts c) 0 (h := MkH (h_searches h) (h_compares h) w1) R1 Al1). unfold bind.
      change (h_insert_move E st c l) with (h_range E st (fEmp c) l 0) in X.
      destruct (h_range E st (fEmp c) l 0 _); try discriminate. exact X. }
  destruct Z as (f & F & S & Z).
  destruct (each_threw G F (h := MkH (h_searches h) (h_compares h) w1) R1 Al1 Z) as (m & p & outs & h1 & X1 & X2 & X3 & X4 & _).
  exists f, w1, m, p, outs, h1. repeat split; auto.
Qed.
End Threw.
