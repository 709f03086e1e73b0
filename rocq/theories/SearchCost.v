(** Searches: how many each call makes when nothing throws. *)
From Coq Require Import List Arith ZArith Bool Lia Permutation.
Import ListNotations.
From Verif Require Import Monad Types Model Api Spec Ref Lists SimBase SimRel SimOps SimIns SimErase SimIter SimNew SimObs SimExec RefEval SimRun LruProofs CallProofs LruMore Flat Global Safe Frame StatProofs MemoCalls Searches SpecSearches SearchProofs SearchMain.
Set Implicit Arguments.
Unset Strict Implicit.
Local Open Scope cpp_scope.

Section Cost.
Context {K V : Type}.
Variable E : env K V.
Hypothesis G : good E.
Variables st ct : nat -> option nat.
Hypothesis Cs : calm st.
Hypothesis Cc : calm ct.
Notation world := (world K V).
Notation H := (M (hworld K V)).
Notation MM := (M world).

Definition spends {A} (n : nat) (mh : H A) (h : hworld K V) : Prop :=
  match mh h with Val _ h' | Exc _ h' => h_searches h' = h_searches h + n | _ => True end.
Definition steady {A} (mh : H A) (h : hworld K V) : Prop := forall e h', mh h <> Exc e h'.

Lemma spends_last {A B} n (mh : H A) (kh : A -> H B) h : spends n mh h -> (forall a h1, spends 0 (kh a) h1) ->
  spends n (bind mh kh) h.
Proof.
  unfold spends, bind. intros X Y. destruct (mh h) as [a h1|e h1|u|e]; auto. specialize (Y a h1).
  destruct (kh a h1); auto; lia.
Qed.
Lemma spends_bind {A B} n (mh : H A) (kh : A -> H B) h : spends 0 mh h -> steady mh h ->
  (forall a h1, mh h = Val a h1 -> spends n (kh a) h1) -> spends n (bind mh kh) h.
Proof.
  unfold spends, steady, bind. intros X S Y. destruct (mh h) as [a h1|e h1|u|e] eqn:Z; auto.
  - specialize (Y a h1 eq_refl). destruct (kh a h1); auto; lia.
  - destruct (S e h1 eq_refl).
Qed.
Lemma spends_then {A B} n m (mh : H A) (kh : A -> H B) h : spends m mh h -> steady mh h ->
  (forall a h1, mh h = Val a h1 -> spends n (kh a) h1) -> spends (m + n) (bind mh kh) h.
Proof.
  unfold spends, steady, bind. intros X S Y. destruct (mh h) as [a h1|e h1|u|e] eqn:Z; auto.
  - specialize (Y a h1 eq_refl). destruct (kh a h1); auto; lia.
  - destruct (S e h1 eq_refl).
Qed.
Lemma spends_lift {A} (m : MM A) h : spends 0 (lift m) h.
Proof. unfold spends, lift. destruct (m (h_world h)); simpl; auto. Qed.
Lemma spends_ret {A} (a : A) h : spends 0 (ret a) h.
Proof. unfold spends. simpl. auto. Qed.
Lemma spends_throw {A} e h : spends 0 (@throw _ A e) h.
Proof. unfold spends. simpl. auto. Qed.
Lemma spends_undef {A} n u h : spends n (@undef _ A u) h.
Proof. unfold spends. simpl. auto. Qed.
Lemma spends_search {A} (m : MM A) h : spends 1 (search st;;; lift m) h.
Proof.
  unfold spends, bind, search. rewrite Cs. unfold lift. simpl. destruct (m (h_world h)); simpl; auto; lia.
Qed.
Lemma search_val {A} (m : MM A) h a h1 : (search st;;; lift m) h = Val a h1 ->
  m (h_world h) = Val a (h_world h1).
Proof.
  unfold bind, search. rewrite Cs. unfold lift. simpl. destruct (m (h_world h)); intros X; inversion X; auto.
Qed.
Lemma lift_val {A} (m : MM A) h a h1 : lift m h = Val a h1 -> m (h_world h) = Val a (h_world h1).
Proof. unfold lift. destruct (m (h_world h)); intros X; inversion X; auto. Qed.
Lemma spends_last_is c k h : spends 0 (h_last_is E ct c k) h.
Proof.
  unfold h_last_is, spends, bind, lift. destruct (get_cache c (h_world h)) as [x w|e w|u|e]; simpl; auto.
  destruct (c_last x) as [p|]; simpl; auto. unfold noexcept, compare. simpl. rewrite Cc. simpl.
  destruct (deref p w); simpl; auto.
Qed.
Lemma steady_last_is c k h : steady (h_last_is E ct c k) h.
Proof.
  unfold steady, h_last_is, bind, lift, get_cache. intros e h'. destruct (slot (w_caches (h_world h)) c) as [x|]; simpl; [|discriminate].
  destruct (c_last x) as [p|]; simpl; [|discriminate]. unfold noexcept.
  match goal with |- match ?r with _ => _ end <> _ => destruct r end; discriminate.
Qed.
Lemma last_is_val c k h b h1 : h_last_is E ct c k h = Val b h1 -> last_is E c k (h_world h) = Val b (h_world h1).
Proof.
  intros X. destruct (follows_last_is E st ct (fun _ => True) c k h) as [(s & t & _ & _ & Y)|[Y|Y]].
  - rewrite X in Y. destruct (last_is E c k (h_world h)); inversion Y; subst; auto.
  - destruct Y as (n & i & h' & Y & _). rewrite Cs in Y. discriminate.
  - destruct Y as (n & i & Y & _). rewrite Cc in Y. discriminate.
Qed.

(** Functions that do not throw. *)
Definition silent {A} (m : MM A) : Prop := forall w e w', m w <> Exc e w'.
Lemma steady_lift {A} (m : MM A) h : silent m -> steady (lift m) h.
Proof. intros S e h'. unfold lift. destruct (m (h_world h)) eqn:X; try discriminate. destruct (S _ _ _ X). Qed.
Lemma steady_search {A} (m : MM A) h : silent m -> steady (search st;;; lift m) h.
Proof.
  intros S e h'. unfold bind, search. rewrite Cs. apply (@steady_lift _ m (MkH (Datatypes.S (h_searches h)) (h_compares h) (h_world h)) S).
Qed.
Lemma steady_ret {A} (a : A) h : steady (ret a) h. Proof. discriminate. Qed.
Lemma silent_bind {A B} (m : MM A) (k : A -> MM B) : silent m -> (forall a, silent (k a)) -> silent (bind m k).
Proof. intros X Y w e w'. unfold bind. destruct (m w) eqn:Z; try discriminate; [apply Y|intros _; exact (X _ _ _ Z)]. Qed.
Lemma silent_ret {A} (a : A) : silent (ret a). Proof. discriminate. Qed.
Lemma silent_undef {A} u : silent (@undef world A u). Proof. discriminate. Qed.
Lemma silent_get_cache c : silent (@get_cache K V c).
Proof. intros w e w'. unfold get_cache. destruct (slot (w_caches w) c); discriminate. Qed.
Lemma silent_get_store c : silent (@get_store K V c).
Proof. intros w e w'. unfold get_store. destruct (slot (w_stores w) c); discriminate. Qed.
Lemma silent_modify (f : world -> world) : silent (modify f). Proof. discriminate. Qed.
Lemma silent_put_cache c x : silent (@put_cache K V c x). Proof. discriminate. Qed.
Lemma silent_put_store c x : silent (@put_store K V c x). Proof. discriminate. Qed.
Lemma silent_fallible : silent (fallible E).
Proof. intros w e w'. rewrite (fallible_tick G w). discriminate. Qed.
Ltac sil := repeat match goal with
  | |- silent (bind _ _) => apply silent_bind; [|intros]
  | |- silent (ret _) => apply silent_ret
  | |- silent (undef _) => apply silent_undef
  | |- silent (get_cache _) => apply silent_get_cache
  | |- silent (get_store _) => apply silent_get_store
  | |- silent (put_cache _ _) => apply silent_put_cache
  | |- silent (put_store _ _) => apply silent_put_store
  | |- silent (modify _) => apply silent_modify
  | |- silent (fallible _) => apply silent_fallible
  | |- silent (match ?x with _ => _ end) => destruct x
  end.
Lemma silent_own c : silent (@own K V c). Proof. unfold own. sil. Qed.
Lemma silent_deref p : silent (@deref K V p). Proof. unfold deref. sil. Qed.
Lemma silent_deref_it i : silent (@deref_it K V i). Proof. unfold deref_it. sil. apply silent_deref. Qed.
Lemma silent_capacity c : silent (@capacity K V c). Proof. unfold capacity. sil. Qed.
Lemma silent_size c : silent (@size K V c). Proof. unfold size, map_size. sil. apply silent_own. Qed.
Lemma silent_map_find c k : silent (map_find E c k). Proof. unfold map_find. sil. apply silent_own. Qed.
Lemma silent_last_ptr c : silent (@last_ptr K V c). Proof. unfold last_ptr. sil. Qed.
Lemma silent_list_front c : silent (@list_front K V c). Proof. unfold list_front. sil. apply silent_own. Qed.
Lemma silent_too_full c : silent (@is_too_full K V c).
Proof. unfold is_too_full. sil. apply silent_size. apply silent_capacity. Qed.
Lemma silent_timestamp c : silent (timestamp E c).
Proof. unfold timestamp. sil. intros w e w'. unfold now. discriminate. Qed.
Lemma silent_map_emplace c n : silent (map_emplace E c n).
Proof. unfold map_emplace. sil. apply silent_own. Qed.
Lemma silent_invalidate c : silent (@invalidate_last K V c).
Proof. unfold invalidate_last, set_last. sil. Qed.
Lemma silent_list_erase c q : silent (@list_erase K V c q).
Proof. unfold list_erase. sil; apply silent_own || idtac. Qed.

Ltac sp := repeat match goal with
  | |- spends 0 (bind _ _) _ => apply spends_last; [|intros]
  | |- spends 0 (lift _) _ => apply spends_lift
  | |- spends 0 (ret _) _ => apply spends_ret
  | |- spends 0 (throw _) _ => apply spends_throw
  | |- spends _ (undef _) _ => apply spends_undef
  | |- spends 0 (h_last_is _ _ _ _) _ => apply spends_last_is
  | |- spends 0 (match ?x with _ => _ end) _ => destruct x
  | |- spends 0 (if ?x then _ else _) _ => destruct x
  end.

Lemma spends_erase_it c i h : spends 0 (h_erase_it E ct c i) h.
Proof. unfold h_erase_it. sp. Qed.
Lemma spends_find c k h : spends 1 (h_find E st c k) h.
Proof.
  unfold h_find. apply spends_bind; [apply spends_lift|apply steady_lift; sil|]. intros x h1 _.
  destruct (c_ttl x); (apply spends_last; [apply spends_search|]; intros; sp).
Qed.
Lemma spends_contains c k h b : last_is E c k (h_world h) = Val b (h_world h) ->
  spends (if b then 0 else 1) (h_contains E st ct c k) h.
Proof.
  intros L. unfold h_contains. apply spends_bind; [apply spends_last_is|apply steady_last_is|]. intros b' h1 X.
  apply last_is_val in X. rewrite L in X. inversion X; subst b'. destruct b; [sp|].
  apply spends_last; [apply spends_find|intros; sp].
Qed.
Lemma spends_lookup c k h b : last_is E c k (h_world h) = Val b (h_world h) ->
  spends (if b then 0 else 1) (h_lookup E st ct c k) h.
Proof.
  intros L. unfold h_lookup. apply spends_bind; [apply spends_last_is|apply steady_last_is|]. intros b' h1 X.
  apply last_is_val in X. rewrite L in X. inversion X; subst b'. destruct b; [sp|].
  apply spends_last; [apply spends_find|intros; sp].
Qed.
Lemma spends_erase_key c k h : spends 1 (h_erase_key E st ct c k) h.
Proof.
  unfold h_erase_key. apply spends_bind; [apply spends_last_is|apply steady_last_is|]. intros b h1 _. destruct b.
  - apply spends_bind; [apply spends_lift|apply steady_lift, silent_last_ptr|]. intros p h2 _.
    apply spends_last; [|intros; sp]. unfold h_erase_key_info.
    apply spends_bind; [apply spends_lift|apply steady_lift, silent_deref|]. intros n h3 _.
    apply spends_bind; [apply spends_last_is|apply steady_last_is|]. intros same h4 _.
    apply spends_bind; [destruct same; sp|destruct same; [apply steady_lift, silent_invalidate|apply steady_ret]|]. intros u h5 _.
    apply spends_bind; [apply spends_lift|apply steady_lift, silent_deref|]. intros n' h6 _.
    apply spends_bind; [apply spends_lift|apply steady_lift, silent_list_erase|]. intros u' h7 _.
    apply spends_search.
  - apply spends_last; [apply spends_search|]. intros i h2. destruct i; [|sp].
    apply spends_last; [apply spends_erase_it|intros; sp].
Qed.

(** Insertion. *)
Lemma spends_new_key c p h b : is_too_full c (h_world h) = Val b (h_world h) ->
  spends (if b then 1 else 0) (h_insert_new_key E st c p) h.
Proof.
  intros F. unfold h_insert_new_key.
  apply spends_bind; [apply spends_lift|apply steady_lift, silent_too_full|]. intros b' h1 X.
  apply lift_val in X. rewrite F in X. inversion X; subst b'. apply spends_last; [|intros; sp]. destruct b; [|sp].
  unfold h_evict_lru_for. apply spends_bind; [apply spends_lift|apply steady_lift, silent_list_front|]. intros q h2 _.
  apply spends_bind; [apply spends_lift|apply steady_lift, silent_deref|]. intros n h3 _.
  apply spends_last; [apply spends_search|intros; sp].
Qed.
(** The cache object and its store, before the insertion. *)
Definition sized (c : nat) (w : world) (cap len : nat) : Prop :=
  exists x s, at_ w c x s /\ c_cap x = cap /\ length (s_map s) = len.
Lemma sized_unchanged c w w' cap len : unchanged w w' -> sized c w cap len -> sized c w' cap len.
Proof. intros (A & B & _) (x & s & At & L). exists x, s. split; auto. unfold at_ in *. rewrite A, B. auto. Qed.
Lemma emplaced_full c w n i w' cap len : sized c w cap len -> map_emplace E c n w = Val (i, true) w' ->
  is_too_full c w' = Val (Nat.leb cap len) w'.
Proof.
  intros (x & s & At & L1 & L2) X. unfold map_emplace in X. rewrite (bind_val _ _ _ (own_ev At)) in X.
  destruct (node_with E (n_key n) (s_map s)) as [(j & m)|]; [inversion X|].
  rewrite (bind_val _ _ _ (fallible_tick G w)) in X. unfold put_store, bind, modify in X. inversion X; subst.
  match goal with |- is_too_full c ?w1 = _ => set (w1' := w1) end.
  assert (At' : at_ w1' c x (MkStore (place E (s_map s) (s_next s, n)) (s_ord s) (S (s_next s))
                              (if rehash E s then S (s_epoch s) else s_epoch s))).
  { exact (@at_setS K V (tick w) c x s _ At). }
  unfold is_too_full. rewrite (bind_val _ _ _ (size_ev At')). rewrite (bind_val _ _ _ (capacity_ev _ _ (proj1 At'))).
  simpl. rewrite (Permutation_length (good_place G (s_map s) (s_next s, n))). simpl. reflexivity.
Qed.
Lemma emplaced_fresh c w n i f w' k : map_find E c k w = Val None w -> n_key n = k ->
  map_emplace E c n w = Val (i, f) w' -> f = true.
Proof.
  intros F <- X. unfold map_find, map_emplace, bind in *. destruct (own c w) as [[r s] w1|e w1|u|e]; try discriminate.
  destruct (node_with E (n_key n) (s_map s)) as [(j & m)|]; [discriminate|].
  destruct (fallible E w1); inversion X; auto.
Qed.
Lemma map_find_unchanged c k w w' r : unchanged w w' -> map_find E c k w = Val r w -> map_find E c k w' = Val r w'.
Proof.
  intros (A & B & _) X. unfold map_find, own, get_cache, get_store, bind in *. rewrite A.
  destruct (slot (w_caches w) c) as [x|]; [|discriminate]. rewrite B.
  destruct (slot (w_stores w) (c_rid x)) as [s|]; [|discriminate]. simpl in *.
  destruct (node_with E k (s_map s)) as [(j & m)|]; inversion X; auto.
Qed.

Definition insertion (cap len : nat) (found : bool) : nat :=
  if Nat.eqb cap 0 then 0 else if found then 1 else if Nat.leb cap len then 3 else 2.
Definition is_some {A} (o : option A) : bool := match o with Some _ => true | None => false end.

Lemma spends_insert c k v h cap len r : sized c (h_world h) cap len ->
  map_find E c k (h_world h) = Val r (h_world h) ->
  spends (insertion cap len (is_some r)) (h_insert E st c k v) h.
Proof.
  intros S F. unfold h_insert. assert (CP : capacity c (h_world h) = Val cap (h_world h)).
  { destruct S as (x & s & At & <- & _). apply capacity_ev. apply At. }
  apply spends_bind; [apply spends_lift|apply steady_lift, silent_capacity|]. intros cap' h1 X.
  apply lift_val in X. rewrite CP in X. inversion X; subst cap'. rewrite H1 in *. clear CP X. unfold insertion.
  destruct (Nat.eqb cap 0); [sp|].
  replace (if is_some r then 1 else if Nat.leb cap len then 3 else 2) with
    (1 + if is_some r then 0 else if Nat.leb cap len then 2 else 1) by (destruct r, (Nat.leb cap len); auto).
  apply spends_then; [apply spends_search|apply steady_search, silent_map_find|]. intros i h2 X.
  apply search_val in X. rewrite F in X. inversion X; subst i. rewrite H2 in *. clear X.
  destruct r as [i|]; simpl is_some; cbn iota; [sp|].
  apply spends_bind; [apply spends_lift|apply steady_lift, silent_timestamp|]. intros z h3 Z.
  apply lift_val, timestamp_unchanged in Z.
  replace (if Nat.leb cap len then 2 else 1) with (1 + if Nat.leb cap len then 1 else 0) by (destruct (Nat.leb cap len); auto).
  apply spends_then; [apply spends_search|apply steady_search, silent_map_emplace|]. intros (i & fresh) h4 X.
  apply search_val in X.
  assert (fresh = true) by (eapply emplaced_fresh; [exact (map_find_unchanged Z F)| |exact X]; reflexivity). subst fresh.
  pose proof (emplaced_full (sized_unchanged Z S) X) as FU.
  apply spends_bind; [apply spends_ret|apply steady_ret|]. intros u h5 U. inversion U; subst h5.
  apply spends_last; [|intros; sp]. apply spends_new_key; auto.
Qed.
Lemma spends_emplace c k v h cap len r : sized c (h_world h) cap len ->
  map_find E c k (h_world h) = Val r (h_world h) ->
  spends (insertion cap len (is_some r)) (h_emplace E st c k v) h.
Proof.
  intros S F. unfold h_emplace. assert (CP : capacity c (h_world h) = Val cap (h_world h)).
  { destruct S as (x & s & At & <- & _). apply capacity_ev. apply At. }
  apply spends_bind; [apply spends_lift|apply steady_lift, silent_capacity|]. intros cap' h1 X.
  apply lift_val in X. rewrite CP in X. inversion X; subst cap'. rewrite H1 in *. clear CP X. unfold insertion.
  destruct (Nat.eqb cap 0); [sp|].
  apply spends_bind; [apply spends_lift|apply steady_lift, silent_fallible|]. intros u0 h0 X.
  apply lift_val, fallible_unchanged in X.
  apply (sized_unchanged X) in S. apply (map_find_unchanged X) in F. clear X.
  replace (if is_some r then 1 else if Nat.leb cap len then 3 else 2) with
    (1 + if is_some r then 0 else if Nat.leb cap len then 2 else 1) by (destruct r, (Nat.leb cap len); auto).
  apply spends_then; [apply spends_search|apply steady_search, silent_map_find|]. intros i h2 X.
  apply search_val in X. rewrite F in X. inversion X; subst i. rewrite H2 in *. clear X.
  destruct r as [i|]; simpl is_some; cbn iota; [sp|].
  apply spends_bind; [apply spends_lift|apply steady_lift, silent_timestamp|]. intros z h3 Z.
  apply lift_val, timestamp_unchanged in Z.
  replace (if Nat.leb cap len then 2 else 1) with (1 + if Nat.leb cap len then 1 else 0) by (destruct (Nat.leb cap len); auto).
  apply spends_then; [apply spends_search|apply steady_search, silent_map_emplace|]. intros (i & fresh) h4 X.
  apply search_val in X.
  assert (fresh = true) by (eapply emplaced_fresh; [exact (map_find_unchanged Z F)| |exact X]; reflexivity). subst fresh.
  pose proof (emplaced_full (sized_unchanged Z S) X) as FU.
  apply spends_last; [|intros; sp]. apply spends_new_key; auto.
Qed.

(** Shrinking. *)
Lemma spends_erase_lru c h : spends 1 (h_erase_lru E st ct c) h.
Proof.
  unfold h_erase_lru. apply spends_bind; [apply spends_lift|apply steady_lift, silent_list_front|]. intros p h1 _.
  apply spends_bind; [apply spends_lift|apply steady_lift, silent_deref|]. intros n h2 _.
  apply spends_last; [apply spends_search|]. intros i h3. destruct i; [apply spends_erase_it|sp].
Qed.
Lemma erase_lru_calm c h : exists s t, h_erase_lru E st ct c h = counted s t (erase_lru E c (h_world h)).
Proof.
  destruct (follows_erase_lru E st ct (Q := fun _ => True) c (h := h) I) as [(s & t & _ & _ & X)|[X|X]]; eauto.
  - destruct X as (n & i & h' & X & _). rewrite Cs in X. discriminate.
  - destruct X as (n & i & X & _). rewrite Cc in X. discriminate.
Qed.
Lemma spends_loop c n l : forall fuel h x s a, length l <= fuel -> at_ (h_world h) c x s -> rep E x s a l ->
  spends (length l - n) (h_erase_lru_while E st ct fuel c n) h.
Proof.
  induction l as [|cl l IH]; intros fuel h x s a L A R; pose proof (rep_size (rp_store R)) as SZ.
  - replace (length (@nil (@cell K V)) - n) with 0 by (simpl; lia).
    destruct fuel; simpl; (apply spends_bind; [apply spends_lift|apply steady_lift, silent_size|]);
      intros sz h1 X; apply lift_val in X; rewrite (size_ev A), SZ in X; inversion X; subst sz;
      (destruct (Nat.ltb_spec n 0); [lia|sp]).
  - destruct fuel as [|fuel]; [simpl in L; lia|]. cbn [h_erase_lru_while].
    apply spends_bind; [apply spends_lift|apply steady_lift, silent_size|].
    intros sz h1 X. apply lift_val in X. rewrite (size_ev A), SZ in X. inversion X; subst sz. rewrite H1 in *. clear X.
    simpl length. destruct (Nat.ltb_spec n (S (length l))) as [B|B].
    + destruct (erase_lru_ev G A R) as (s1 & w1 & E1 & C1 & R1).
      destruct (erase_lru_calm c h1) as (a1 & b1 & EC). rewrite E1 in EC. simpl in EC.
      simpl length in *. replace (S (length l) - n) with (1 + (length l - n)) by lia.
      apply spends_then; [apply spends_erase_lru|intros e h'; rewrite EC; discriminate|].
      intros u h2 Y. rewrite EC in Y. inversion Y; subst h2. eapply IH; [lia| |exact R1].
      simpl. eapply chg_at; eauto. apply erased_rid.
    + replace (S (length l) - n) with 0 by lia. sp.
Qed.

(** *** Whole calls *)
Lemma counted_searched o h n : reachable E (h_world h) -> searching o = true ->
  spends n (h_exec E st ct o) h -> searched h (h_exec E st ct o h) n.
Proof.
  intros R S X. destruct (calm_exec G h Cs Cc S) as (s & t & _ & Y).
  destruct (reach_rel G R) as (aw & Rl). assert (CF : copy_free o = true) by (destruct o; try discriminate; auto).
  destruct (exec_step G Rl CF) as (ch & Z). pose proof (step_safe ch o (awf_rel Rl)) as A.
  unfold spends in X. unfold searched. rewrite Y in *.
  destruct (exec E o (h_world h)) as [r w'|e w'|u|e]; simpl in *; auto.
  - destruct (astep E ch o aw); simpl in *; try easy. subst u0.
    destruct A as [(c & -> & _)|(c & k & -> & _)]; discriminate.
  - destruct (astep E ch o aw); simpl in *; try easy. subst e0.
    destruct A as (-> & c & a & [-> | ->] & _); discriminate.
Qed.
Lemma spends_exec n o h : well_formed (h_world h) o = true -> spends n (h_body E st ct o) h -> spends n (h_exec E st ct o) h.
Proof. intros W X. unfold spends, h_exec in *. rewrite W. auto. Qed.

Lemma makes_ok c l cap o j h : reachable E (h_world h) -> contents E c (h_world h) l -> capacity_is E c (h_world h) cap ->
  makes E c l cap o j -> searched h (h_exec E st ct o h) j.
Proof.
  intros R C N M. 
  assert (AL : alive (h_world h) c = true).
  { unfold contents, exec in C. cbn [well_formed] in C. destruct (alive (h_world h) c); auto. discriminate. }
  destruct (open_cache G R C) as (aw & a & Rl & Ha & ->). destruct (rel_get _ Rl Ha) as (x & s & cl & At & Rp).
  assert (SZ : sized c (h_world h) cap (length cl)).
  { exists x, s. split; auto. rewrite (rp_cap Rp), (capacity_inv Rl Ha N), (rep_size (rp_store Rp)). auto. }
  assert (LEN : length (map pair_of (a_ents a)) = length cl).
  { rewrite map_length, (rp_ents Rp). unfold ents. apply map_length. }
  pose proof (fun k => map_find_ev G k At (rp_store Rp)) as MF.
  assert (LK : forall k, is_some (look E k (map pair_of (a_ents a))) = is_some (find_cell E k cl)).
  { intros k. rewrite look_map, (rp_ents Rp), find_cell_ents. destruct (find_cell E k cl); auto. }
  assert (INS : forall k v o, o = Insert c k v \/ o = Emplace c k v ->
    searched h (h_exec E st ct o h) (insertion cap (length cl) (is_some (look E k (map pair_of (a_ents a)))))).
  { intros k v o' [-> | ->]; apply counted_searched; auto; (apply spends_exec; [auto|]); cbn [h_body];
      (apply spends_last; [|intros; sp]); rewrite LK.
    - pose proof (spends_insert v SZ (MF k)) as X. destruct (find_cell E k cl); exact X.
    - pose proof (spends_emplace v SZ (MF k)) as X. destruct (find_cell E k cl); exact X. }
  assert (LE : length cl <= cap). { rewrite <- (capacity_inv Rl Ha N). apply Rp. }
  destruct M as [k|k o A L|k|k v o O Z|k v o O F|k v o O F Z|k v o O F Z P| |m P|m].
  - apply counted_searched; auto. apply spends_exec; auto. cbn [h_body]. apply spends_last; [apply spends_find|intros; sp].
  - pose proof (not_last G R C L) as NL.
    destruct A as [ | |v]; (apply counted_searched; auto); (apply spends_exec; auto); cbn [h_body].
    + apply spends_last; [exact (spends_contains NL)|intros; sp].
    + apply spends_last; [exact (spends_lookup NL)|intros; sp].
    + apply spends_last; [exact (spends_lookup NL)|intros; sp].
  - apply counted_searched; auto. apply spends_exec; auto. cbn [h_body]. apply spends_last; [apply spends_erase_key|intros; sp].
  - specialize (INS k v o O). unfold insertion in INS. subst cap. exact INS.
  - specialize (INS k v o O). unfold insertion in INS.
    destruct (look E k (map pair_of (a_ents a))) as [p|] eqn:LL; [|congruence]. simpl in INS.
    destruct (Nat.eqb_spec cap 0) as [->|]; auto.
    destruct cl; simpl in LE; [|lia]. specialize (LK k). rewrite LL in LK. discriminate.
  - specialize (INS k v o O). unfold insertion in INS. rewrite F in INS. simpl in INS. rewrite LEN in Z.
    destruct (Nat.eqb_spec cap 0); [lia|]. destruct (Nat.leb_spec cap (length cl)); [lia|]. auto.
  - specialize (INS k v o O). unfold insertion in INS. rewrite F in INS. simpl in INS. rewrite LEN in Z.
    destruct (Nat.eqb_spec cap 0); [lia|]. destruct (Nat.leb_spec cap (length cl)); [auto|lia].
  - apply counted_searched; auto. apply spends_exec; auto. cbn [h_body]. apply spends_last; [|intros; sp]. unfold h_shrink. change (Nat.eqb 0 0) with true. sp.
  - apply counted_searched; auto. apply spends_exec; auto. cbn [h_body]. rewrite LEN. apply spends_last; [|intros; sp]. unfold h_shrink.
    apply spends_bind; [apply spends_lift|apply steady_lift, silent_size|]. intros sz h1 X.
    apply lift_val in X. rewrite (size_ev At), (rep_size (rp_store Rp)) in X. inversion X; subst sz. rewrite H1 in *.
    destruct (Nat.leb_spec (length cl) m) as [B|B]; [replace (length cl - m) with 0 by lia; sp|].
    destruct (Nat.eqb_spec m 0); [lia|]. eapply spends_loop; eauto.
  - apply counted_searched; auto. apply spends_exec; auto. cbn [h_body]. rewrite LEN. apply spends_last; [|intros; sp]. unfold h_set_capacity.
    apply spends_bind; [apply spends_lift|apply steady_lift, silent_size|]. intros sz h1 X.
    apply lift_val in X. rewrite (size_ev At), (rep_size (rp_store Rp)) in X. inversion X; subst sz. rewrite H1 in *.
    apply spends_last; [|intros; sp]. eapply spends_loop; eauto.
Qed.

(** *** A second access to the same key *)
Lemma hot_eq a k k' e : key_equal E k k' = true -> a_hot_ent E a k = Some e -> a_hot_ent E a k' = Some e.
Proof.
  intros Q X. destruct (hot_split X) as (Hh & Q1 & l & L). unfold a_hot_ent. rewrite Hh, L, last_ent_app.
  rewrite (@good_trans _ _ _ G k' k (e_key e)); auto. rewrite (good_sym G). auto.
Qed.
Lemma bump_hot_ent k e a : key_equal E k (e_key e) = true -> a_hot_ent E (bump E k e a) k = Some e.
Proof. intros Q. unfold a_hot_ent. simpl. rewrite last_ent_app, Q. auto. Qed.
Lemma finds_hot c k o w r w1 : reachable E w -> exec E o w = Val r w1 -> finds c k o r ->
  exists aw1 a1 e, rel E w1 aw1 /\ slot (aw_caches aw1) c = Some a1 /\ a_hot_ent E a1 k = Some e.
Proof.
  intros R X F. destruct (reach_rel G R) as (aw & Rl).
  assert (WF : a_well_formed aw o = true /\ exists a, slot (aw_caches aw) c = Some a).
  { pose proof (rel_alive c Rl) as AE. unfold exec in X.
    assert (W : well_formed w o = alive w c) by (destruct F; reflexivity).
    assert (AW : a_well_formed aw o = a_alive aw c) by (destruct F; reflexivity).
    destruct (well_formed w o) eqn:W1; [|inversion X; subst; inversion F].
    rewrite AW, <- AE, <- W. split; auto. unfold a_alive in AE. destruct (slot (aw_caches aw) c) eqn:Y; eauto. congruence. }
  destruct WF as (WF & a & Ha).
  assert (T : target o = Some c) by (destruct F; reflexivity).
  assert (P : plain o = true) by (destruct F; reflexivity).
  pose proof (local_call G Rl P T Ha WF) as Y.
  assert (DONE : forall a1 x m e, (exists w', exec E o w = Val r w' /\ rel E w' (awith c a1 (noted E a x (ticks m aw)))) ->
    a_hot_ent E a1 k = Some e ->
    exists aw1 a1 e, rel E w1 aw1 /\ slot (aw_caches aw1) c = Some a1 /\ a_hot_ent E a1 k = Some e).
  { intros a1 x m e (w' & X' & R') Hh. rewrite X in X'. inversion X'; subst w'.
    exists (awith c a1 (noted E a x (ticks m aw))), a1, e. split; auto. split; auto. apply get_after; auto. }
  assert (LQ : forall e, lookup_ent E k (a_ents a) = Some e -> key_equal E k (e_key e) = true).
  { intros e LE. apply find_some in LE. tauto. }
  assert (SN : forall k1 v t, key_equal E k k1 = true -> a_cap a <> 0 ->
     a_hot_ent E (set_ents (lastn (a_cap a) (a_ents a ++ [Ent k1 v t])) true a) k = Some (Ent k1 v t)).
  { intros k1 v t Q N. unfold a_hot_ent. simpl. rewrite lastn_snoc, last_ent_app by auto. simpl. rewrite Q. auto. }
  assert (INS : forall v t b e, (fst (fst (insert_c E k v t a)), option_map pair_of (snd (fst (insert_c E k v t a)))) = (b, Some e) ->
     exists e', a_hot_ent E (snd (insert_c E k v t a)) k = Some e').
  { intros v t b e. unfold insert_c. destruct (Nat.eqb_spec (a_cap a) 0); [discriminate|].
    destruct (lookup_ent E k (a_ents a)) as [e0|] eqn:LE; simpl; intros _.
    - eexists. apply bump_hot_ent. simpl. auto.
    - eexists. apply SN; auto. apply (good_refl G). }
  destruct F; cbn [local] in Y.
  - destruct Y as (w' & Y & R'). rewrite X in Y. inversion Y; subst.
    match type of R' with rel _ _ (awith _ (snd (insert_c _ _ _ ?t _)) _) =>
      destruct (INS v t (fst (fst (insert_c E k v t a))) e) as (e' & HE); [f_equal; auto|] end.
    eapply DONE; [eexists; split; [exact X|exact R']|exact HE].
  - destruct Y as (w' & Y & R'). rewrite X in Y. inversion Y; subst.
    match type of R' with rel _ _ (awith _ (snd (insert_c _ _ _ ?t _)) _) =>
      destruct (INS v t (fst (fst (insert_c E k v t a))) e) as (e' & HE); [f_equal; auto|] end.
    eapply DONE; [eexists; split; [exact X|exact R']|exact HE].
  - unfold l_find in Y. destruct (lookup_ent E k (a_ents a)) as [e0|] eqn:LE.
    + destruct (stale E (a_ttl a) e0 (aw_reads aw)); cbn [then_] in Y; destruct Y as (w' & Y & R'); rewrite X in Y; inversion Y; subst.
      eapply DONE; [eexists; split; [exact X|exact R']|]. apply bump_hot_ent. auto.
    + cbn [then_] in Y. destruct Y as (w' & Y & R'). rewrite X in Y. inversion Y.
  - unfold l_contains in Y. destruct (a_hot_ent E a k) as [e|] eqn:HE; [|destruct (lookup_ent E k (a_ents a)) as [e0|] eqn:LE].
    + destruct (stale E (a_ttl a) e (aw_reads aw)); cbn [then_] in Y; destruct Y as (w' & Y & R'); rewrite X in Y; inversion Y; subst.
      eapply DONE; [eexists; split; [exact X|exact R']|exact HE].
    + destruct (stale E (a_ttl a) e0 (aw_reads aw)); cbn [then_] in Y; destruct Y as (w' & Y & R'); rewrite X in Y; inversion Y; subst.
      eapply DONE; [eexists; split; [exact X|exact R']|]. apply bump_hot_ent. auto.
    + cbn [then_] in Y. destruct Y as (w' & Y & R'). rewrite X in Y. inversion Y.
  - unfold l_lookup in Y. destruct (a_hot_ent E a k) as [e|] eqn:HE; [|destruct (lookup_ent E k (a_ents a)) as [e0|] eqn:LE].
    + destruct (stale E (a_ttl a) e (aw_reads aw)); cbn [then_] in Y; destruct Y as (w' & Y & R'); rewrite X in Y; inversion Y; subst.
      eapply DONE; [eexists; split; [exact X|exact R']|exact HE].
    + destruct (stale E (a_ttl a) e0 (aw_reads aw)); [|destruct (stale E (a_ttl a) e0 (tkn a + aw_reads aw))];
        cbn [then_] in Y; destruct Y as (w' & Y & R'); rewrite X in Y; inversion Y; subst.
      eapply DONE; [eexists; split; [exact X|exact R']|]. apply bump_hot_ent. auto.
    + cbn [then_] in Y. destruct Y as (w' & Y & R'). rewrite X in Y. inversion Y.
  - assert (WR : forall (a1 : acache K V) (e : entry K V), a_hot a1 = true -> key_equal E k (e_key e) = true ->
      a_hot_ent E (set_ents (remove_ent E k (a_ents a1) ++ [Ent (e_key e) v (e_time e)]) (a_hot a1) a1) k = Some (Ent (e_key e) v (e_time e))).
    { intros a1 e Hh Q. unfold a_hot_ent. simpl. rewrite Hh, last_ent_app. simpl. rewrite Q. auto. }
    unfold l_lookup in Y. destruct (a_hot_ent E a k) as [e|] eqn:HE; [|destruct (lookup_ent E k (a_ents a)) as [e0|] eqn:LE].
    + destruct (hot_split HE) as (Hh & Q & _).
      destruct (stale E (a_ttl a) e (aw_reads aw)); destruct Y as (w' & Y & R'); rewrite X in Y; inversion Y; subst.
      eapply DONE; [eexists; split; [exact X|exact R']|]. apply WR; auto.
    + destruct (stale E (a_ttl a) e0 (aw_reads aw)); [|destruct (stale E (a_ttl a) e0 (tkn a + aw_reads aw))];
        destruct Y as (w' & Y & R'); rewrite X in Y; inversion Y; subst.
      eapply DONE; [eexists; split; [exact X|exact R']|]. apply (WR (bump E k e0 a) e0); auto.
    + destruct Y as (w' & Y & R'). rewrite X in Y. inversion Y.
Qed.

Lemma once c k o h r h1 k' o2 : reachable E (h_world h) -> h_exec E st ct o h = Val r h1 -> finds c k o r ->
  key_equal E k k' = true -> accesses c k' o2 -> searched h1 (h_exec E st ct o2 h1) 0.
Proof.
  intros R X F Q A.
  assert (S : searching o = true) by (destruct F; auto).
  pose proof (calm_forget G h Cs Cc S) as Y. rewrite X in Y. simpl in Y. symmetry in Y.
  destruct (finds_hot R Y F) as (aw1 & a1 & e & R1 & H1 & HE).
  assert (RE : reachable E (h_world h1)).
  { eapply reachable_step; [exact R| |exact Y]. destruct F; auto. }
  apply (hot_eq Q) in HE. destruct (rel_get _ R1 H1) as (x & s & cl & At & Rp).
  assert (L : last_is E c k' (h_world h1) = Val true (h_world h1)).
  { rewrite (last_is_ev k' At Rp). rewrite (hot_cell_ent k' Rp) in HE. destruct (hot_cell E a1 cl k'); auto. discriminate. }
  assert (AL : alive (h_world h1) c = true).
  { rewrite (rel_alive _ R1). eapply slot_alive; eauto. }
  destruct A as [ | |v]; (apply counted_searched; auto); (apply spends_exec; auto); cbn [h_body].
  - apply spends_last; [exact (spends_contains L)|intros; sp].
  - apply spends_last; [exact (spends_lookup L)|intros; sp].
  - apply spends_last; [exact (spends_lookup L)|intros; sp].
Qed.

(** At most one search. *)
Lemma at_most_once c k o h : reachable E (h_world h) -> accesses c k o ->
  exists n, n <= 1 /\ searched h (h_exec E st ct o h) n.
Proof.
  intros R A. destruct (alive (h_world h) c) eqn:AL.
  - destruct (reach_rel G R) as (aw & Rl). rewrite (rel_alive _ Rl) in AL. destruct (alive_get AL) as (a & Ha).
    rewrite <- (rel_alive _ Rl) in AL.
    destruct (rel_get _ Rl Ha) as (x & s & cl & At & Rp). pose proof (last_is_ev k At Rp) as L.
    exists (if match hot_cell E a cl k with Some _ => true | None => false end then 0 else 1). split; [destruct (hot_cell E a cl k); lia|].
    destruct A as [ | |v]; (apply counted_searched; auto); (apply spends_exec; auto); cbn [h_body].
    + apply spends_last; [exact (spends_contains L)|intros; sp].
    + apply spends_last; [exact (spends_lookup L)|intros; sp].
    + apply spends_last; [exact (spends_lookup L)|intros; sp].
  - exists 0. split; auto. assert (W : well_formed (h_world h) o = alive (h_world h) c) by (destruct A; reflexivity).
    unfold h_exec. rewrite W, AL. simpl. auto.
Qed.
End Cost.
