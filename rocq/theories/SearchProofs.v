(** Searches: the instrumented functions against those of Model.v. *)
From Coq Require Import List Arith ZArith Bool Lia Permutation.
Import ListNotations.
From Verif Require Import Monad Types Model Api Spec Ref Lists SimBase SimRel Searches SpecSearches.
Set Implicit Arguments.
Unset Strict Implicit.
Local Open Scope cpp_scope.

Section Follow.
Context {K V : Type}.
Variable E : env K V.
Variables st ct : nat -> option nat.
Notation world := (world K V).
Notation H := (M (hworld K V)).
Notation MM := (M world).
Implicit Types Q : world -> Prop.

Definition counted {A} (s t : nat) (r : res world A) : res (hworld K V) A :=
  match r with
  | Val a w => Val a (MkH s t w)
  | Exc e w => Exc e (MkH s t w)
  | Undef u => Undef u
  | Term e => Term e
  end.

(** The instrumented function does what the function does, or a search throws in
    a world satisfying [Q], or a comparison ends the program. *)
Definition follows {A} (Q : world -> Prop) (mh : H A) (m : MM A) (h : hworld K V) : Prop :=
  (exists s t, h_searches h <= s /\ h_compares h <= t /\ mh h = counted s t (m (h_world h))) \/
  (exists n i h', st i = Some n /\ h_searches h <= i /\ h_searches h' = S i /\ mh h = Exc (UserExn n) h' /\ Q (h_world h')) \/
  (exists n i, ct i = Some n /\ h_compares h <= i /\ mh h = Term (UserExn n)).

Lemma follows_bind {A B} Q (mh : H A) (m : MM A) (kh : A -> H B) (k : A -> MM B) h :
  follows Q mh m h -> (forall a s t w', m (h_world h) = Val a w' -> follows Q (kh a) (k a) (MkH s t w')) ->
  follows Q (bind mh kh) (bind m k) h.
Proof.
  intros [(s & t & Ls & Lt & X)|[(n & i & h' & X1 & L1 & L2 & X & X2)|(n & i & X1 & L1 & X)]] Y.
  - destruct (m (h_world h)) as [a w'|e w'|u|e] eqn:Q1; simpl in X.
    + destruct (Y a s t w' eq_refl) as [(s' & t' & Ls' & Lt' & Z)|[Z|Z]].
      * left. exists s', t'. simpl in *. split; [lia|]. split; [lia|]. unfold bind. rewrite X, Q1. auto.
      * right. left. destruct Z as (n & i & h' & Z1 & L3 & L4 & Z2 & Z3). exists n, i, h'. simpl in *.
        split; auto. split; [lia|]. unfold bind. rewrite X. auto.
      * right. right. destruct Z as (n & i & Z1 & L3 & Z2). exists n, i. simpl in *. split; auto. split; [lia|].
        unfold bind. rewrite X. auto.
    + left. exists s, t. unfold bind. rewrite X, Q1. auto.
    + left. exists s, t. unfold bind. rewrite X, Q1. auto.
    + left. exists s, t. unfold bind. rewrite X, Q1. auto.
  - right. left. exists n, i, h'. unfold bind. rewrite X. auto.
  - right. right. exists n, i. unfold bind. rewrite X. auto.
Qed.
Lemma follows_lift {A} Q (m : MM A) h : follows Q (lift m) m h.
Proof.
  left. exists (h_searches h), (h_compares h). repeat split; auto.
Qed.
Lemma follows_ret {A} Q (a : A) h : follows Q (ret a) (ret a) h.
Proof. left. exists (h_searches h), (h_compares h). destruct h; auto. Qed.
Lemma follows_throw {A} Q e h : follows Q (@throw _ A e) (throw e) h.
Proof. left. exists (h_searches h), (h_compares h). destruct h; auto. Qed.
Lemma follows_undef {A} Q u h : follows Q (@undef _ A u) (undef u) h.
Proof. left. exists (h_searches h), (h_compares h). auto. Qed.
Lemma follows_search {A} Q (m : MM A) h : Q (h_world h) -> follows Q (search st;;; lift m) m h.
Proof.
  intros HQ. destruct (st (h_searches h)) as [n|] eqn:X.
  - right. left. exists n, (h_searches h). eexists. unfold bind, search. rewrite X.
    split; auto. split; auto. split; [|split; [reflexivity|]]; auto.
  - left. exists (S (h_searches h)), (h_compares h). unfold bind, search. rewrite X. unfold lift. simpl.
    repeat split; auto.
Qed.
Lemma follows_map_find Q c k h : Q (h_world h) -> follows Q (h_map_find E st c k) (map_find E c k) h.
Proof. apply follows_search. Qed.
Lemma follows_map_emplace Q c n h : Q (h_world h) -> follows Q (h_map_emplace E st c n) (map_emplace E c n) h.
Proof. apply follows_search. Qed.
Lemma follows_map_erase Q c k h : Q (h_world h) -> follows Q (h_map_erase_key E st c k) (map_erase_key E c k) h.
Proof. apply follows_search. Qed.

Lemma follows_last_is Q c k h : follows Q (h_last_is E ct c k) (last_is E c k) h.
Proof.
  unfold h_last_is, last_is. apply follows_bind; [apply follows_lift|]. intros x s t w' _.
  destruct (c_last x) as [p|]; [|apply follows_ret]. destruct (ct t) as [n|] eqn:X.
  - right. right. exists n, t. unfold noexcept, bind, compare. simpl. rewrite X. auto.
  - left. exists s, (S t). simpl. split; auto. split; [lia|].
    unfold noexcept, bind, compare. simpl. rewrite X. unfold lift. simpl.
    assert (D : forall e w1, deref p w' <> Exc e w1).
    { intros e w1. unfold deref, bind, get_store. destruct (slot (w_stores w') (fst p)) as [s0|]; [|discriminate].
      destruct (assoc (snd p) (s_map s0)); discriminate. }
    destruct (deref p w') as [n w1|e w1|u|e] eqn:Y; simpl; eauto.
    exfalso. eapply D; eauto.
Qed.

Ltac fol := repeat match goal with
  | |- follows _ (bind _ _) (bind _ _) _ => apply follows_bind; [|intros]
  | |- follows _ (lift _) _ _ => apply follows_lift
  | |- follows _ (ret _) _ _ => apply follows_ret
  | |- follows _ (throw _) _ _ => apply follows_throw
  | |- follows _ (undef _) _ _ => apply follows_undef
  | |- follows _ (h_last_is _ _ _ _) _ _ => apply follows_last_is
  | |- follows _ (match ?x with _ => _ end) _ _ => destruct x
  | |- follows _ (if ?x then _ else _) _ _ => destruct x
  end.

Lemma follows_erase_it Q c i h : follows Q (h_erase_it E ct c i) (erase_it E c i) h.
Proof. unfold h_erase_it, erase_it. fol. Qed.

(** Functions that do not change the world. *)
Definition pure {A} (m : MM A) : Prop := forall w a w', m w = Val a w' -> w' = w.
Lemma pure_bind {A B} (m : MM A) (k : A -> MM B) : pure m -> (forall a, pure (k a)) -> pure (bind m k).
Proof.
  intros P Q w a w' X. unfold bind in X. destruct (m w) eqn:Y; try discriminate. apply P in Y. subst. eapply Q; eauto.
Qed.
Lemma pure_ret {A} (a : A) : pure (ret a). Proof. intros w b w' X. inversion X; auto. Qed.
Lemma pure_undef {A} u : pure (@undef world A u). Proof. intros w b w' X. discriminate. Qed.
Lemma pure_get_cache c : pure (@get_cache K V c).
Proof. intros w a w' X. unfold get_cache in X. destruct (slot (w_caches w) c); inversion X; auto. Qed.
Lemma pure_get_store c : pure (@get_store K V c).
Proof. intros w a w' X. unfold get_store in X. destruct (slot (w_stores w) c); inversion X; auto. Qed.
Ltac pur := repeat match goal with
  | |- pure (bind _ _) => apply pure_bind; [|intros]
  | |- pure (ret _) => apply pure_ret
  | |- pure (undef _) => apply pure_undef
  | |- pure (get_cache _) => apply pure_get_cache
  | |- pure (get_store _) => apply pure_get_store
  | |- pure (match ?x with _ => _ end) => destruct x
  end.
Lemma pure_own c : pure (@own K V c). Proof. unfold own. pur. Qed.
Lemma pure_deref p : pure (@deref K V p). Proof. unfold deref. pur. Qed.
Lemma pure_capacity c : pure (@capacity K V c). Proof. unfold capacity. pur. Qed.
Lemma pure_size c : pure (@size K V c). Proof. unfold size, map_size. pur. apply pure_own. Qed.
Lemma pure_map_find c k : pure (map_find E c k). Proof. unfold map_find. pur. apply pure_own. Qed.
Lemma pure_last_is c k : pure (last_is E c k). Proof. unfold last_is. pur. apply pure_deref. Qed.
Lemma pure_last_ptr c : pure (@last_ptr K V c). Proof. unfold last_ptr. pur. Qed.
Lemma pure_list_front c : pure (@list_front K V c). Proof. unfold list_front. pur. apply pure_own. Qed.
Lemma pure_too_full c : pure (@is_too_full K V c).
Proof. unfold is_too_full. pur. apply pure_size. apply pure_capacity. Qed.

Definition at_start (h : hworld K V) : world -> Prop := fun w => w = h_world h.
Lemma follows_find c k h : follows (at_start h) (h_find E st c k) (find E c k) h.
Proof.
  unfold h_find, find. apply follows_bind; [apply follows_lift|]. intros x s t w' X. apply pure_get_cache in X. subst w'.
  destruct (c_ttl x).
  - apply follows_bind; [apply follows_map_find; reflexivity|]. intros. fol.
  - apply follows_bind; [apply follows_map_find; reflexivity|]. intros. fol.
Qed.
Lemma at_same Q s t h : Q = at_start h -> Q = at_start (MkH s t (h_world h)).
Proof. intros ->. reflexivity. Qed.
Lemma follows_contains c k h : follows (at_start h) (h_contains E st ct c k) (contains E c k) h.
Proof.
  unfold h_contains, contains. apply follows_bind; [apply follows_last_is|]. intros b s t w' X. apply pure_last_is in X. subst w'.
  destruct b; [fol|]. apply follows_bind; [|intros; fol]. apply (follows_find c k (MkH s t (h_world h))).
Qed.
Lemma follows_lookup c k h : follows (at_start h) (h_lookup E st ct c k) (lookup E c k) h.
Proof.
  unfold h_lookup, lookup. apply follows_bind; [apply follows_last_is|]. intros b s t w' X. apply pure_last_is in X. subst w'.
  destruct b; [fol|]. apply follows_bind; [|intros; fol]. apply (follows_find c k (MkH s t (h_world h))).
Qed.

(** Erasure: of the last accessed key, or of another one. *)
Lemma follows_erase_key_any Q c k h : (forall w, Q w) -> follows Q (h_erase_key E st ct c k) (erase_key E c k) h.
Proof.
  intros T. unfold h_erase_key, erase_key, h_erase_key_info, erase_key_info.
  fol; auto using follows_map_find, follows_map_erase, follows_erase_it.
Qed.
Lemma follows_erase_key c k h : last_is E c k (h_world h) = Val false (h_world h) ->
  follows (at_start h) (h_erase_key E st ct c k) (erase_key E c k) h.
Proof.
  intros L. unfold h_erase_key, erase_key. apply follows_bind; [apply follows_last_is|]. intros b s t w' X.
  rewrite L in X. inversion X; subst. apply follows_bind; [apply follows_map_find; reflexivity|]. intros. fol.
  apply follows_erase_it.
Qed.

(** Insertion. *)
Lemma follows_new_key Q c p h : (forall w, Q w) \/ is_too_full c (h_world h) = Val false (h_world h) ->
  follows Q (h_insert_new_key E st c p) (insert_new_key E c p) h.
Proof.
  intros T. unfold h_insert_new_key, insert_new_key. apply follows_bind; [apply follows_lift|]. intros b s t w' X.
  apply follows_bind; [|intros; fol]. destruct b; [|fol]. destruct T as [T|T]; [|rewrite T in X; discriminate].
  unfold h_evict_lru_for, evict_lru_for. fol. apply follows_map_erase. auto.
Qed.

Variable G : good E.
Lemma unchanged_refl w : unchanged (K := K) (V := V) w w. Proof. unfold unchanged. auto. Qed.
Lemma timestamp_unchanged c w z w' : timestamp E c w = Val z w' -> unchanged w w'.
Proof.
  unfold timestamp, bind, get_cache. destruct (slot (w_caches w) c); [|discriminate].
  destruct (c_ttl c0); intros X; inversion X; subst; unfold unchanged; simpl; auto.
Qed.
Lemma fallible_unchanged w u w' : fallible E w = Val u w' -> unchanged w w'.
Proof. unfold fallible. destruct (fails E (w_steps w)); intros X; inversion X; subst. unfold unchanged; simpl; auto. Qed.
Lemma unchanged_trans w1 w2 w3 : unchanged (K := K) (V := V) w1 w2 -> unchanged w2 w3 -> unchanged w1 w3.
Proof. unfold unchanged. intros (A & B & C & D) (A' & B' & C' & D'). repeat split; congruence. Qed.

(** Room for the new element, in whatever world the map has it. *)
Definition room (c : nat) (w : world) : Prop :=
  exists x s, at_ w c x s /\ length (s_map s) < c_cap x.
Lemma room_unchanged c w w' : unchanged w w' -> room c w -> room c w'.
Proof.
  intros (A & B & _) (x & s & At & L). exists x, s. split; auto. unfold at_ in *. rewrite A, B. auto.
Qed.
Lemma room_emplaced c w n i f w' : room c w -> map_emplace E c n w = Val (i, f) w' ->
  is_too_full c w' = Val false w'.
Proof.
  intros (x & s & At & L) X. unfold map_emplace in X. rewrite (bind_val _ _ _ (own_ev At)) in X.
  destruct (node_with E (n_key n) (s_map s)) as [(j & m)|].
  - inversion X; subst. unfold is_too_full. rewrite (bind_val _ _ _ (size_ev At)).
    rewrite (bind_val _ _ _ (capacity_ev _ _ (proj1 At))). destruct (Nat.ltb_spec (c_cap x) (length (s_map s))); [lia|auto].
  - rewrite (bind_val _ _ _ (fallible_tick G w)) in X. unfold put_store, bind, modify in X. inversion X; subst.
    match goal with |- is_too_full c ?w1 = _ => set (w1' := w1) end.
    assert (At' : at_ w1' c x (MkStore (place E (s_map s) (s_next s, n)) (s_ord s) (S (s_next s))
                                (if rehash E s then S (s_epoch s) else s_epoch s))).
    { exact (@at_setS K V (tick w) c x s _ At). }
    unfold is_too_full. rewrite (bind_val _ _ _ (size_ev At')). rewrite (bind_val _ _ _ (capacity_ev _ _ (proj1 At'))).
    simpl. rewrite (Permutation_length (good_place G (s_map s) (s_next s, n))). simpl.
    destruct (Nat.ltb_spec (c_cap x) (S (length (s_map s)))); [lia|auto].
Qed.

Lemma follows_insert Q c k v h : (forall w', unchanged (h_world h) w' -> Q w') ->
  (forall w, Q w) \/ room c (h_world h) \/ (exists i, map_find E c k (h_world h) = Val (Some i) (h_world h)) ->
  follows Q (h_insert E st c k v) (insert E c k v) h.
Proof.
  intros HQ T. unfold h_insert, insert. apply follows_bind; [apply follows_lift|]. intros cap s t w' X.
  apply pure_capacity in X. subst w'. destruct (Nat.eqb cap 0); [fol|].
  apply follows_bind; [apply follows_map_find; apply HQ, unchanged_refl|]. intros i s1 t1 w1 X.
  pose proof (pure_map_find X) as X0. simpl in X0. subst w1. destruct i as [i|]; [fol|].
  apply follows_bind; [apply follows_lift|]. intros z s2 t2 w2 Z. apply timestamp_unchanged in Z.
  apply follows_bind; [apply follows_map_emplace; apply HQ; auto|]. intros (i, fresh) s3 t3 w3 Y.
  apply follows_bind; [fol|]. intros u s4 t4 w4 U.
  assert (w4 = w3) by (destruct fresh; inversion U; auto). subst w4.
  apply follows_bind; [|intros; fol]. apply follows_new_key. destruct T as [T|[T|(i' & T)]]; auto.
  - right. eapply room_emplaced; [|exact Y]. eapply room_unchanged; eauto.
  - simpl in X. rewrite T in X. discriminate.
Qed.
Lemma follows_emplace Q c k v h : (forall w', unchanged (h_world h) w' -> Q w') ->
  (forall w, Q w) \/ room c (h_world h) \/ (exists i, map_find E c k (h_world h) = Val (Some i) (h_world h)) ->
  follows Q (h_emplace E st c k v) (emplace E c k v) h.
Proof.
  intros HQ T. unfold h_emplace, emplace. apply follows_bind; [apply follows_lift|]. intros cap s t w' X.
  apply pure_capacity in X. subst w'. destruct (Nat.eqb cap 0); [fol|].
  apply follows_bind; [apply follows_lift|]. intros u0 s0 t0 w0 F. apply fallible_unchanged in F. simpl in F.
  apply follows_bind; [apply follows_map_find; apply HQ; auto|]. intros i s1 t1 w1 X.
  pose proof (pure_map_find X) as X0. simpl in X0. subst w1. simpl in X. destruct i as [i|]; [fol|].
  apply follows_bind; [apply follows_lift|]. intros z s2 t2 w2 Z. apply timestamp_unchanged in Z. simpl in Z.
  assert (UN : unchanged (h_world h) w2) by (eapply unchanged_trans; eauto).
  apply follows_bind; [apply follows_map_emplace; apply HQ; auto|]. intros (i, fresh) s3 t3 w3 Y.
  apply follows_bind; [|intros; fol]. apply follows_new_key. destruct T as [T|[T|(i' & T)]]; auto.
  - right. eapply room_emplaced; [|exact Y]. eapply room_unchanged; eauto.
  - exfalso. destruct F as (F1 & F2 & _). unfold map_find, own, get_cache, get_store in T, X.
    unfold bind in T, X. rewrite F1 in X. destruct (slot (w_caches (h_world h)) c) as [x|]; [|discriminate]. rewrite F2 in X.
    destruct (slot (w_stores (h_world h)) (c_rid x)) as [s5|]; [|discriminate]. simpl in T, X.
    destruct (node_with E k (s_map s5)) as [(j & m)|]; discriminate.
Qed.

(** Shrinking. *)
Lemma follows_erase_lru Q c h : Q (h_world h) -> follows Q (h_erase_lru E st ct c) (erase_lru E c) h.
Proof.
  intros HQ. unfold h_erase_lru, erase_lru. apply follows_bind; [apply follows_lift|]. intros p s t w' X.
  apply pure_list_front in X. subst. apply follows_bind; [apply follows_lift|]. intros n s1 t1 w1 X.
  apply pure_deref in X. subst. apply follows_bind; [apply follows_map_find; auto|]. intros i s2 t2 w2 X.
  destruct i; [apply follows_erase_it|fol].
Qed.
Lemma follows_loop Q (J : world -> Prop) c n :
  (forall w sz, J w -> size c w = Val sz w -> n < sz -> Q w) ->
  (forall w sz w', J w -> size c w = Val sz w -> n < sz -> erase_lru E c w = Val tt w' -> J w') ->
  forall fuel h, J (h_world h) ->
  follows Q (h_erase_lru_while E st ct fuel c n) (erase_lru_while E fuel c n) h.
Proof.
  intros HQ HJ. induction fuel as [|fuel IH]; intros h L; simpl; (apply follows_bind; [apply follows_lift|]);
    intros sz s t w' X; pose proof (pure_size X); subst w'; destruct (Nat.ltb_spec n sz); try solve [fol].
  apply follows_bind; [apply follows_erase_lru; simpl; eauto|]. intros [] s1 t1 w1 Y. apply IH. simpl in *. eauto.
Qed.
Lemma follows_shrink Q (J : world -> Prop) c n h :
  (forall w sz, J w -> size c w = Val sz w -> n < sz -> Q w) ->
  (forall w sz w', J w -> size c w = Val sz w -> n < sz -> erase_lru E c w = Val tt w' -> J w') ->
  J (h_world h) -> follows Q (h_shrink E st ct c n) (shrink E c n) h.
Proof.
  intros HQ HJ H0. unfold h_shrink, shrink. apply follows_bind; [apply follows_lift|]. intros sz s t w' X.
  apply pure_size in X; subst w'. destruct (Nat.leb sz n); [fol|]. destruct (Nat.eqb n 0); [fol|].
  eapply follows_loop; eauto.
Qed.
Lemma follows_set_capacity Q (J : world -> Prop) c n h :
  (forall w sz, J w -> size c w = Val sz w -> n < sz -> Q w) ->
  (forall w sz w', J w -> size c w = Val sz w -> n < sz -> erase_lru E c w = Val tt w' -> J w') ->
  J (h_world h) -> follows Q (h_set_capacity E st ct c n) (set_capacity E c n) h.
Proof.
  intros HQ HJ H0. unfold h_set_capacity, set_capacity. apply follows_bind; [apply follows_lift|]. intros sz s t w' X.
  apply pure_size in X; subst w'. apply follows_bind; [|intros; fol].
  eapply follows_loop; eauto.
Qed.
End Follow.
