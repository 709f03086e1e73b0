(** Searches: whole calls, and how many searches they make. *)
From Coq Require Import List Arith ZArith Bool Lia Permutation.
Import ListNotations.
From Verif Require Import Monad Types Model Api Spec Ref Lists SimBase SimRel SimOps SimIns SimErase SimIter SimNew SimObs SimExec RefEval SimRun LruProofs CallProofs LruMore Flat Global Safe Frame StatProofs MemoCalls Searches SpecSearches SearchProofs.
Set Implicit Arguments.
Unset Strict Implicit.
Local Open Scope cpp_scope.

Section Main.
Context {K V : Type}.
Variable E : env K V.
Hypothesis G : good E.
Variables st ct : nat -> option nat.
Notation world := (world K V).
Notation H := (M (hworld K V)).
Notation MM := (M world).
Implicit Types Q : world -> Prop.
Notation follows := (follows st ct).

Ltac fol := repeat match goal with
  | |- SearchProofs.follows _ _ _ (bind _ _) (bind _ _) _ => apply follows_bind; [|intros]
  | |- SearchProofs.follows _ _ _ (lift _) _ _ => apply follows_lift
  | |- SearchProofs.follows _ _ _ (ret _) _ _ => apply follows_ret
  end.

(** *** With calm functions, the calls are those of Api.v *)
Lemma follows_body_any o h : searching o = true -> follows (fun _ => True) (h_body E st ct o) (body E o) h.
Proof.
  intros S. destruct o; try discriminate; cbn [h_body body]; fol.
  - apply follows_insert; auto.
  - apply follows_emplace; auto.
  - destruct (follows_find E st ct c k h) as [X|[X|X]]; [left; auto|right; left|right; right; auto].
    destruct X as (n & i & h' & X1 & X2 & X3 & X4 & _). exists n, i, h'. auto.
  - destruct (follows_contains E st ct c k h) as [X|[X|X]]; [left; auto|right; left|right; right; auto].
    destruct X as (n & i & h' & X1 & X2 & X3 & X4 & _). exists n, i, h'. auto.
  - destruct (follows_lookup E st ct c k h) as [X|[X|X]]; [left; auto|right; left|right; right; auto].
    destruct X as (n & i & h' & X1 & X2 & X3 & X4 & _). exists n, i, h'. auto.
  - destruct (follows_lookup E st ct c k h) as [X|[X|X]]; [left; auto|right; left|right; right; auto].
    destruct X as (n & i & h' & X1 & X2 & X3 & X4 & _). exists n, i, h'. auto.
  - apply follows_erase_key_any; auto.
  - apply follows_shrink with (J := fun _ => True); auto.
  - apply follows_set_capacity with (J := fun _ => True); auto.
Qed.

Lemma follows_exec Q o h : follows Q (h_body E st ct o) (body E o) h -> follows Q (h_exec E st ct o) (exec E o) h.
Proof.
  intros F. unfold h_exec, exec, SearchProofs.follows. destruct (well_formed (h_world h) o); auto.
  left. exists (h_searches h), (h_compares h). repeat split; auto. destruct h; auto.
Qed.

Lemma forget_counted {A} s t (r : res world A) : forget (counted s t r) = r.
Proof. destruct r; auto. Qed.

Lemma calm_exec o h : calm st -> calm ct -> searching o = true ->
  exists s t, h_searches h <= s /\ h_exec E st ct o h = counted s t (exec E o (h_world h)).
Proof.
  intros Cs Cc S. destruct (follows_exec (follows_body_any h S)) as [(s & t & L & _ & X)|[X|X]]; eauto.
  - destruct X as (n & i & h' & X & _). rewrite Cs in X. discriminate.
  - destruct X as (n & i & X & _). rewrite Cc in X. discriminate.
Qed.
Lemma calm_forget o h : calm st -> calm ct -> searching o = true ->
  forget (h_exec E st ct o h) = exec E o (h_world h).
Proof. intros Cs Cc S. destruct (calm_exec h Cs Cc S) as (s & t & _ & ->). apply forget_counted. Qed.

(** *** What is left when a search throws *)
Lemma follows_settle Q o h : follows Q (h_body E st ct o) (body E o) h ->
  forget (h_exec E st ct o h) = exec E o (h_world h) \/
  failed st h (h_exec E st ct o h) Q \/ ended ct h (h_exec E st ct o h).
Proof.
  intros F. destruct (follows_exec F) as [(s & t & _ & _ & X)|[(n & i & h' & X)|(n & i & X)]].
  - left. rewrite X. apply forget_counted.
  - right. left. exists i, n, h'. auto.
  - right. right. exists i, n. auto.
Qed.

Lemma follows_weak {A} Q Q' (mh : H A) m h : (forall w, Q w -> Q' w) -> follows Q mh m h -> follows Q' mh m h.
Proof.
  intros I [X|[X|X]]; [left; auto|right; left|right; right; auto].
  destruct X as (n & i & h' & X1 & X2 & X3 & X4 & X5). exists n, i, h'. eauto 10.
Qed.

Lemma look_found w c l k : reachable E w -> contents E c w l -> look E k l <> None ->
  exists i, map_find E c k w = Val (Some i) w.
Proof.
  intros R C L. destruct (open_cache G R C) as (aw & a & Rl & Ha & ->). rewrite look_map in L.
  destruct (rel_get _ Rl Ha) as (x & s & cl & At & Rp). rewrite (rp_ents Rp), find_cell_ents in L.
  rewrite (map_find_ev G k At (rp_store Rp)). destruct (find_cell E k cl); simpl in *; [eauto|congruence].
Qed.
Lemma room_of w c l n : reachable E w -> contents E c w l -> capacity_is E c w n -> length l < n -> room c w.
Proof.
  intros R C N L. destruct (open_cache G R C) as (aw & a & Rl & Ha & ->).
  destruct (rel_get _ Rl Ha) as (x & s & cl & At & Rp). exists x, s. split; auto.
  rewrite (rep_size (rp_store Rp)), (rp_cap Rp), (capacity_inv Rl Ha N).
  rewrite map_length, (rp_ents Rp) in L. unfold ents in L. rewrite map_length in L. auto.
Qed.
Lemma not_last w c l k : reachable E w -> contents E c w l ->
  (forall l' p, l = l' ++ [p] -> key_equal E k (fst p) = false) -> last_is E c k w = Val false w.
Proof.
  intros R C L. destruct (open_cache G R C) as (aw & a & Rl & Ha & ->).
  destruct (rel_get _ Rl Ha) as (x & s & cl & At & Rp). rewrite (last_is_ev k At Rp).
  destruct (hot_cell E a cl k) as [d|] eqn:HC; auto. exfalso.
  assert (HE : a_hot_ent E a k = Some (cl_e d)) by (rewrite (hot_cell_ent k Rp), HC; auto).
  destruct (hot_split HE) as (_ & Q & l0 & X). rewrite X, map_app in L. simpl in L.
  pose proof (L _ _ eq_refl) as L1. simpl in L1. congruence.
Qed.

Lemma early_settles o h : reachable E (h_world h) -> early E (h_world h) o ->
  forget (h_exec E st ct o h) = exec E o (h_world h) \/
  failed st h (h_exec E st ct o h) (unchanged (h_world h)) \/ ended ct h (h_exec E st ct o h).
Proof.
  intros R Y. apply follows_settle.
  assert (U : forall w, at_start h w -> unchanged (h_world h) w) by (intros w ->; apply unchanged_refl).
  destruct Y as [c k|c k o [ | |v]|c k v l n C N L|c k v l n C N L|c k l C L]; cbn [h_body body]; fol.
  - eapply follows_weak; [exact U|apply follows_find].
  - eapply follows_weak; [exact U|apply follows_contains].
  - eapply follows_weak; [exact U|apply follows_lookup].
  - eapply follows_weak; [exact U|apply follows_lookup].
  - apply follows_insert; auto. right. destruct L as [L|L]; [right; eapply look_found; eauto|left; eapply room_of; eauto].
  - apply follows_emplace; auto. right. destruct L as [L|L]; [right; eapply look_found; eauto|left; eapply room_of; eauto].
  - eapply follows_weak; [exact U|]. apply follows_erase_key. eapply not_last; eauto.
Qed.

(** *** Shrinking: the loop stops early *)
Lemma loop_fuel c n l : forall f1 f2 w x s a, length l <= f1 -> length l <= f2 -> at_ w c x s -> rep E x s a l ->
  erase_lru_while E f1 c n w = erase_lru_while E f2 c n w.
Proof.
  induction l as [|cl l IH]; intros f1 f2 w x s a L1 L2 A R; pose proof (rep_size (rp_store R)) as SZ.
  - destruct f1, f2; simpl; rewrite !(bind_val _ _ _ (size_ev A)), SZ; simpl; destruct (Nat.ltb_spec n 0); auto; lia.
  - destruct f1 as [|f1]; [simpl in L1; lia|]. destruct f2 as [|f2]; [simpl in L2; lia|].
    cbn [erase_lru_while]. rewrite !(bind_val _ _ _ (size_ev A)), SZ.
    destruct (Nat.ltb n (length (cl :: l))); auto.
    destruct (erase_lru_ev G A R) as (s1 & w1 & E1 & C1 & R1). rewrite !(bind_val _ _ _ E1).
    simpl in L1, L2. eapply IH; [lia|lia| |exact R1]. eapply chg_at; eauto. apply erased_rid.
Qed.

Definition stage (c : nat) (w0 : world) (F : nat) (w : world) : Prop :=
  exists x s a l, at_ w c x s /\ rep E x s a l /\ length l <= F /\
    forall m, m <= length l -> erase_lru_while E F c m w0 = erase_lru_while E F c m w.
Lemma stage_next c w0 F w w' : stage c w0 F w -> erase_lru E c w = Val tt w' -> (exists sz, size c w = Val (S sz) w) -> stage c w0 F w'.
Proof.
  intros (x & s & a & l & A & R & L & X) Y (sz & Z). rewrite (size_ev A), (rep_size (rp_store R)) in Z.
  destruct l as [|cl l]; [discriminate|]. destruct (erase_lru_ev G A R) as (s1 & w1 & E1 & C1 & R1).
  rewrite E1 in Y. inversion Y; subst w1. exists (erased_cache E a (e_key (cl_e cl)) x), s1, (set_ents (ents l) (hot_after E a (e_key (cl_e cl))) a), l.
  assert (A1 : at_ w' c (erased_cache E a (e_key (cl_e cl)) x) s1) by (eapply chg_at; eauto; apply erased_rid).
  split; auto. split; auto. simpl in L. split; [lia|]. intros m Lm. rewrite X by (simpl; lia).
  destruct F as [|F]; [lia|]. cbn [erase_lru_while]. rewrite (bind_val _ _ _ (size_ev A)), (rep_size (rp_store R)).
  destruct (Nat.ltb_spec m (length (cl :: l))); [|simpl in *; lia]. rewrite (bind_val _ _ _ E1).
  rewrite (@loop_fuel c m l F (S F) w' _ _ _ ltac:(lia) ltac:(lia) A1 R1). reflexivity.
Qed.
Lemma stage_shrink c w0 F w sz aw a0 : rel E w0 aw -> slot (aw_caches aw) c = Some a0 -> F = length (a_ents a0) ->
  stage c w0 F w -> size c w = Val sz w -> 0 < sz -> exec E (Shrink c sz) w0 = Val RUnit w.
Proof.
  intros Rl Ha -> (x & s & a & l & A & R & L & X) Z P. rewrite (size_ev A), (rep_size (rp_store R)) in Z.
  inversion Z; subst sz. clear Z.
  assert (Al : alive w0 c = true).
  { pose proof (contents_of G Rl Ha) as C. unfold contents, exec in C. cbn [well_formed] in C. destruct (alive w0 c); auto. discriminate. }
  unfold exec. cbn [well_formed]. rewrite Al. cbn [body]. unfold shrink.
  destruct (rel_get _ Rl Ha) as (x0 & s0 & l0 & A0 & R0).
  assert (LEN : length (a_ents a0) = length l0) by (rewrite (rp_ents R0); unfold ents; apply map_length).
  pose proof (X (length l) ltac:(lia)) as Y.
  assert (Y2 : erase_lru_while E (length (a_ents a0)) c (length l) w = Val tt w).
  { destruct (length (a_ents a0)); cbn [erase_lru_while]; rewrite (bind_val _ _ _ (size_ev A)), (rep_size (rp_store R)), Nat.ltb_irrefl; auto. }
  rewrite Y2 in Y. clear Y2. rewrite bind_assoc, (bind_val _ _ _ (size_ev A0)), (rep_size (rp_store R0)).
  destruct (Nat.leb_spec (length l0) (length l)) as [LL|LL].
  - assert (E1 : length l = length l0) by lia.
    assert (Y3 : erase_lru_while E (length (a_ents a0)) c (length l) w0 = Val tt w0).
    { destruct (length (a_ents a0)); cbn [erase_lru_while];
        rewrite (bind_val _ _ _ (size_ev A0)), (rep_size (rp_store R0)), E1, Nat.ltb_irrefl; auto. }
    rewrite Y3 in Y. inversion Y; subst. reflexivity.
  - destruct (Nat.eqb_spec (length l) 0); [lia|]. rewrite <- LEN. rewrite (bind_val _ _ _ Y). reflexivity.
Qed.

Lemma shrinking_settles c n h l o : reachable E (h_world h) -> contents E c (h_world h) l ->
  o = Shrink c n \/ o = SetCapacity c n ->
  forget (h_exec E st ct o h) = exec E o (h_world h) \/
  failed st h (h_exec E st ct o h)
    (fun w => exists m, n < m /\ m <= length l /\ exec E (Shrink c m) (h_world h) = Val RUnit w) \/
  ended ct h (h_exec E st ct o h).
Proof.
  intros R C O. apply follows_settle. destruct (open_cache G R C) as (aw & a & Rl & Ha & ->).
  destruct (rel_get _ Rl Ha) as (x & s & cl & A & Rp).
  assert (S0 : stage c (h_world h) (length (a_ents a)) (h_world h)).
  { exists x, s, a, cl. split; auto. split; auto. split; auto. rewrite (rp_ents Rp). unfold ents. rewrite map_length. auto. }
  assert (HQ : forall w sz, stage c (h_world h) (length (a_ents a)) w -> size c w = Val sz w -> n < sz ->
    exists m, n < m /\ m <= length (map pair_of (a_ents a)) /\ exec E (Shrink c m) (h_world h) = Val RUnit w).
  { intros w sz S1 Z L. exists sz. split; auto. split.
    - destruct S1 as (x1 & s1 & a1 & l1 & A1 & R1 & L1 & _). rewrite (size_ev A1), (rep_size (rp_store R1)) in Z.
      inversion Z. rewrite map_length. lia.
    - eapply stage_shrink; eauto. lia. }
  assert (HJ : forall w sz w', stage c (h_world h) (length (a_ents a)) w -> size c w = Val sz w -> n < sz ->
    erase_lru E c w = Val tt w' -> stage c (h_world h) (length (a_ents a)) w').
  { intros w sz w' S1 Z L X. eapply stage_next; eauto. destruct sz; [lia|eauto]. }
  destruct O as [-> | ->]; cbn [h_body body]; fol.
  - eapply follows_shrink; eauto.
  - eapply follows_set_capacity; eauto.
Qed.

Lemma any_settles o h : searching o = true ->
  forget (h_exec E st ct o h) = exec E o (h_world h) \/
  failed st h (h_exec E st ct o h) (fun _ => True) \/ ended ct h (h_exec E st ct o h).
Proof. intros S. apply follows_settle. apply follows_body_any; auto. Qed.
End Main.
