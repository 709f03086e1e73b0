(** Searches: ranges, constructors, copies, comparison, timed caches. *)
From Coq Require Import List Arith ZArith Bool Lia Permutation.
Import ListNotations.
From Verif Require Import Monad Types Model Api Spec Ref Lists SimBase SimRel SimOps SimIns SimErase SimIter SimNew SimObs SimExec RefEval SimRun LruProofs CallProofs LruMore Flat Global Safe Frame StatProofs MemoCalls PairProofs SwapProofs Searches SpecSearches SearchProofs SearchMain SearchCost MoreSearches SpecMoreSearches.
Set Implicit Arguments.
Unset Strict Implicit.
Local Open Scope cpp_scope.

Section More.
Context {K V : Type}.
Variable E : env K V.
Hypothesis G : good E.
Variables st ct : nat -> option nat.
Notation world := (world K V).
Notation hworld := (hworld K V).
Notation H := (M hworld).
Notation MM := (M world).
Implicit Types Q : world -> Prop.
Notation follows := (follows st ct).

Ltac fol := repeat match goal with
  | |- SearchProofs.follows _ _ _ (bind _ _) (bind _ _) _ => apply follows_bind; [|intros]
  | |- SearchProofs.follows _ _ _ (lift _) _ _ => apply follows_lift
  | |- SearchProofs.follows _ _ _ (ret _) _ _ => apply follows_ret
  | |- SearchProofs.follows _ _ _ (throw _) _ _ => apply follows_throw
  | |- SearchProofs.follows _ _ _ (undef _) _ _ => apply follows_undef
  | |- SearchProofs.follows _ _ _ (h_last_is _ _ _ _) _ _ => apply follows_last_is
  | |- SearchProofs.follows _ _ _ (match ?x with _ => _ end) _ _ => destruct x
  | |- SearchProofs.follows _ _ _ (if ?x then _ else _) _ _ => destruct x
  end.

(** ** One by one *)

Lemma pure_denotes c it : pure (@denotes K V c it).
Proof.
  unfold denotes. destruct (u_eq it (unordered_end c)); [apply pure_ret|].
  apply pure_bind.
  - intros w a w' X. unfold u_deref in X. destruct (ui_entry it); [inversion X; auto|].
    destruct (ui_pos it) as [b|i]; [discriminate|].
    unfold bind in X. destruct (deref_it i w) as [n w1|e w1|u|e] eqn:Y; try discriminate.
    assert (P : pure (deref_it (K := K) (V := V) i)).
    { unfold deref_it. apply pure_bind; [apply pure_get_store|]. intros z. destruct (s_epoch z =? snd i); [apply pure_deref|apply pure_undef]. }
    apply P in Y. inversion X; subst; auto.
  - intros (p & it'). apply pure_bind; [|intros; apply pure_ret].
    unfold read_entry. apply pure_bind; [apply pure_deref|intros; apply pure_ret].
Qed.

(** What a returned call says about the call without instruments. *)
Lemma val_follows {A} Q (mh : H A) (m : MM A) h a h1 : follows Q mh m h -> mh h = Val a h1 -> m (h_world h) = Val a (h_world h1).
Proof.
  intros [(s & t & _ & _ & X)|[(n & i & h' & _ & _ & _ & X & _)|(n & i & _ & _ & X)]] Y; rewrite X in Y; try discriminate.
  destruct (m (h_world h)); inversion Y; subst; auto.
Qed.
Definition puts c (f : K * V -> op K V) : Prop :=
  f = (fun p => Insert c (fst p) (snd p)) \/ f = (fun p => Emplace c (fst p) (snd p)).

Lemma put_step w aw c a f p : rel E w aw -> slot (aw_caches aw) c = Some a -> puts c f ->
  exists b e w', exec E (f p) w = Val (RIns b e) w' /\
    rel E w' (awith c (snd (insert_c E (fst p) (snd p) (stamp E a aw) a)) (insert_tk E (fst p) a aw)) /\
    slot (aw_caches (awith c (snd (insert_c E (fst p) (snd p) (stamp E a aw) a)) (insert_tk E (fst p) a aw))) c =
      Some (snd (insert_c E (fst p) (snd p) (stamp E a aw) a)).
Proof.
  intros R Ha F.
  assert (X : aexec E 0 (f p) aw =
       Val (RIns (fst (fst (insert_c E (fst p) (snd p) (stamp E a aw) a)))
                 (option_map pair_of (snd (fst (insert_c E (fst p) (snd p) (stamp E a aw) a)))))
           (awith c (snd (insert_c E (fst p) (snd p) (stamp E a aw) a)) (insert_tk E (fst p) a aw))).
  { destruct F as [-> | ->]; unfold aexec; simpl; rewrite (slot_alive Ha); erewrite bind_val by (apply a_insert_ev; eauto); auto. }
  destruct (call_val G R X) as (w1 & X1 & R1); [destruct F as [-> | ->]; auto|].
  eexists _, _, w1. split; [exact X1|]. split; auto. eapply awith_get. rewrite insert_tk_caches; eauto.
Qed.
Lemma put_copy_free c f p : puts c f -> copy_free (f p) = true.
Proof. intros [-> | ->]; auto. Qed.
Lemma puts_well_formed c f p w : puts c f -> well_formed w (f p) = alive w c.
Proof. intros [-> | ->]; auto. Qed.

(** A call that inserts, with searches that may throw. *)
Lemma put_follows c f p h : puts c f -> follows (fun _ => True) (h_exec E st ct (f p)) (exec E (f p)) h.
Proof. intros F. apply follows_exec. apply follows_body_any; auto. destruct F as [-> | ->]; auto. Qed.

Definition h_put (f : K * V -> op K V) (p : K * V) : H (bool * uiter) :=
  match f p with
  | Insert c k v => h_insert E st c k v
  | Emplace c k v => h_emplace E st c k v
  | _ => undef PastTheEnd
  end.
Definition put (f : K * V -> op K V) (p : K * V) : MM (bool * uiter) :=
  match f p with
  | Insert c k v => insert E c k v
  | Emplace c k v => emplace E c k v
  | _ => undef PastTheEnd
  end.
Lemma h_put_follows c f p h : puts c f -> follows (fun _ => True) (h_put f p) (put f p) h.
Proof. intros [-> | ->]; [apply follows_insert|apply follows_emplace]; auto. Qed.

(** [h_exec] is [h_put] followed by reading what the iterator denotes. *)
Lemma put_exec c f p h : puts c f -> alive (h_world h) c = true ->
  h_exec E st ct (f p) h = (r <- h_put f p;; e <- lift (denotes c (snd r));; ret (RIns (fst r) e)) h.
Proof. intros F Al. unfold h_exec. rewrite (puts_well_formed p _ F), Al. destruct F as [-> | ->]; reflexivity. Qed.
Lemma put_plain c f p w : puts c f -> alive w c = true ->
  exec E (f p) w = (r <- put f p;; e <- denotes c (snd r);; ret (RIns (fst r) e)) w.
Proof. intros F Al. unfold exec. rewrite (puts_well_formed p _ F), Al. destruct F as [-> | ->]; reflexivity. Qed.

Lemma put_agrees c f p h : puts c f -> reachable E (h_world h) -> alive (h_world h) c = true ->
  (exists b it e h1, h_put f p h = Val (b, it) h1 /\ h_exec E st ct (f p) h = Val (RIns b e) h1 /\
     exec E (f p) (h_world h) = Val (RIns b e) (h_world h1) /\ alive (h_world h1) c = true /\ reachable E (h_world h1)) \/
  (exists e h1, h_put f p h = Exc e h1 /\ h_exec E st ct (f p) h = Exc e h1) \/
  (exists e, h_put f p h = Term e /\ h_exec E st ct (f p) h = Term e).
Proof.
  intros F R Al. rewrite (put_exec p F Al). destruct (reach_rel G R) as (aw & Rl). destruct (alive_inv Rl Al) as (a & Ha).
  destruct (put_step p Rl Ha F) as (b & e & w' & X & R' & Ha'). pose proof X as X0. rewrite (put_plain p F Al) in X.
  destruct (put f p (h_world h)) as [(b' & it) w1|e1 w1|u|e1] eqn:Y; unfold bind in X; rewrite Y in X; try discriminate.
  cbn [fst snd] in X. destruct (denotes c it w1) as [e1 w2|? ?|?|?] eqn:D; try discriminate.
  inversion X; subst b' e1 w2. pose proof (pure_denotes D). subst w'. clear X.
  destruct (h_put_follows p h F) as [(s & t & _ & _ & X)|[(n & i & h' & _ & _ & _ & X & _)|(n & i & _ & _ & X)]].
  - left. rewrite Y in X. exists b, it, e, (MkH s t w1). split; auto. split.
    { unfold bind. rewrite X. cbn [counted]. unfold lift. cbn [h_world fst snd]. rewrite D. reflexivity. }
    cbn [h_world]. split; auto. split.
    + rewrite (rel_alive _ R'). apply (slot_alive Ha').
    + eapply reachable_step; [exact R| |exact X0]. apply (put_copy_free p F).
  - right. left. exists (UserExn n), h'. unfold bind. rewrite X. auto.
  - right. right. exists (UserExn n). unfold bind. rewrite X. auto.
Qed.

Definition h_range f (l : list (K * V)) (n : nat) : H nat :=
  foldM (fun cnt p => r <- h_put f p;; ret (if fst r then S cnt else cnt)) l n.
Lemma range_each c f l : puts c f -> forall n h, reachable E (h_world h) -> alive (h_world h) c = true ->
  (m <- h_range f l n;; ret (RNat m)) h = each E st ct f l n h.
Proof.
  intros F. induction l as [|p l IH]; intros n h R Al; [reflexivity|].
  cbn [each]. unfold h_range in *. cbn [foldM].
  destruct (put_agrees p F R Al) as [(b & it & e & h1 & X & Y & _ & Al1 & R1)|[(e & h1 & X & Y)|(e & X & Y)]]; rewrite Y.
  - rewrite <- (IH _ h1 R1 Al1). unfold bind. rewrite X. reflexivity.
  - unfold bind. rewrite X. reflexivity.
  - unfold bind. rewrite X. reflexivity.
Qed.

Lemma singly_puts c l o f : singly c l o f -> puts c f.
Proof. intros []; [left|right]; auto. Qed.
Lemma one_by_one keeps c l o f h : singly c l o f -> reachable E (h_world h) -> alive (h_world h) c = true ->
  m_exec E st ct keeps o h = each E st ct f l 0 h.
Proof.
  intros S R Al. rewrite <- (range_each l (singly_puts S) 0 R Al). unfold m_exec.
  destruct S; cbn [well_formed]; rewrite Al; reflexivity.
Qed.

(** What has happened when an element throws. *)
Lemma each_threw c f l : puts c f -> forall n h e h', reachable E (h_world h) -> alive (h_world h) c = true ->
  each E st ct f l n h = Exc e h' ->
  exists m p outs h1, nth_error l m = Some p /\ run E (map f (firstn m l)) (h_world h) = Finished outs (h_world h1) /\
    h_searches h <= h_searches h1 /\
    h_exec E st ct (f p) h1 = Exc e h' /\ reachable E (h_world h1) /\ alive (h_world h1) c = true.
Proof.
  intros F. induction l as [|p l IH]; intros n h e h' R Al X; [discriminate|]. cbn [each] in X.
  destruct (put_agrees p F R Al) as [(b & it & e1 & h1 & _ & Y & Z & Al1 & R1)|[(e1 & h1 & _ & Y)|(e1 & _ & Y)]]; rewrite Y in X.
  - destruct (IH _ _ _ _ R1 Al1 X) as (m & q & outs & h2 & N & X1 & L & X2 & R2 & Al2).
    exists (S m), q, (Returned (RIns b e1) :: outs), h2. split; auto. split; [|split; [|auto]].
    + cbn [firstn map run]. rewrite Z, X1. reflexivity.
    + destruct (put_follows p h F) as [(s & t & Ls & _ & Q)|[(n1 & i & h3 & _ & _ & _ & Q & _)|(n1 & i & _ & _ & Q)]];
        rewrite Y in Q; try discriminate. rewrite Z in Q. inversion Q as [Q1]. rewrite Q1 in L. simpl in L. lia.
  - inversion X; subst. exists 0, p, [], h. repeat split; auto.
  - discriminate.
Qed.

(** ** Where an insertion stops *)
Lemma follows_new_key_at Q c p h : Q (h_world h) -> follows Q (h_insert_new_key E st c p) (insert_new_key E c p) h.
Proof.
  intros HQ. unfold h_insert_new_key, insert_new_key. apply follows_bind; [apply follows_lift|]. intros b s t w' X.
  apply pure_too_full in X. subst w'. apply follows_bind; [|intros; fol]. destruct b; [|fol].
  unfold h_evict_lru_for, evict_lru_for. apply follows_bind; [apply follows_lift|]. intros q s1 t1 w1 X.
  apply pure_list_front in X. simpl in X. subst w1. apply follows_bind; [apply follows_lift|]. intros n s2 t2 w2 X.
  apply pure_deref in X. simpl in X. subst w2. apply follows_bind; [apply follows_map_erase; auto|]. intros; fol.
Qed.
Definition stopped (c : nat) (w w' : world) : Prop :=
  exists w2, unchanged w w2 /\ (w' = w2 \/ exists nd r, map_emplace E c nd w2 = Val r w').
Lemma follows_insert_at c k v h : follows (stopped c (h_world h)) (h_insert E st c k v) (insert E c k v) h.
Proof.
  unfold h_insert, insert. apply follows_bind; [apply follows_lift|]. intros cap s t w' X.
  apply pure_capacity in X. subst w'. destruct (Nat.eqb cap 0); [fol|].
  apply follows_bind.
  { apply follows_map_find. exists (h_world h). split; [apply unchanged_refl|auto]. }
  intros i s1 t1 w1 X. pose proof (pure_map_find X) as X0. simpl in X0. subst w1. destruct i as [i|]; [fol|].
  apply follows_bind; [apply follows_lift|]. intros z s2 t2 w2 Z. apply timestamp_unchanged in Z. simpl in Z.
  apply follows_bind; [apply follows_map_emplace; exists w2; auto|]. intros (i, fresh) s3 t3 w3 Y. simpl in Y.
  apply follows_bind; [fol|]. intros u s4 t4 w4 U.
  assert (w4 = w3) by (destruct fresh; inversion U; auto). subst w4.
  apply follows_bind; [|intros; fol]. apply follows_new_key_at. exists w2. split; eauto.
Qed.
Lemma follows_emplace_at c k v h : follows (stopped c (h_world h)) (h_emplace E st c k v) (emplace E c k v) h.
Proof.
  unfold h_emplace, emplace. apply follows_bind; [apply follows_lift|]. intros cap s t w' X.
  apply pure_capacity in X. subst w'. destruct (Nat.eqb cap 0); [fol|].
  apply follows_bind; [apply follows_lift|]. intros u0 s0 t0 w0 F. apply fallible_unchanged in F. simpl in F.
  apply follows_bind; [apply follows_map_find; exists w0; auto|].
  intros i s1 t1 w1 X. pose proof (pure_map_find X) as X0. simpl in X0. subst w1. destruct i as [i|]; [fol|].
  apply follows_bind; [apply follows_lift|]. intros z s2 t2 w2 Z. apply timestamp_unchanged in Z. simpl in Z.
  assert (UN : unchanged (h_world h) w2) by (eapply unchanged_trans; eauto).
  apply follows_bind; [apply follows_map_emplace; exists w2; auto|]. intros (i, fresh) s3 t3 w3 Y. simpl in Y.
  apply follows_bind; [|intros; fol]. apply follows_new_key_at. exists w2. split; eauto.
Qed.
Lemma put_threw c f p h e h1 : puts c f -> reachable E (h_world h) -> alive (h_world h) c = true ->
  h_exec E st ct (f p) h = Exc e h1 ->
  exists n i, e = UserExn n /\ st i = Some n /\ h_searches h <= i /\ h_searches h1 = S i /\ stopped c (h_world h) (h_world h1).
Proof.
  intros F R Al X.
  assert (Y : follows (stopped c (h_world h)) (h_exec E st ct (f p)) (exec E (f p)) h).
  { apply follows_exec; auto. destruct F as [-> | ->]; cbn [h_body body]; fol; [apply follows_insert_at|apply follows_emplace_at]. }
  destruct (reach_rel G R) as (aw & Rl). destruct (alive_inv Rl Al) as (a & Ha).
  destruct (put_step p Rl Ha F) as (b & e1 & w' & Z & _). rewrite X, Z in Y || idtac.
  destruct Y as [(s & t & _ & _ & Y)|[(n & i & h' & Y1 & Y2 & Y3 & Y & Y4)|(n & i & _ & _ & Y)]]; rewrite X in Y.
  - rewrite Z in Y. discriminate.
  - inversion Y; subst. exists n, i. auto.
  - discriminate.
Qed.

(** A stopped insertion and the destruction of its cache. *)
Lemma stopped_at c w w' x s : at_ w c x s -> stopped c w w' -> exists s' w2, unchanged w w2 /\
  w_caches w' = w_caches w /\ w_stats w' = w_stats w /\ w_log w' = w_log w /\
  (w_stores w' = w_stores w \/ w_stores w' = upd (w_stores w) (c_rid x) (Some s')).
Proof.
  intros At (w2 & U & Y). exists (match w_stores w' with _ => match slot (w_stores w') (c_rid x) with Some s' => s' | None => s end end), w2.
  split; auto. destruct U as (U1 & U2 & U3 & U4). destruct Y as [-> |(nd & r & Y)]; [repeat split; auto|].
  assert (At2 : at_ w2 c x s) by (unfold at_ in *; rewrite U1, U2; auto).
  unfold map_emplace in Y. rewrite (bind_val _ _ _ (own_ev At2)) in Y.
  destruct (node_with E (n_key nd) (s_map s)) as [(j & m)|].
  - inversion Y; subst. auto.
  - rewrite (bind_val _ _ _ (fallible_tick G w2)) in Y. unfold put_store, bind, modify in Y. inversion Y; subst. clear Y.
    simpl. rewrite U2. repeat split; auto. right. erewrite slot_upd_same; [reflexivity|]. apply At.
Qed.

Lemma at_alive (w : world) c x s : at_ w c x s -> alive w c = true.
Proof. intros (A & _). unfold alive. rewrite A. auto. Qed.
Lemma destroy_ev (w : world) c x s : at_ w c x s -> destroy c w = Val tt (with_caches (fun l => upd l c None) (with_stores (fun l => upd l (c_rid x) None) w)).
Proof. intros (A & B). unfold destroy, bind, get_cache. rewrite A. reflexivity. Qed.
Lemma destroy_stopped c w w' x s : at_ w c x s -> stopped c w w' ->
  exists w1 w1', exec E (Destroy c) w = Val RUnit w1 /\ destroy c w' = Val tt w1' /\ unchanged w1 w1'.
Proof.
  intros At St. destruct (stopped_at At St) as (s' & w2 & U & C1 & C2 & C3 & C4).
  assert (At' : exists s2, at_ w' c x s2).
  { destruct At as (A & B). destruct C4 as [C4|C4].
    - exists s. split; [rewrite C1; auto|rewrite C4; auto].
    - exists s'. split; [rewrite C1; auto|]. rewrite C4. erewrite slot_upd_same; eauto. }
  destruct At' as (s2 & At'). eexists _, _. split; [|split; [exact (destroy_ev At')|]].
  - unfold exec. cbn [well_formed]. rewrite (at_alive At). cbn [body]. rewrite (bind_val _ _ _ (destroy_ev At)). reflexivity.
  - destruct w, w'. simpl in *. subst. unfold unchanged. simpl. repeat split; auto. destruct C4 as [-> | ->]; auto. apply upd_upd.
Qed.

Lemma follows_upgrade {A} Q (mh : H A) m h : follows (fun _ => True) mh m h ->
  (forall e h', mh h = Exc e h' -> Q (h_world h')) -> follows Q mh m h.
Proof.
  intros [X|[X|X]] Y; [left; auto|right; left|right; right; auto].
  destruct X as (n & i & h' & X1 & X2 & X3 & X4 & _). exists n, i, h'. eauto 10.
Qed.
Lemma follows_with_new Q cap ttl (bh : nat -> H nat) (b : nat -> MM nat) h :
  (forall c s t w', new_cache cap ttl (h_world h) = Val c w' ->
     follows (fun w => exists w1, destroy c w = Val tt w1 /\ Q w1) (bh c) (b c) (MkH s t w')) ->
  follows Q (h_with_new cap ttl bh) (with_new cap ttl b) h.
Proof.
  intros X. unfold h_with_new, with_new. apply follows_bind; [apply follows_lift|]. intros c s t w' Y.
  destruct (X c s t w' Y) as [(s1 & t1 & L1 & L2 & Z)|[(n & i & h' & Z1 & L1 & L2 & Z & w1 & D & HQ)|(n & i & Z1 & L1 & Z)]].
  - left. exists s1, t1. split; auto. split; auto. rewrite Z. destruct (b c (h_world (MkH s t w'))) as [a w2|e w2|u|e]; cbn [counted]; auto.
    unfold bind, lift. cbn [h_world h_searches h_compares]. destruct (destroy c w2) as [[] w3|e1 w3|u|e1]; auto.
  - right. left. exists n, i, (MkH (h_searches h') (h_compares h') w1). split; auto. split; auto. split; auto.
    split; auto. rewrite Z. unfold bind, lift. rewrite D. reflexivity.
  - right. right. exists n, i. split; auto. split; auto. rewrite Z. reflexivity.
Qed.

Lemma range_follows c f l : puts c f -> forall n h, follows (fun _ => True) (h_range f l n)
  (foldM (fun cnt p => r <- put f p;; ret (if fst r then S cnt else cnt)) l n) h.
Proof.
  intros F. unfold h_range. induction l as [|p l IH]; intros n h; cbn [foldM]; [apply follows_ret|].
  apply follows_bind; [|intros; apply IH]. apply follows_bind; [apply (h_put_follows p h F)|intros; apply follows_ret].
Qed.

(** What is left of a constructor that threw: nothing. *)
Definition undone (f : nat -> K * V -> op K V) cap ttl l w w' : Prop :=
  exists c m outs w1, alive w c = false /\ m < length l /\
    run E (New cap ttl :: map (f c) (firstn m l) ++ [Destroy c]) w = Finished (Returned (RNat c) :: outs) w1 /\ unchanged w1 w'.
Lemma new_follows f cap ttl l h : (forall c, puts c (f c)) -> reachable E (h_world h) ->
  follows (undone f cap ttl l (h_world h)) (h_with_new cap ttl (fun c => h_range (f c) l 0))
    (with_new cap ttl (fun c => foldM (fun cnt p => r <- put (f c) p;; ret (if fst r then S cnt else cnt)) l 0)) h.
Proof.
  intros F R. apply follows_with_new. intros c s t w' N.
  apply follows_upgrade; [apply (range_follows l (F c))|]. intros e h' X.
  assert (N1 : exec E (New cap ttl) (h_world h) = Val (RNat c) w').
  { unfold exec. cbn [well_formed body]. rewrite (bind_val _ _ _ N). reflexivity. }
  assert (R1 : reachable E w') by (eapply reachable_step; [exact R| |exact N1]; reflexivity).
  destruct (build_result G (builds_new ttl cap) R) as (c1 & w2 & N2 & D & C & _). rewrite N1 in N2. inversion N2; subst c1 w2.
  assert (Al : alive w' c = true).
  { unfold contents, exec in C. cbn [well_formed] in C. destruct (alive w' c); auto. discriminate. }
  assert (X1 : each E st ct (f c) l 0 (MkH s t w') = Exc e h').
  { rewrite <- (range_each l (F c) 0 (h := MkH s t w') R1 Al). unfold bind. rewrite X. reflexivity. }
  destruct (each_threw (F c) (h := MkH s t w') R1 Al X1) as (m & p & outs & h1 & Np & Run & _ & Y & R2 & Al2).
  destruct (put_threw (F c) R2 Al2 Y) as (n & i & _ & _ & _ & _ & St). cbn [h_world] in Run.
  destruct (reach_rel G R2) as (aw & Rl). destruct (alive_inv Rl Al2) as (a & Ha).
  destruct (rel_get _ Rl Ha) as (x & sx & cl & At & _).
  destruct (destroy_stopped At St) as (w1 & w1' & D1 & D2 & U). exists w1'. split; auto.
  exists c, m, (outs ++ [Returned RUnit]), w1. split; auto. split.
  { apply nth_error_Some. congruence. }
  split; auto. cbn [run]. rewrite N1, run_app, Run. cbn [run]. rewrite D1. reflexivity.
Qed.

Lemma puts_run c f l : puts c f -> forall w aw a outs w', rel E w aw -> slot (aw_caches aw) c = Some a ->
  run E (map f l) w = Finished outs w' ->
  exists aw' a', rel E w' aw' /\ slot (aw_caches aw') c = Some a' /\ length (aw_caches aw') = length (aw_caches aw) /\
    forall d, d <> c -> slot (aw_caches aw') d = slot (aw_caches aw) d.
Proof.
  intros F. induction l as [|p l IH]; intros w aw a outs w' R Ha X.
  - inversion X; subst. exists aw, a. auto.
  - cbn [map run] in X. destruct (put_step p R Ha F) as (b & e & w1 & Y & R1 & Ha1). rewrite Y in X.
    destruct (run E (map f l) w1) as [outs1 w2|? ?|? ?] eqn:Z; try discriminate. inversion X; subst.
    destruct (IH _ _ _ _ _ R1 Ha1 Z) as (aw' & a' & R' & Ha' & Ln & O). exists aw', a'. split; auto. split; auto. split.
    + rewrite Ln. unfold awith. cbn [aw_caches]. rewrite upd_length, insert_tk_caches. auto.
    + intros d N. rewrite O by auto. unfold awith. cbn [aw_caches]. rewrite slot_upd_other, insert_tk_caches by auto. auto.
Qed.
Lemma unchanged_rel w w' aw : unchanged w w' -> rel E w aw ->
  rel E w' (MkAW (aw_caches aw) (aw_stats aw) (aw_log aw) (w_reads w')).
Proof.
  intros (A & B & C & D) [R1 R2 R3 R4 R5 R6 R7]. constructor; simpl; rewrite ?A, ?B, ?C, ?D; auto.
Qed.
Lemma undone_as_before f cap ttl l w w' : (forall c, puts c (f c)) -> reachable E w -> undone f cap ttl l w w' -> as_before E w w'.
Proof.
  intros F R (c & m & outs & w1 & D & _ & X & U). destruct (reach_rel G R) as (aw & Rl).
  assert (N0 : aexec E 0 (New cap ttl) aw = Val (RNat (length (aw_caches aw))) (anewc cap ttl aw)) by reflexivity.
  destruct (call_val G Rl N0 eq_refl) as (w2 & N1 & R2). cbn [run] in X. rewrite N1, run_app in X.
  assert (AB : forall aw', rel E w1 aw' -> (forall d, slot (aw_caches aw') d = slot (aw_caches aw) d) -> as_before E w w').
  { intros aw' R1 Q. pose proof (unchanged_rel U R1) as R3. split; [|split].
    - intros d. rewrite (rel_alive _ R3), (rel_alive _ Rl). unfold a_alive. simpl. rewrite Q. auto.
    - intros d l0 C. destruct (contents_inv G Rl C) as (a & Ha & ->). apply (contents_of G R3). simpl. rewrite Q. auto.
    - intros d n C. destruct (slot (aw_caches aw) d) as [a|] eqn:Ha.
      + rewrite <- (capacity_inv Rl Ha C). apply (capacity_of R3). simpl. rewrite Q. auto.
      + unfold capacity_is in C. rewrite (exec_wf _ Rl) in C. simpl in C. unfold a_alive in C. rewrite Ha in C. discriminate. }
  destruct (run E (map (f c) (firstn m l)) w2) as [o1 w3|? ?|? ?] eqn:Y; try discriminate.
  destruct (run E [Destroy c] w3) as [o2 w4|? ?|? ?] eqn:Z; try discriminate. inversion X; subst c w4. clear X.
  pose proof (anewc_get cap ttl aw) as Ha.
  destruct (puts_run (F _) R2 Ha Y) as (aw3 & a3 & R3 & Ha3 & Ln & O).
  destruct (destroy_step G R3 Ha3) as (w5 & Z1 & R5). cbn [run] in Z. rewrite Z1 in Z. inversion Z; subst.
  apply (AB _ R5). intros d. simpl. destruct (Nat.eq_dec d (length (aw_caches aw))) as [-> |N].
  - rewrite slot_upd_lt; [|rewrite Ln; simpl; rewrite app_length; simpl; lia].
    unfold slot. rewrite nth_overflow; auto.
  - rewrite slot_upd_other by auto. rewrite O by auto. unfold anewc, slot. simpl.
    destruct (Nat.lt_ge_cases d (length (aw_caches aw))) as [L|L]; [rewrite app_nth1 by auto; auto|].
    rewrite !nth_overflow; auto. rewrite app_length. simpl. lia.
Qed.
End More.
