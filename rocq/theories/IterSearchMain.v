(** Searches made through iterators: their number, and what becomes of their exceptions. *)
From Coq Require Import List Arith ZArith Bool Permutation Lia.
Import ListNotations.
From Verif Require Import Monad Types Model Api IterObj Spec SpecTimed Ref Lists SimBase SimRel SimOps SimIns SimErase SimIter SimNew SimObs SimExec RefEval SimRun LruProofs CallProofs LruMore Flat Global Safe Frame SpecStats StatProofs TimedTrack NodeTrack SpecIter IterProofs SpecCursor CursorProofs CursorRun Searches SpecSearches IterSearches SpecIterSearches IterSearchProofs.
Set Implicit Arguments.
Unset Strict Implicit.
Local Open Scope cpp_scope.

Section Main.
Context {K V : Type}.
Variable E : env K V.
Hypothesis G : good E.
Variable throws : nat -> option nat.
Notation world := (world K V).
Notation aworld := (aworld K V).
Notation cell := (@cell K V).
Notation cursor := (@cursor K).
Notation istate := (istate K V).
Notation stands := (stands E).
Notation tracked := (tracked E).
Notation "'JS' n w vs" := (MkJ n (@MkI K V w vs)) (at level 10, n at level 9, w at level 9, vs at level 9).
Implicit Types (w : world) (aw : aworld) (cl : cell) (cu : cursor) (cs : list cursor) (st : istate) (en : option mptr).

Lemma on_val {A} (m : M world A) n w vs a w' : m w = Val a w' -> on_world m (JS n w vs) = Val a (JS n w' vs).
Proof. unfold on_world, unsearched, IterObj.lift. simpl. intros ->. reflexivity. Qed.

Definition late_j {A} (x : cache) cl n w vs (m : M (jstate K V) A) : res (jstate K V) A :=
  match c_ttl x with
  | None => m (JS n w vs)
  | Some _ => match throws n with
      | Some e => Term (UserExn e)
      | None => match throws (S n) with
          | Some e => Term (UserExn e)
          | None => if late E x cl w then Exc KeyExpired (JS (S (S n)) (wa x w) vs) else m (JS (S (S n)) (wa x w) vs)
          end
      end
  end.
Definition lookup_j {A} en n (h : nat -> jstate K V) (m : M (jstate K V) A) : res (jstate K V) A :=
  match en with
  | Some _ => m (h n)
  | None => match throws n with
      | Some e => Exc (UserExn e) (h (S n))
      | None => m (h (S n))
      end
  end.

Lemma find_j k c w r s cl n vs : lives E k c w r s cl ->
  j_map_find E throws c (e_key (cl_e cl)) (JS n w vs) =
  match throws n with
  | Some e => Exc (UserExn e) (JS (S n) w vs)
  | None => Val (Some ((r, cl_m cl), s_epoch s)) (JS (S n) w vs)
  end.
Proof.
  intros L. unfold j_map_find, bind, j_search. simpl. destruct (throws n); auto.
  rewrite (on_val _ _ (lives_find G L)). reflexivity.
Qed.
Lemma lookup_ev k c w r s cl en n vs : lives E k c w r s cl -> en = None \/ en = Some (r, cl_m cl) ->
  j_maybe_lookup E throws (MkO c (OAt (r, cl_q cl)) en) (JS n w vs) =
  lookup_j en n (fun n => JS n w vs) (ret ((r, cl_m cl), MkO c (OAt (r, cl_q cl)) (Some (r, cl_m cl)))).
Proof.
  intros L [-> | ->]; [|reflexivity]. unfold j_maybe_lookup, lookup_j. cbn [oi_entry oi_pos oi_cache]. unfold bind.
  rewrite (on_val _ _ (lives_list L)), (on_val _ _ (lives_deref L)). cbn [node_of n_key].
  rewrite (find_j _ _ L). destruct (throws n); reflexivity.
Qed.
Lemma expired_j k c w r s cl en d n vs : lives E k c w r s cl -> en = None \/ en = Some (r, cl_m cl) ->
  j_has_expired E throws c d (MkO c (OAt (r, cl_q cl)) en) (JS n w vs) =
  match throws n with
  | Some e => Term (UserExn e)
  | None => match throws (S n) with
      | Some e => Term (UserExn e)
      | None => Val (Z.ltb d (dcast E (clock E (w_reads w) - e_time (cl_e cl)))) (JS (S (S n)) (tock w) vs)
      end
  end.
Proof.
  intros L H. unfold j_has_expired, o_eq. simpl. unfold noexcept, bind, j_star, noexcept.
  rewrite (lookup_ev _ _ L (or_introl eq_refl)). unfold lookup_j. destruct (throws n); auto. unfold ret at 1.
  rewrite (on_val _ _ (lives_deref L)). cbn [node_of n_key]. rewrite (find_j _ _ L). destruct (throws (S n)); auto.
  rewrite (on_val _ _ (lives_deref_it L)). reflexivity.
Qed.
Lemma check_j k c w r s cl en x n vs : lives E k c w r s cl -> en = None \/ en = Some (r, cl_m cl) ->
  slot (w_caches w) c = Some x ->
  j_throw_if_invalid E throws c (MkO c (OAt (r, cl_q cl)) en) (JS n w vs) = late_j x cl n w vs (ret tt).
Proof.
  intros L H Hx. unfold j_throw_if_invalid, bind. assert (X : get_cache c w = Val x w) by (unfold get_cache; rewrite Hx; auto). rewrite (on_val _ _ X).
  unfold o_eq. simpl. unfold late_j, late, wa. destruct (c_ttl x) as [d|]; auto.
  rewrite (expired_j _ _ _ L H). destruct (throws n); auto. destruct (throws (S n)); auto.
  destruct (Z.ltb _ _); auto.
Qed.
Lemma late_bind {A B} x cl n w vs (m : M (jstate K V) A) (k : A -> M (jstate K V) B) :
  match late_j x cl n w vs m with Val a h => k a h | Exc e h => Exc e h | Undef u => Undef u | Term e => Term e end =
  late_j x cl n w vs (bind m k).
Proof.
  unfold late_j, bind. destruct (c_ttl x); auto. destruct (throws n); auto. destruct (throws (S n)); auto. destruct (late E x cl w); auto.
Qed.
Lemma lookup_bind {A B} en n h (m : M (jstate K V) A) (k : A -> M (jstate K V) B) :
  match lookup_j en n h m with Val a h => k a h | Exc e h => Exc e h | Undef u => Undef u | Term e => Term e end =
  lookup_j en n h (bind m k).
Proof. unfold lookup_j, bind. destruct en; auto. destruct (throws n); auto. Qed.

(** Steps without searches. *)
Lemma unsearched_bind {A B} (m : M istate A) (k : A -> M istate B) h :
  unsearched (bind m k) h = bind (unsearched m) (fun a => unsearched (k a)) h.
Proof. unfold unsearched, bind. destruct h as [n st]. simpl. destruct (m st); auto. Qed.

Lemma unordered_step s st n i v : nth_error (i_vars st) i = Some v -> ordered_var v = false ->
  match s with IRead j | IWrite j _ | IEntry j | IKey j | IValue j | IErase _ j | IValid _ j => j = i | _ => False end ->
  j_exec E throws s (MkJ n st) = unsearched (iexec E s) (MkJ n st).
Proof.
  intros N O. destruct s; try easy; intros ->; cbn [j_exec iexec];
    unfold j_with_alive, j_with_var, with_alive, with_var, unsearched; cbn [j_state j_searches];
    try (destruct (alive _ _); [|reflexivity]); rewrite N.
  all: destruct v; try discriminate O; cbn [j_deref j_entry j_key j_erase j_valid]; unfold on_world, bind, unsearched;
    cbn [j_state j_searches].
  all: repeat (match goal with |- context [match ?x with Val _ _ => _ | Exc _ _ => _ | Undef _ => _ | Term _ => _ end] =>
      lazymatch x with context [match _ with Val _ _ => _ | Exc _ _ => _ | Undef _ => _ | Term _ => _ end] => fail | _ => destruct x end end;
    cbn [j_state j_searches]; try reflexivity).
Qed.

(** What is claimed of one step that makes [m] searches. *)
Definition pays (s : istep K V) st cs n m r st' : Prop :=
  ((forall k, k < m -> throws (n + k) = None) -> jgives E throws s (MkJ n st) r (MkJ (n + m) st')) /\
  (forall k e, k < m -> throws (n + k) = Some e -> (forall k', k' < k -> throws (n + k') = None) ->
    if fatal s (i_world st) cs k then j_exec E throws s (MkJ n st) = Term (UserExn e)
    else exists st1, j_exec E throws s (MkJ n st) = Exc (UserExn e) (MkJ (n + k + 1) st1) /\
      unchanged (i_world st) (i_world st1) /\ i_vars st1 = i_vars st).

Lemma pays_nothing s st cs n r st' : j_exec E throws s (MkJ n st) = unsearched (iexec E s) (MkJ n st) ->
  idone E s st r st' -> pays s st cs n 0 r st'.
Proof.
  intros X D. split; [|intros; lia]. intros _. rewrite Nat.add_0_r. unfold jgives. rewrite X. unfold unsearched. cbn [j_state].
  unfold idone in D. destruct r; rewrite D; reflexivity.
Qed.

Lemma timed_is c w (x : cache) : slot (w_caches w) c = Some x ->
  timed c w = match c_ttl x with Some _ => true | None => false end.
Proof. unfold timed. intros ->. auto. Qed.
Lemma same_unchanged w : unchanged w w.
Proof. unfold unchanged; auto. Qed.
Lemma wa_unchanged x w : unchanged w (wa x w).
Proof. unfold unchanged, wa. destruct (c_ttl x); auto. Qed.


Definition is_some {A} (o : option A) : bool := match o with Some _ => true | None => false end.
Definition first_time en : nat := if is_some en then 0 else 1.
Definition checks (x : cache) : nat := if is_some (c_ttl x) then 2 else 0.

Lemma jgives_of s st n r st' (Q : M istate (iout K V)) st1 n' : idone E s st r st' ->
  iexec E s st = Q st1 -> j_exec E throws s (MkJ n st) = unsearched Q (MkJ n' st1) -> jgives E throws s (MkJ n st) r (MkJ n' st').
Proof.
  intros D X Y. unfold idone in D. unfold jgives. rewrite Y. unfold unsearched. cbn [j_state j_searches]. rewrite X in D.
  destruct r; rewrite D; auto.
Qed.

(** A step that dereferences, and one that checks first. *)
Lemma star_pays s st cs n r st' Q st1 en : idone E s st r st' -> iexec E s st = Q st1 ->
  j_exec E throws s (MkJ n st) = match en with
    | Some _ => unsearched Q (MkJ n st1)
    | None => match throws n with Some e => Term (UserExn e) | None => unsearched Q (MkJ (S n) st1) end
    end ->
  (forall k, fatal s (i_world st) cs k = true) -> pays s st cs n (first_time en) r st'.
Proof.
  intros D X Y FA. unfold first_time. split.
  - intros H. destruct en; simpl in *.
    + rewrite Nat.add_0_r. eapply jgives_of; eauto.
    + rewrite Nat.add_1_r. eapply jgives_of; eauto. rewrite Y. specialize (H 0 (le_n _)). rewrite Nat.add_0_r in H. rewrite H. auto.
  - intros k e L H _. rewrite FA. destruct en; simpl in L; [lia|]. replace k with 0 in H by lia. rewrite Nat.add_0_r in H.
    rewrite Y, H. reflexivity.
Qed.
Lemma check_pays s n w vs cs r st' x cl en Q st1 m : idone E s (MkI w vs) r st' ->
  iexec E s (MkI w vs) = (if late E x cl w then Exc KeyExpired (MkI (wa x w) vs) else Q st1) ->
  j_exec E throws s (JS n w vs) = late_j x cl n w vs (fun h => match en with
    | Some _ => unsearched Q (MkJ (j_searches h) st1)
    | None => match throws (j_searches h) with
        | Some e => Exc (UserExn e) (MkJ (S (j_searches h)) (j_state h))
        | None => unsearched Q (MkJ (S (j_searches h)) st1)
        end
    end) ->
  (forall k, fatal s w cs k = Nat.ltb k (checks x)) ->
  m = checks x + (if late E x cl w then 0 else first_time en) -> pays s (MkI w vs) cs n m r st'.
Proof.
  intros D X Y FA ->. unfold late_j in Y. unfold checks, first_time in *. destruct (c_ttl x) as [d|] eqn:TX; simpl is_some in *; cbn iota in *.
  - destruct (late E x cl w) eqn:LA.
    + split.
      * intros H. pose proof (H 0 ltac:(lia)) as H0. pose proof (H 1 ltac:(lia)) as H1.
        rewrite Nat.add_0_r in H0. rewrite Nat.add_1_r in H1. rewrite H0, H1 in Y.
        unfold idone in D. unfold jgives. rewrite X in D. rewrite Y. replace (n + (2 + 0)) with (S (S n)) by lia.
        destruct r; inversion D; subst; auto.
      * intros k e L H H'. cbn [i_world]. rewrite FA. replace (k <? 2) with true by (symmetry; apply Nat.ltb_lt; lia).
        destruct k as [|[|k]]; [| |lia].
        -- rewrite Nat.add_0_r in H. rewrite Y, H. auto.
        -- specialize (H' 0 ltac:(lia)). rewrite Nat.add_0_r in H'. rewrite Nat.add_1_r in H. rewrite Y, H', H. auto.
    + split.
      * intros H. pose proof (H 0 ltac:(lia)) as H0. pose proof (H 1 ltac:(lia)) as H1.
        rewrite Nat.add_0_r in H0. rewrite Nat.add_1_r in H1. rewrite H0, H1 in Y. cbn [j_searches j_state] in Y.
        destruct en; simpl in *.
        -- eapply jgives_of; eauto. rewrite Y. f_equal. f_equal. lia.
        -- eapply jgives_of; eauto. rewrite Y. specialize (H 2 ltac:(lia)). replace (n + 2) with (S (S n)) in H by lia.
           rewrite H. f_equal. f_equal. lia.
      * intros k e L H H'. cbn [i_world i_vars]. rewrite FA. cbn [j_searches j_state] in Y.
        destruct k as [|[|k]].
        -- rewrite Nat.add_0_r in H. simpl. rewrite Y, H. auto.
        -- specialize (H' 0 ltac:(lia)). rewrite Nat.add_0_r in H'. rewrite Nat.add_1_r in H. simpl. rewrite Y, H', H. auto.
        -- destruct en; simpl in L; [lia|]. assert (k = 0) by lia. subst k.
           pose proof (H' 0 ltac:(lia)) as H0. pose proof (H' 1 ltac:(lia)) as H1.
           rewrite Nat.add_0_r in H0. rewrite Nat.add_1_r in H1. replace (n + 2) with (S (S n)) in H by lia.
           simpl. exists (MkI (wa x w) vs). rewrite Y, H0, H1, H. split; [f_equal; f_equal; lia|].
           split; [apply wa_unchanged|reflexivity].
  - assert (LA : late E x cl w = false) by (unfold late; rewrite TX; auto). rewrite LA in *.
    cbn [j_searches j_state] in Y. split.
    + intros H. destruct en; simpl in *.
      * eapply jgives_of; eauto. rewrite Y. f_equal. f_equal. lia.
      * eapply jgives_of; eauto. rewrite Y. specialize (H 0 ltac:(lia)). rewrite Nat.add_0_r in H. rewrite H. f_equal. f_equal. lia.
    + intros k e L H H'. cbn [i_world i_vars]. rewrite FA. destruct en; simpl in L; [lia|]. assert (k = 0) by lia. subst k.
      simpl. rewrite Nat.add_0_r in *. exists (MkI w vs). rewrite Y, H. split; [f_equal; f_equal; lia|].
      split; [apply same_unchanged|reflexivity].
Qed.

Definition marked i vs c r0 cl : list ivar := set_nth i (VO (MkO c (OAt (r0, @cl_q K V cl)) (Some (r0, cl_m cl)))) vs.
Lemma entry_j k c w r s cl en x n i vs : lives E k c w r s cl -> en = None \/ en = Some (r, cl_m cl) ->
  slot (w_caches w) c = Some x ->
  j_entry E throws i (VO (MkO c (OAt (r, cl_q cl)) en)) (JS n w vs) =
  late_j x cl n w vs (fun h => match en with
    | Some _ => Val (r, cl_m cl) (MkJ (j_searches h) (MkI (wa x w) (marked i vs c r cl)))
    | None => match throws (j_searches h) with
        | Some e => Exc (UserExn e) (MkJ (S (j_searches h)) (j_state h))
        | None => Val (r, cl_m cl) (MkJ (S (j_searches h)) (MkI (wa x w) (marked i vs c r cl)))
        end
    end).
Proof.
  intros L H Hx. pose proof (lives_same (wa_caches x w) (wa_stores x w) L) as L'.
  cbn [j_entry]. unfold bind. cbn [oi_cache]. rewrite (check_j _ _ L H Hx). unfold late_j, ret, wa in *.
  destruct (c_ttl x).
  - destruct (throws n); auto. destruct (throws (S n)); auto. destruct (late E x cl w); auto. cbn [j_searches j_state].
    rewrite (lookup_ev _ _ L' H). unfold lookup_j. destruct en; [|destruct (throws (S (S n))); auto]; reflexivity.
  - rewrite (lookup_ev _ _ L H). unfold lookup_j. cbn [j_searches j_state]. destruct en; [|destruct (throws n); auto]; reflexivity.
Qed.
Lemma entry_i k c w r s cl en x i vs : lives E k c w r s cl -> en = None \/ en = Some (r, cl_m cl) ->
  slot (w_caches w) c = Some x ->
  i_entry E i (VO (MkO c (OAt (r, cl_q cl)) en)) (MkI w vs) =
  if late E x cl w then Exc KeyExpired (MkI (wa x w) vs) else Val (r, cl_m cl) (MkI (wa x w) (marked i vs c r cl)).
Proof.
  intros L H Hx. pose proof (lives_same (wa_caches x w) (wa_stores x w) L) as L'.
  cbn [i_entry]. unfold bind, IterObj.lift at 1. cbn [i_world i_vars oi_cache]. rewrite (check_o G L H Hx). unfold checked.
  destruct (late E x cl w); auto. unfold IterObj.lift at 1. cbn [i_world i_vars]. rewrite (deref_o G L' H). reflexivity.
Qed.
Lemma entry_end i c n w vs : j_entry E throws i (VO (ordered_end c)) (JS n w vs) =
  unsearched (i_entry E i (VO (ordered_end c))) (JS n w vs).
Proof.
  cbn [j_entry i_entry]. unfold j_throw_if_invalid, throw_if_invalid_o, unsearched, bind, on_world, unsearched, IterObj.lift.
  cbn [i_world i_vars j_state j_searches oi_cache ordered_end].
  destruct (get_cache c w); auto. unfold o_eq. simpl. rewrite Nat.eqb_refl. reflexivity.
Qed.

(** entry() and value(): what is done with the entry does not search. *)
Lemma entry_pays s i (f : mptr -> M istate (iout K V)) n w vs cs r st' v cu :
  (forall h, j_exec E throws s h = j_with_var i (fun v => p <- j_entry E throws i v;; unsearched (f p)) h) ->
  (forall st, iexec E s st = with_var i (fun v => p <- i_entry E i v;; f p) st) ->
  (forall k, fatal s w cs k = match element cs i with Some c => Nat.ltb k (check w c) | None => false end) ->
  nth_error cs i = Some cu -> nth_error vs i = Some v -> stands w v cu -> stays cu -> idone E s (MkI w vs) r st' ->
  (forall st p, match f p st with Exc _ _ => False | _ => True end) ->
  pays s (MkI w vs) cs n
      match element cs i, r with
      | Some c, IGives _ => check w c + (if nth i (map warm vs) false then 0 else 1)
      | Some c, IThrows _ => check w c
      | None, _ => 0
      end r st'.
Proof.
  intros X Y FA N NV S T D NX. unfold element in *. rewrite N in *. pose proof (stands_kind S) as SK. rewrite (nth_warm NV).
  destruct (cu_ord cu) eqn:CO.
  2:{ apply pays_nothing; [|exact D]. rewrite X. unfold j_with_var, unsearched. cbn [j_state j_searches i_vars].
    rewrite Y. unfold with_var. cbn [i_vars]. rewrite NV. destruct v; try discriminate SK; cbn [j_entry]; unfold bind, unsearched;
    cbn [j_state j_searches]; destruct (i_entry E i _ _); cbn [j_state j_searches]; auto; destruct (f _ _); auto. }
  destruct S as [v b c H|c H|c H|k c r0 s0 cl en L H|k c r0 s0 cl en L H]; try discriminate CO; [now elim T| |]; cbn [cu_mark cu_cache] in *.
  - apply pays_nothing; [|exact D]. rewrite X. unfold j_with_var, unsearched. cbn [j_state j_searches i_vars].
    rewrite Y. unfold with_var. cbn [i_vars]. rewrite NV. unfold bind. rewrite entry_end. unfold unsearched. cbn [j_state j_searches].
    destruct (i_entry E i _ _); cbn [j_state j_searches]; auto; destruct (f _ _); auto.
  - destruct (lives_cache L) as (x & Hx & _).
    assert (X' : iexec E s (MkI w vs) = (if late E x cl w then Exc KeyExpired (MkI (wa x w) vs) else
        f (r0, cl_m cl) (MkI (wa x w) (marked i vs c r0 cl)))).
    { rewrite Y. unfold with_var. cbn [i_vars]. rewrite NV. unfold bind. rewrite (entry_i _ _ L H Hx). destruct (late E x cl w); auto. }
    assert (CH : check w c = checks x).
    { unfold check, checks. rewrite (timed_is Hx). destruct (c_ttl x); auto. }
    eapply (@check_pays s n w vs cs r st' x cl en (f (r0, cl_m cl)) _ _ D X').
    + rewrite X. unfold j_with_var. cbn [j_state i_vars]. rewrite NV. unfold bind. rewrite (entry_j _ _ _ L H Hx).
      unfold late_j. destruct (c_ttl x); [destruct (throws n); auto; destruct (throws (S n)); auto; destruct (late E x cl w); auto|];
        cbn [j_searches j_state]; (destruct en; [|destruct (throws _); auto]); reflexivity.
    + intros k0. rewrite FA, CH. reflexivity.
    + rewrite CH. cbn [warm oi_entry]. unfold first_time. unfold idone in D. rewrite X' in D.
      specialize (NX (MkI (wa x w) (marked i vs c r0 cl)) (r0, cl_m cl)).
      destruct (late E x cl w).
      * destruct r; inversion D; subst. lia.
      * destruct r; [destruct en; auto|]. rewrite D in NX. contradiction.
Qed.

Definition quiet {S A} (m : M S A) : Prop := forall s, match m s with Exc _ _ => False | _ => True end.
Lemma quiet_bind {S A B} (m : M S A) (f : A -> M S B) : quiet m -> (forall a, quiet (f a)) -> quiet (bind m f).
Proof. intros X Y s. unfold bind. specialize (X s). destruct (m s); auto. apply Y. Qed.
Lemma quiet_ret {S A} (a : A) : quiet (@ret S A a). Proof. intros s. exact I. Qed.
Lemma quiet_lift {A} (m : M world A) : quiet m -> quiet (@IterObj.lift K V A m).
Proof. intros X s. unfold IterObj.lift. specialize (X (i_world s)). destruct (m _); auto. Qed.
Lemma quiet_store r : quiet (@get_store K V r). Proof. intros w. unfold get_store. destruct (slot _ _); exact I. Qed.
Lemma quiet_cache c : quiet (@get_cache K V c). Proof. intros w. unfold get_cache. destruct (slot _ _); exact I. Qed.
Lemma quiet_undef {S A} u : quiet (@undef S A u). Proof. intros w. exact I. Qed.
Lemma quiet_modify {S} f : quiet (@modify S f). Proof. intros w. exact I. Qed.
Ltac quieted := repeat first [apply quiet_bind; [|intro] | apply quiet_ret | apply quiet_store | apply quiet_cache | apply quiet_undef
  | apply quiet_modify | apply quiet_lift | progress cbn beta iota zeta
  | match goal with |- quiet (match ?x with _ => _ end) => destruct x end].
Lemma quiet_deref p : quiet (@deref K V p). Proof. unfold deref. quieted. Qed.
Lemma quiet_deref_it p : quiet (@deref_it K V p). Proof. unfold deref_it. quieted. Qed.
Lemma quiet_erase c i : quiet (erase_it E c i).
Proof.
  unfold erase_it, last_is, invalidate_last, list_erase, map_erase_it, set_last, own, put_cache, put_store.
  quieted; try apply quiet_deref_it; try apply quiet_deref.
Qed.

Lemma step_costs s st cs hs n r st' : iwarms E st cs hs -> iallowed E s (i_world st) cs -> iterating s = true ->
  idone E s st r st' -> pays s st cs n (fee s (i_world st) cs hs r) r st'.
Proof.
  intros W AL IT D. destruct (warms_plays G W) as (P & ->). pose proof (plays_tracked G P) as TR.
  destruct st as [w vs]. destruct TR as ((aw & R) & F). cbn [i_world i_vars] in *.
  destruct s; try discriminate IT; try (apply pays_nothing; [reflexivity|exact D]).
  - (* IRead *)
    destruct AL as (cu & N & k & MK). destruct (f2_nth F N) as (v & NV & S).
    cbn [fee]. unfold element. rewrite N. rewrite MK.
    destruct (cu_ord cu) eqn:CO; pose proof (stands_kind S) as SK; rewrite CO in SK;
      [|apply pays_nothing; [eapply unordered_step; eauto|exact D]].
    rewrite (nth_warm NV).
    destruct S as [v b c H|c H|c H|k' c r0 s cl en L H|k' c r0 s cl en L H]; try discriminate MK; try discriminate CO.
    apply (@star_pays (IRead i) (MkI w vs) cs n r st'
      (e <- IterObj.lift (read_entry (r0, cl_m cl));; ret (JEnt (fst e) (snd e)))
      (MkI w (set_nth i (VO (MkO c (OAt (r0, cl_q cl)) (Some (r0, cl_m cl)))) vs)) en D).
    + cbn [iexec]. unfold with_var. cbn [i_vars]. rewrite NV. unfold bind at 1. unfold i_deref, bind at 1, IterObj.lift at 1. cbn [i_world i_vars].
      rewrite (deref_o G L H). reflexivity.
    + cbn [j_exec]. unfold j_with_var. cbn [j_state i_vars]. rewrite NV. cbn [j_deref]. unfold bind, j_star, noexcept.
      rewrite (lookup_ev _ _ L H). unfold lookup_j. destruct en as [?|]; [|destruct (throws n); auto];
      unfold ret; unfold unsearched, put_var, modify; cbn [j_state j_searches i_world i_vars];
      unfold on_world, unsearched; cbn [j_state j_searches i_world i_vars]; destruct (IterObj.lift _ _); reflexivity.
    + reflexivity.
  - (* IWrite *)
    destruct AL as (cu & N & k & MK). destruct (f2_nth F N) as (v0 & NV & S).
    cbn [fee]. unfold element. rewrite N. rewrite MK.
    destruct (cu_ord cu) eqn:CO; pose proof (stands_kind S) as SK; rewrite CO in SK;
      [|apply pays_nothing; [eapply unordered_step; eauto|exact D]].
    rewrite (nth_warm NV).
    destruct S as [v0 b c H|c H|c H|k' c r0 s cl en L H|k' c r0 s cl en L H]; try discriminate MK; try discriminate CO.
    apply (@star_pays (IWrite i v) (MkI w vs) cs n r st'
      (IterObj.lift (update_node (r0, cl_m cl) (fun n => MkNode (n_key n) v (n_ord n) (n_time n)));;; ret JUnit)
      (MkI w (set_nth i (VO (MkO c (OAt (r0, cl_q cl)) (Some (r0, cl_m cl)))) vs)) en D).
    + cbn [iexec]. unfold with_var. cbn [i_vars]. rewrite NV. unfold bind at 1. unfold i_deref, bind at 1, IterObj.lift at 1. cbn [i_world i_vars].
      rewrite (deref_o G L H). reflexivity.
    + cbn [j_exec]. unfold j_with_var. cbn [j_state i_vars]. rewrite NV. cbn [j_deref]. unfold bind, j_star, noexcept.
      rewrite (lookup_ev _ _ L H). unfold lookup_j. destruct en as [?|]; [|destruct (throws n); auto];
      unfold ret; unfold unsearched, put_var, modify; cbn [j_state j_searches i_world i_vars];
      unfold on_world, unsearched; cbn [j_state j_searches i_world i_vars]; destruct (IterObj.lift _ _); reflexivity.
    + reflexivity.
  - (* IEntry *)
    destruct AL as (cu & N & T & LE). destruct (f2_nth F N) as (v & NV & S). cbn [fee].
    apply (@entry_pays (IEntry i) i (fun p => e <- IterObj.lift (read_entry p);; ret (JEnt (fst e) (snd e))) n w vs cs r st' v cu);
      try reflexivity; auto.
    + intros [n0 st0]. cbn [j_exec]. unfold j_with_var. cbn [j_state]. destruct (nth_error (i_vars st0) i); auto.
      unfold bind. destruct (j_entry _ _ _ _ _) as [a h| | |]; auto. unfold on_world, unsearched. destruct h as [n1 st1]. cbn [j_state j_searches].
      destruct (IterObj.lift _ _); auto.
    + intros st0 p. apply (quiet_bind (quiet_lift (quiet_bind (@quiet_deref p) (fun n => quiet_ret _))) (fun e => quiet_ret _)).
  - (* IKey *)
    destruct AL as (cu & N & T & LE). destruct (f2_nth F N) as (v & NV & S). cbn [fee].
    unfold element. rewrite N. pose proof (stands_kind S) as SK.
    destruct (cu_ord cu) eqn:CO.
    2:{ apply pays_nothing; [|exact D]. cbn [j_exec iexec]. unfold j_with_var, unsearched. cbn [j_state j_searches i_vars].
      unfold with_var. cbn [i_vars]. rewrite NV. destruct v; try discriminate SK; cbn [j_key]; unfold bind, unsearched;
      cbn [j_state j_searches]; destruct (i_key E i _ _); auto. }
    destruct S as [v b c H|c H|c H|k c r0 s0 cl en L H|k c r0 s0 cl en L H]; try discriminate CO; [now elim T| |]; cbn [cu_mark cu_cache] in *.
    + apply pays_nothing; [|exact D]. cbn [j_exec iexec]. unfold j_with_var, unsearched. cbn [j_state j_searches i_vars].
      unfold with_var. cbn [i_vars]. rewrite NV. cbn [j_key i_key]. unfold j_o_key, o_key, j_throw_if_invalid, throw_if_invalid_o, bind, on_world, unsearched, IterObj.lift.
      cbn [i_world i_vars j_state j_searches oi_cache ordered_end]. destruct (get_cache c w); auto.
      unfold o_eq. simpl. rewrite Nat.eqb_refl. reflexivity.
    + destruct (lives_cache L) as (x & Hx & _).
      pose proof (lives_same (wa_caches x w) (wa_stores x w) L) as L'.
      assert (CH : check w c = checks x).
      { unfold check, checks. rewrite (timed_is Hx). destruct (c_ttl x); auto. }
      eapply (@check_pays (IKey i) n w vs cs r st' x cl (Some (r0, cl_m cl)) (ret (JKey (e_key (cl_e cl)))) (MkI (wa x w) vs) _ D).
      * cbn [iexec]. unfold with_var. cbn [i_vars]. rewrite NV. cbn [i_key]. unfold bind, IterObj.lift. cbn [i_world i_vars].
        rewrite (o_key_ev G L H Hx). destruct (late E x cl w); auto.
      * cbn [j_exec]. unfold j_with_var. cbn [j_state i_vars]. rewrite NV. cbn [j_key]. unfold j_o_key. cbn [oi_cache oi_pos].
        unfold bind. rewrite (check_j _ _ L H Hx). unfold late_j, ret, wa in *.
        destruct (c_ttl x).
        -- destruct (throws n); auto. destruct (throws (S n)); auto. destruct (late E x cl w); auto. cbn [j_searches j_state].
           rewrite (on_val _ _ (lives_list L')), (on_val _ _ (lives_deref L')). reflexivity.
        -- rewrite (on_val _ _ (lives_list L)), (on_val _ _ (lives_deref L)). reflexivity.
      * intros k0. unfold fatal, element. rewrite N. cbn [cu_ord cu_mark cu_cache]. rewrite CH. reflexivity.
      * rewrite CH. unfold first_time. destruct (late E x cl w); symmetry; apply Nat.add_0_r.
  - (* IValue *)
    destruct AL as (cu & N & T & LE). destruct (f2_nth F N) as (v & NV & S). cbn [fee].
    apply (@entry_pays (IValue i) i (fun p => m <- IterObj.lift (deref p);; ret (JVal (n_val m))) n w vs cs r st' v cu);
      try reflexivity; auto.
    + intros [n0 st0]. cbn [j_exec]. unfold j_with_var. cbn [j_state]. destruct (nth_error (i_vars st0) i); auto.
      unfold bind. destruct (j_entry _ _ _ _ _) as [a h| | |]; auto. unfold on_world, unsearched. destruct h as [n1 st1]. cbn [j_state j_searches].
      destruct (IterObj.lift _ _); auto.
    + intros st0 p. apply (quiet_bind (quiet_lift (@quiet_deref p)) (fun e => quiet_ret _)).
  - (* IErase *)
    destruct AL as (cu & N & <- & T). destruct (f2_nth F N) as (v & NV & S). cbn [fee].
    unfold element. rewrite N. pose proof (stands_kind S) as SK.
    destruct (cu_ord cu) eqn:CO.
    2:{ apply pays_nothing; [|exact D]. cbn [j_exec iexec]. unfold j_with_alive, j_with_var, with_alive, unsearched. cbn [j_state j_searches i_world i_vars].
      destruct (alive w (cu_cache cu)); auto. unfold with_var. cbn [i_vars]. rewrite NV.
      destruct v; try discriminate SK; cbn [j_erase]; unfold bind, on_world, unsearched;
      cbn [j_state j_searches]; destruct (IterObj.lift _ _); auto. }
    destruct S as [v b c H|c H|c H|k c r0 s0 cl en L H|k c r0 s0 cl en L H]; try discriminate CO; [now elim T| |]; cbn [cu_mark cu_cache] in *.
    + apply pays_nothing; [|exact D]. cbn [j_exec iexec]. unfold j_with_alive, j_with_var, with_alive, unsearched. cbn [j_state j_searches i_world i_vars].
      destruct (alive w c); auto. unfold with_var. cbn [i_vars]. rewrite NV. cbn [j_erase i_erase]. unfold erase_o, o_eq.
      simpl. unfold bind, IterObj.lift. simpl. rewrite Nat.eqb_refl. reflexivity.
    + destruct (lives_cache L) as (x & Hx & _).
      pose proof (lives_same (wa_caches x w) (wa_stores x w) L) as L'.
      assert (CH : check w c = checks x).
      { unfold check, checks. rewrite (timed_is Hx). destruct (c_ttl x); auto. }
      assert (X : iexec E (IErase c i) (MkI w vs) = (if late E x cl w then Exc KeyExpired (MkI (wa x w) vs) else
        (IterObj.lift (erase_it E c ((r0, cl_m cl), s_epoch s0));;; ret JUnit) (MkI (wa x w) vs))).
      { cbn [iexec]. unfold with_alive. cbn [i_world]. rewrite (lives_alive L). unfold with_var. cbn [i_vars]. rewrite NV. cbn [i_erase].
        unfold erase_o, o_eq. simpl oi_pos. cbn [opos_eqb]. unfold bind, IterObj.lift. cbn [i_world i_vars].
        rewrite (o_key_ev G L H Hx). destruct (late E x cl w); auto. rewrite (lives_find G L'). reflexivity. }
      eapply (@check_pays (IErase c i) n w vs cs r st' x cl None
        (IterObj.lift (erase_it E c ((r0, cl_m cl), s_epoch s0));;; ret JUnit) (MkI (wa x w) vs) _ D X).
      * cbn [j_exec]. unfold j_with_alive. cbn [j_state i_world]. rewrite (lives_alive L). unfold j_with_var. cbn [j_state i_vars]. rewrite NV.
        cbn [j_erase]. unfold o_eq. simpl oi_pos. cbn [opos_eqb]. unfold j_o_key. cbn [oi_cache oi_pos].
        unfold bind. rewrite (check_j _ _ L H Hx). unfold late_j, ret, wa in *.
        destruct (c_ttl x).
        -- destruct (throws n); auto. destruct (throws (S n)); auto. destruct (late E x cl w); auto. cbn [j_searches j_state].
           rewrite (on_val _ _ (lives_list L')), (on_val _ _ (lives_deref L')). cbn [node_of n_key]. rewrite (find_j _ _ L').
           destruct (throws (S (S n))); auto. unfold on_world, unsearched. cbn [j_state j_searches]. destruct (IterObj.lift _ _); auto.
        -- rewrite (on_val _ _ (lives_list L)), (on_val _ _ (lives_deref L)). cbn [node_of n_key]. rewrite (find_j _ _ L).
           cbn [j_searches j_state].
           destruct (throws n); auto. unfold on_world, unsearched. cbn [j_state j_searches]. destruct (IterObj.lift _ _); auto.
      * intros k0. unfold fatal, element. rewrite N. cbn [cu_ord cu_mark cu_cache]. rewrite CH. reflexivity.
      * rewrite CH. unfold idone in D. rewrite X in D. unfold first_time.
        pose proof (quiet_bind (quiet_lift (@quiet_erase c ((r0, cl_m cl), s_epoch s0))) (fun _ => quiet_ret (@JUnit K V)) (MkI (wa x w) vs)) as Z.
        destruct (late E x cl w).
        -- destruct r; inversion D; subst; lia.
        -- destruct r; auto. rewrite D in Z. contradiction.
  - (* IValid *)
    destruct AL as (cu & N & <- & T). destruct (f2_nth F N) as (v & NV & S). cbn [fee].
    unfold element. rewrite N. pose proof (stands_kind S) as SK.
    destruct (cu_ord cu) eqn:CO.
    2:{ apply pays_nothing; [|exact D]. cbn [j_exec iexec]. unfold j_with_alive, j_with_var, with_alive, unsearched. cbn [j_state j_searches i_world i_vars].
      destruct (alive w (cu_cache cu)); auto. unfold with_var. cbn [i_vars]. rewrite NV.
      destruct v; try discriminate SK; cbn [j_valid]; unfold bind, on_world, unsearched;
      cbn [j_state j_searches]; destruct (IterObj.lift _ _); auto. }
    destruct S as [v b c H|c H|c H|k c r0 s0 cl en L H|k c r0 s0 cl en L H]; try discriminate CO; [now elim T| |]; cbn [cu_mark cu_cache] in *.
    + apply pays_nothing; [|exact D]. cbn [j_exec iexec]. unfold j_with_alive, j_with_var, with_alive, unsearched. cbn [j_state j_searches i_world i_vars].
      destruct (alive w c); auto. unfold with_var. cbn [i_vars]. rewrite NV. cbn [j_valid i_valid].
      unfold j_is_valid, is_valid_o, noexcept, bind, on_world, unsearched, IterObj.lift. cbn [j_state j_searches i_world i_vars].
      unfold get_cache. destruct (slot (w_caches w) c); auto. unfold o_eq. simpl. rewrite Nat.eqb_refl. reflexivity.
    + destruct (lives_cache L) as (x & Hx & _).
      assert (X : iexec E (IValid c i) (MkI w vs) = Val (JBool (negb (late E x cl w))) (MkI (wa x w) vs)).
      { cbn [iexec]. unfold with_alive. cbn [i_world]. rewrite (lives_alive L). unfold with_var. cbn [i_vars]. rewrite NV. cbn [i_valid].
        unfold bind, IterObj.lift. cbn [i_world i_vars]. rewrite (valid_o G L H Hx). reflexivity. }
      assert (Y : j_exec E throws (IValid c i) (JS n w vs) = match c_ttl x with
        | None => Val (JBool (negb (late E x cl w))) (JS n (wa x w) vs)
        | Some _ => match throws n with Some e => Term (UserExn e) | None =>
            match throws (S n) with Some e => Term (UserExn e) | None =>
            Val (JBool (negb (late E x cl w))) (JS (S (S n)) (wa x w) vs) end end end).
      { cbn [j_exec]. unfold j_with_alive. cbn [j_state i_world]. rewrite (lives_alive L). unfold j_with_var. cbn [j_state i_vars]. rewrite NV.
        cbn [j_valid]. unfold j_is_valid, noexcept, bind.
        assert (X' : get_cache c w = Val x w) by (unfold get_cache; rewrite Hx; auto). rewrite (on_val _ _ X').
        unfold o_eq. simpl oi_pos. cbn [opos_eqb]. unfold late, wa. destruct (c_ttl x) as [d|]; auto.
        cbn [oi_pos ordered_end opos_eqb]. rewrite (expired_j _ _ _ L H). destruct (throws n); auto. destruct (throws (S n)); auto. }
      unfold idone in D. rewrite X in D. destruct r; inversion D; subst. clear D. unfold check. rewrite (timed_is Hx).
      split.
      * intros TH. unfold jgives. rewrite Y. destruct (c_ttl x).
        -- pose proof (TH 0 ltac:(simpl; lia)) as H0. pose proof (TH 1 ltac:(simpl; lia)) as H1. rewrite Nat.add_0_r in H0. rewrite Nat.add_1_r in H1.
           rewrite H0, H1. simpl. now rewrite <- plus_n_Sm, Nat.add_1_r.
        -- simpl. now rewrite Nat.add_0_r.
      * intros k0 e LT TH TH'. rewrite Y. cbn [fatal]. destruct (c_ttl x); simpl in LT; [|lia].
        destruct k0 as [|[|k0]]; [| |lia].
        -- rewrite Nat.add_0_r in TH. rewrite TH. reflexivity.
        -- specialize (TH' 0 ltac:(lia)). rewrite Nat.add_0_r in TH'. rewrite Nat.add_1_r in TH. rewrite TH', TH. reflexivity.
Qed.
End Main.

(** ** Steps in between *)
Lemma nth_set_other (l : list bool) i j b : i <> j -> nth i (set_nth j b l) false = nth i l false.
Proof. revert i j. induction l; intros [|i] [|j] H; simpl; auto; try lia. Qed.
Lemma nth_set_true (l : list bool) i j : nth i l false = true -> nth i (set_nth j true l) false = true.
Proof. revert i j. induction l; intros [|i] [|j] H; simpl in *; auto. Qed.
Lemma nth_app_true (l : list bool) i b : nth i l false = true -> nth i (l ++ [b]) false = true.
Proof. revert i. induction l; intros [|i] H; simpl in *; auto; discriminate. Qed.
Lemma heat_leaves {K V} i (s : istep K V) cs r hs : leaves i s = true -> nth i hs false = true -> nth i (heat s cs r hs) false = true.
Proof.
  intros L H. destruct s, r; simpl in L; cbn [heat]; auto using nth_app_true, nth_set_true;
    repeat match goal with
    | L : (_ && _)%bool = true |- _ => apply andb_prop in L as [? ?]
    | L : negb (Nat.eqb _ _) = true |- _ => apply negb_true_iff, Nat.eqb_neq in L
    | |- context [if ?b then _ else _] => destruct b
    end; auto using nth_set_true; try apply nth_app_true; rewrite ?nth_set_other; auto.
Qed.
Lemma meanwhile_warms {K V} (E : env K V) i st cs st' cs' hs : meanwhile E i st cs st' cs' -> iwarms E st cs hs -> nth i hs false = true ->
  exists hs', iwarms E st' cs' hs' /\ nth i hs' false = true.
Proof.
  intros M W H. induction M as [|st1 cs1 s r st2 cs2 M IH LV AL D P]; [eauto|].
  destruct IH as (hs1 & W1 & H1). exists (heat s cs1 r hs1). split; [econstructor; eauto|]. now apply heat_leaves.
Qed.
Lemma nth_set_same (l : list bool) i b : i < length l -> nth i (set_nth i b l) false = b.
Proof. revert i. induction l; intros [|i] H; simpl in *; auto; try lia. apply IHl. lia. Qed.

Section Theorems.
Context {K V : Type}.
Variable E : env K V.
Hypothesis G : good E.

Theorem searches_number throws n st cs hs s r st' : iwarms E st cs hs -> iallowed E s (i_world st) cs -> iterating s = true ->
  idone E s st r st' -> (forall k, k < fee s (i_world st) cs hs r -> throws (n + k) = None) ->
  jgives E throws s (MkJ n st) r (MkJ (n + fee s (i_world st) cs hs r) st').
Proof. intros W AL IT D. exact (proj1 (@step_costs K V E G throws s st cs hs n r st' W AL IT D)). Qed.

Lemma plays_warms st cs : iplays E st cs -> exists hs, iwarms E st cs hs.
Proof. induction 1 as [|? ? ? ? ? ? _ [hs IH]]; eexists; econstructor; eauto. Qed.

Theorem key_free throws n st cs i r st' : iplays E st cs -> iallowed E (IKey i) (i_world st) cs ->
  (forall c, element cs i = Some c -> timed c (i_world st) = false) -> idone E (IKey i) st r st' ->
  jgives E throws (IKey i) (MkJ n st) r (MkJ n st').
Proof.
  intros P AL T D. destruct (plays_warms P) as (hs & W).
  pose proof (@step_costs K V E G throws _ st cs hs n r st' W AL eq_refl D) as [X _]. cbn [fee] in X.
  destruct (element cs i) as [c|]; [unfold check in X; rewrite (T c eq_refl) in X|]; rewrite Nat.add_0_r in X; apply X; lia.
Qed.

Theorem fixed_free throws n st cs s r st' : iplays E st cs -> iallowed E s (i_world st) cs -> steady s = true ->
  idone E s st r st' -> jgives E throws s (MkJ n st) r (MkJ n st').
Proof.
  intros P AL S D. destruct (plays_warms P) as (hs & W).
  destruct s; try discriminate S;
  (pose proof (@step_costs K V E G throws _ st cs hs n r st' W AL eq_refl D) as [X _]; cbn [fee] in X; rewrite Nat.add_0_r in X; apply X; lia).
Qed.

Theorem value_once throws n st cs i c s r st1 cs1 st2 cs2 s' r' st' : iplays E st cs -> element cs i = Some c ->
  uses i s = true -> iallowed E s (i_world st) cs -> idone E s st (IGives r) st1 ->
  ipromise E s (i_world st) cs (IGives r) (i_world st1) cs1 -> meanwhile E i st1 cs1 st2 cs2 ->
  uses i s' = true -> (unchecked s' = true \/ forall c', element cs2 i = Some c' -> timed c' (i_world st2) = false) ->
  iallowed E s' (i_world st2) cs2 -> idone E s' st2 r' st' ->
  jgives E throws s' (MkJ n st2) r' (MkJ n st').
Proof.
  intros P EL DS AL D PR MW DS' UC AL' D'. destruct (plays_warms P) as (hs & W).
  assert (H : nth i (heat s cs (IGives r) hs) false = true).
  { destruct (warms_plays G W) as (_ & ->). pose proof (plays_tracked G P) as (_ & F). unfold element in EL.
    destruct s; try discriminate DS; apply Nat.eqb_eq in DS; subst; destruct AL as (cu & N & AL); destruct (f2_nth F N) as (v0 & NV & S);
      assert (LT : i0 < length (map warm (i_vars st))) by (rewrite map_length; apply nth_error_Some; congruence);
      rewrite N in EL; cbn [heat]; rewrite ?N; try (now apply nth_set_same);
      (destruct (cu_ord cu); [|discriminate EL]; destruct (cu_mark cu); try discriminate EL; now apply nth_set_same). }
  assert (W1 : iwarms E st1 cs1 (heat s cs (IGives r) hs)) by (econstructor; eauto).
  destruct (meanwhile_warms MW W1 H) as (hs2 & W2 & H2).
  assert (IT : iterating s' = true) by (destruct s'; try discriminate DS'; reflexivity).
  pose proof (@step_costs K V E G throws s' st2 cs2 hs2 n r' st' W2 AL' IT D') as [X _].
  destruct s'; try discriminate DS'; apply Nat.eqb_eq in DS'; subst; cbn [fee] in X; rewrite H2 in X;
    (destruct (element cs2 i0) as [c2|]; [|rewrite Nat.add_0_r in X; apply X; lia]);
    try (destruct UC as [UC|UC]; [discriminate UC|]; unfold check in X; rewrite (UC c2 eq_refl) in X; destruct r');
    try change (0 + 0) with 0 in X; rewrite Nat.add_0_r in X; apply X; lia.
Qed.

Theorem searches_exn throws n st cs hs s r st' k e : iwarms E st cs hs -> iallowed E s (i_world st) cs -> iterating s = true ->
  idone E s st r st' -> k < fee s (i_world st) cs hs r -> throws (n + k) = Some e -> (forall k', k' < k -> throws (n + k') = None) ->
  fatal s (i_world st) cs k = false ->
  exists st1, j_exec E throws s (MkJ n st) = Exc (UserExn e) (MkJ (n + k + 1) st1) /\
    unchanged (i_world st) (i_world st1) /\ i_vars st1 = i_vars st.
Proof.
  intros W AL IT D LT TH TH' FA. pose proof (proj2 (@step_costs K V E G throws s st cs hs n r st' W AL IT D) k e LT TH TH') as X.
  rewrite FA in X. exact X.
Qed.
Theorem searches_fatal throws n st cs hs s r st' k e : iwarms E st cs hs -> iallowed E s (i_world st) cs -> iterating s = true ->
  idone E s st r st' -> k < fee s (i_world st) cs hs r -> throws (n + k) = Some e -> (forall k', k' < k -> throws (n + k') = None) ->
  fatal s (i_world st) cs k = true -> j_exec E throws s (MkJ n st) = Term (UserExn e).
Proof.
  intros W AL IT D LT TH TH' FA. pose proof (proj2 (@step_costs K V E G throws s st cs hs n r st' W AL IT D) k e LT TH TH') as X.
  rewrite FA in X. exact X.
Qed.
End Theorems.
