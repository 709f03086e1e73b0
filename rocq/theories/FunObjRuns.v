(** Proofs about function objects, continued: what a client sees. *)
From Coq Require Import List Arith ZArith Bool Permutation Lia.
Import ListNotations.
From Verif Require Import Monad Types Model Api Spec Ref Lists SimBase SimRel SimOps SimIns SimErase SimIter SimNew SimObs SimExec RefEval SimRun LruProofs CallProofs LruMore Flat Global Safe Frame SpecPair SpecRefs Refs FillRes PairProofs SpecCopy CopyMore FunObj SpecFunObj FunObjProofs.
Set Implicit Arguments.
Unset Strict Implicit.

(** ** The textbook cache with other keys *)
Section Tagged.
Context {K L V : Type}.
Variable f : K -> L.
Variable Ek : env K V.
Variable El : env L V.
Hypothesis same : forall a b, key_equal El (f a) (f b) = key_equal Ek a b.
Implicit Types (l : list (K * V)) (s : @lru K V) (x : @lcall K V).

Definition on_pair (p : K * V) : L * V := (f (fst p), snd p).
Definition lmap x : @lcall L V :=
  match x with
  | LInsert k v => LInsert (f k) v | LEmplace k v => LEmplace (f k) v
  | LInsertRange l => LInsertRange (map_keys f l) | LInsertMove l => LInsertMove (map_keys f l)
  | LAssignRange l => LAssignRange (map_keys f l) | LAssignMove l => LAssignMove (map_keys f l)
  | LFind k => LFind (f k) | LContains k => LContains (f k) | LLookup k => LLookup (f k) | LWrite k v => LWrite (f k) v
  | LErase k => LErase (f k) | LEraseFound k => LEraseFound (f k) | LEraseOrdered n => LEraseOrdered n
  | LClear => LClear | LShrink n => LShrink n | LSetCapacity n => LSetCapacity n
  | LSize => LSize | LCapacity => LCapacity | LSpaceLeft => LSpaceLeft | LIsEmpty => LIsEmpty | LIsFull => LIsFull
  | LFront => LFront | LBack => LBack
  | LOrdered => LOrdered | LBackward => LBackward | LUnordered => LUnordered
  | LEntryAt n => LEntryAt n | LValidAt n => LValidAt n
  end.
Definition smap s : @lru L V := Lru (lcap s) (map_keys f (items s)).
Definition omap (r : outcome K V) : outcome L V :=
  match r with Returned x => Returned (map_out f x) | Threw e => Threw e end.

Lemma on_map c x : on c (lmap x) = map_op f (on c x).
Proof. destruct x; reflexivity. Qed.
Lemma look_map k l : look El (f k) (map_keys f l) = option_map on_pair (look Ek k l).
Proof. induction l as [|p t IH]; simpl; auto. rewrite same. destruct (key_equal Ek k (fst p)); auto. Qed.
Lemma has_map k l : has El (f k) (map_keys f l) = has Ek k l.
Proof. induction l as [|p t IH]; simpl; auto. rewrite same, IH. auto. Qed.
Lemma without_map k l : without El (f k) (map_keys f l) = map_keys f (without Ek k l).
Proof. induction l as [|p t IH]; simpl; auto. rewrite same. destruct (key_equal Ek k (fst p)); simpl; congruence. Qed.
Lemma keys_firstn n l : firstn n (map_keys f l) = map_keys f (firstn n l).
Proof. apply firstn_map. Qed.
Lemma lput_map k v s : lput El (f k) v (smap s) =
  ((fst (fst (lput Ek k v s)), option_map on_pair (snd (fst (lput Ek k v s)))), smap (snd (lput Ek k v s))).
Proof.
  unfold lput. simpl. destruct (Nat.eqb (lcap s) 0); auto. rewrite look_map.
  destruct (look Ek k (items s)) as [(k0 & v0)|]; simpl.
  - rewrite without_map. reflexivity.
  - unfold smap, ltake. cbn [lcap items]. rewrite <- keys_firstn. reflexivity.
Qed.
Lemma lputs_map l : forall s, lputs El (map_keys f l) (smap s) = (fst (lputs Ek l s), smap (snd (lputs Ek l s))).
Proof.
  induction l as [|(k & v) t IH]; intros s; simpl; auto. rewrite lput_map.
  destruct (lput Ek k v s) as ((b & p) & s1). simpl. rewrite IH.
  destruct (lputs Ek t s1) as (n & s2). reflexivity.
Qed.
Lemma lget_map k s : lget El (f k) (smap s) = (option_map on_pair (fst (lget Ek k s)), smap (snd (lget Ek k s))).
Proof.
  unfold lget. simpl. rewrite look_map. destruct (look Ek k (items s)) as [p|]; simpl; auto.
  rewrite without_map. reflexivity.
Qed.
Lemma keys_nth l n : nth_error (map_keys f l) n = option_map on_pair (nth_error l n).
Proof. apply nth_error_map. Qed.
Lemma keys_rev l : rev (map_keys f l) = map_keys f (rev l).
Proof. symmetry. apply map_rev. Qed.
Lemma keys_length l : length (map_keys f l) = length l.
Proof. apply map_length. Qed.

Lemma lstep_map x s : lstep El (lmap x) (smap s) =
  option_map (fun q => (omap (fst q), smap (snd q))) (lstep Ek x s).
Proof.
  destruct x; simpl; rewrite ?keys_rev, ?keys_nth, ?keys_length, ?has_map; try reflexivity.
  - rewrite lput_map. destruct (lput Ek k v s) as ((b & [p|]) & s'); reflexivity.
  - rewrite lput_map. destruct (lput Ek k v s) as ((b & [p|]) & s'); reflexivity.
  - rewrite lputs_map. destruct (lputs Ek l s) as (n & s'); reflexivity.
  - rewrite lputs_map. destruct (lputs Ek l s) as (n & s'); reflexivity.
  - unfold lassign. simpl. rewrite keys_length. pose proof (lputs_map l (Lru (Nat.max (lcap s) (length l)) [])) as Q. unfold smap in Q at 1. simpl in Q. rewrite Q. reflexivity.
  - unfold lassign. simpl. rewrite keys_length. pose proof (lputs_map l (Lru (Nat.max (lcap s) (length l)) [])) as Q. unfold smap in Q at 1. simpl in Q. rewrite Q. reflexivity.
  - rewrite lget_map. destruct (lget Ek k s) as ([p|] & s'); reflexivity.
  - rewrite lget_map. destruct (lget Ek k s) as ([p|] & s'); reflexivity.
  - rewrite lget_map. destruct (lget Ek k s) as ([(k0 & v)|] & s'); reflexivity.
  - rewrite lget_map. destruct (lget Ek k s) as ([(k0 & v0)|] & s'); simpl; auto. rewrite without_map. reflexivity.
  - unfold ldel. simpl. rewrite without_map. reflexivity.
  - unfold ldel. simpl. rewrite without_map. destruct (has Ek k (items s)); reflexivity.
  - destruct (nth_error (rev (items s)) n) as [(k & v)|]; simpl; auto. unfold ldel. simpl. rewrite without_map. reflexivity.
  - unfold ltake, smap. cbn [lcap items]. rewrite keys_firstn. reflexivity.
  - unfold ltake, smap. cbn [lcap items]. rewrite keys_firstn. reflexivity.
  - destruct (items s) as [|(k & v) t]; reflexivity.
  - destruct (rev (items s)) as [|(k & v) t]; reflexivity.
  - destruct (nth_error (rev (items s)) n) as [p|]; reflexivity.
Qed.
Lemma lrun_map xs : forall s, lrun El (map lmap xs) (smap s) =
  (map omap (fst (lrun Ek xs s)), option_map smap (snd (lrun Ek xs s))).
Proof.
  induction xs as [|x t IH]; intros s; simpl; auto. rewrite lstep_map.
  destruct (lstep Ek x s) as [(r & s')|]; simpl; auto. rewrite IH.
  destruct (lrun Ek t s') as (rs & fin). reflexivity.
Qed.
Lemma distinct_map l : distinct El (map_keys f l) <-> distinct Ek l.
Proof. induction l as [|p t IH]; simpl; [tauto|]. rewrite has_map, IH. tauto. Qed.

(** Back again. *)
Variable g : L -> K.
Hypothesis gf : forall k, g (f k) = k.
Lemma keys_back l : map_keys g (map_keys f l) = l.
Proof. unfold map_keys. rewrite map_map. rewrite <- map_id. apply map_ext. intros (k & v). simpl. rewrite gf. auto. Qed.
Lemma out_back (r : out K V) : map_out g (map_out f r) = r.
Proof.
  destruct r; simpl; auto.
  - rewrite gf. auto.
  - destruct e as [(k & v)|]; simpl; rewrite ?gf; auto.
  - destruct e as [(k & v)|]; simpl; rewrite ?gf; auto.
  - f_equal. apply keys_back.
Qed.
End Tagged.

Section Back.
Context {K L V : Type}.
Variables (f : K -> L) (g : L -> K).
Hypothesis gf : forall k, g (f k) = k.
Lemma agree_back (x : @lcall K V) (r : outcome L V) (r' : outcome K V) :
  agree (lmap f x) r (omap f r') -> agree x (omap g r) r'.
Proof.
  assert (B : r = omap f r' -> omap g r = r').
  { intros ->. destruct r'; simpl; rewrite ?out_back; auto. }
  destruct x; simpl; auto. intros (l & l' & -> & Q & P). simpl.
  exists (map_keys g l), (map_keys g l'). split; auto. split; [|apply Permutation_map; auto].
  destruct r' as [r'|e]; simpl in Q; inversion Q as [Q1]. destruct r'; inversion Q1. f_equal. f_equal.
  symmetry. apply keys_back; auto.
Qed.
Lemma agrees_back (xs : list (@lcall K V)) : forall (rs : list (outcome L V)) (rs' : list (outcome K V)),
  agrees (map (lmap f) xs) rs (map (omap f) rs') -> agrees xs (map (omap g) rs) rs'.
Proof.
  induction xs as [|x t IH]; intros [|r rs] [|r' rs']; simpl; auto. intros (A & B). split; auto using agree_back.
Qed.
End Back.

Section Seen.
Context {K V : Type}.
Notation key := (nat * K)%type.
Notation fstate := (fstate K V).
Variable E : env key V.
Hypothesis G : good E.
Variable callable : nat -> bool.
Implicit Types (t : nat -> nat) (o : op K V) (st : fstate) (p : fop K V).

Lemma mkf_eta st : MkF (f_world st) (f_map st) (f_last st) = st.
Proof. destruct st; auto. Qed.
Lemma ledger_map o (r : out key V) t : constructor o = false ->
  ledger (FCall o) (Returned (map_out snd r)) t = ledger_call o (Returned r) t.
Proof. destruct o, r; simpl; intros; try discriminate; reflexivity. Qed.
Lemma ledger_new i o (e : nat) t : constructor o = true ->
  ledger (FNew i o) (Returned (RNat e)) t = enter e i t.
Proof. auto. Qed.
Lemma ledger_default o (e : nat) t : constructor o = true ->
  ledger (FCall o) (Returned (RNat e)) t = enter e 0 t.
Proof. destruct o; simpl; intros; try discriminate; reflexivity. Qed.
Lemma ledger_threw p e t : ledger p (Threw e) t = t.
Proof. destruct p as [? o|o| |]; auto. destruct o; auto. Qed.
Lemma finv_self st t : finv E st t -> finv E st (f_map st).
Proof. intros I. eapply finv_ext; [|exact I]. intros c. symmetry. apply (fi_map I). Qed.

(** What a step amounts to. *)
Lemma step_inv p st t : f_copy_free p = true -> finv E st t ->
  match fexec E callable p st with
  | Val r st' => finv E st' (ledger p (Returned r) t)
  | Exc e st' => finv E st' t
  | _ => True
  end.
Proof.
  intros CF I. unfold fexec, bind. destruct p as [i o|o|d|c].
  - destruct (constructor o) eqn:C; [|simpl; auto]. pose proof (construct_inv G callable i C I) as X.
    destruct (construct E callable i o st) as [r st'| | |]; auto; try contradiction.
    destruct X as (e & -> & X & _). exact X.
  - destruct (constructor o) eqn:C.
    + pose proof (construct_inv G callable 0 C I) as X.
      destruct (construct E callable 0 o st) as [r st'| | |]; auto; try contradiction.
      destruct X as (e & -> & X & _). simpl map_out. unfold ret. rewrite ledger_default by auto. exact X.
    + pose proof (call_inv G callable C CF I) as X. cbv zeta in X.
      destruct (call E callable o st) as [r st'|e st'| |]; unfold ret; auto.
      * rewrite ledger_map by auto. apply X.
      * apply X.
  - unfold direct. destruct (timed (f_world st) d) eqn:T; [simpl; auto|].
    pose proof (unordered_step G (finv_self I) T) as X. 
    destruct (exec E (Unordered d) (f_world st)) as [r w'| | |]; try contradiction.
    destruct r; try (simpl; exact I). destruct X as (-> & _).
    rewrite mkf_eta. assert (C : constructor (NewIters (V := V) None (map_keys snd l)) = true) by auto.
    pose proof (construct_inv G callable 0 C I) as X.
    destruct (construct E callable 0 (NewIters None (map_keys snd l)) st) as [r st'| | |]; auto; try contradiction.
    destruct X as (e & -> & X & _). exact X.
  - unfold objects. destruct (alive (f_world st) c); simpl; auto.
Qed.
Lemma after_inv st t : f_after E callable st t -> finv E st t.
Proof.
  induction 1 as [|st t p r st' H I CF X|st t p e st' H I CF X].
  - constructor; simpl; auto; [constructor|]. destruct (reach_rel G (reach_init E)) as (aw & R).
    exists aw. split; auto. intros c a Ha. pose proof (rel_len R) as Q. simpl in Q.
    rewrite slot_overflow in Ha by (rewrite <- Q; simpl; lia). discriminate.
  - pose proof (step_inv CF I) as Y. rewrite X in Y. auto.
  - pose proof (step_inv CF I) as Y. rewrite X in Y. rewrite ledger_threw. auto.
Qed.

(** Steps that leave the objects alone. *)
Definition quiet o : bool :=
  match o with
  | New _ _ | NewFrom _ _ _ | NewIters _ _ | NewMove _ _ _ | NewRvalue _ _ | NewList _ _
  | Copy _ | CopyAssign _ _ | Move _ | MoveAssign _ _ | Swap _ _ | Equal _ _ => false
  | _ => true
  end.
Lemma quiet_exec o st i : quiet o = true -> f_map st (receiver o) = i -> f_last st (receiver o) = i ->
  (searches o = true -> callable i = true) ->
  fexec E callable (FCall o) st =
    match exec E (map_op (pair i) o) (f_world st) with
    | Val r w => Val (map_out snd r) (MkF w (f_map st) (f_last st))
    | Exc e w => Exc e (MkF w (f_map st) (f_last st))
    | Undef u => Undef u
    | Term e => Term e
    end.
Proof.
  intros Q Fm Fl S. unfold fexec, bind.
  assert (C : constructor o = false) by (destruct o; try discriminate; reflexivity).
  assert (Cm : comparable o st = true) by (destruct o; try discriminate; reflexivity).
  assert (Mv : forall r, move_objects o r = ret tt) by (intros r; destruct o; try discriminate; reflexivity).
  rewrite C. unfold call. rewrite Fm, Fl, Nat.eqb_refl, Cm. unfold exec at 1.
  destruct (well_formed (f_world st) (map_op (pair i) o)) eqn:W; simpl.
  - unfold bind, with_objects. replace (searches o && negb (callable i)) with false.
    2: { destruct (searches o); auto. rewrite S; auto. }
    unfold in_world, exec. rewrite W.
    destruct (body E (map_op (pair i) o) (f_world st)); auto. rewrite Mv. reflexivity.
  - rewrite mkf_eta. reflexivity.
Qed.

Lemma tag_back i (l : list (key * V)) : Forall (of i) (map fst l) -> map_keys (pair i) (map_keys snd l) = l.
Proof.
  induction l as [|((j & k) & v) l IH]; simpl; auto. intros F. inversion F as [|? ? Q F']; subst.
  unfold of in Q. simpl in Q. subst j. f_equal; auto.
Qed.
Lemma snd_pair (i : nat) (k : K) : snd (i, k) = k.
Proof. auto. Qed.
Lemma stored_marked t (aw : aworld key V) c a : marked t aw -> slot (aw_caches aw) c = Some a -> Forall (of (t c)) (map fst (map pair_of (a_ents a))).
Proof.
  intros M Ha. specialize (M _ _ Ha). unfold all_p in M. rewrite Forall_forall in *. intros k I.
  rewrite map_map in I. apply in_map_iff in I as (e & <- & I). exact (M e I).
Qed.

Lemma see_contents st t c l : finv E st t ->
  f_contents E callable c st l <-> contents E c (f_world st) (map_keys (pair (t c)) l).
Proof.
  intros I. pose proof I as [A B D (aw & R & M)]. unfold f_contents.
  rewrite (quiet_exec (i := t c)) by (simpl; auto; discriminate). simpl. split.
  - destruct (alive (f_world st) c) eqn:Al.
    + destruct (alive_inv R Al) as (a & Ha). pose proof (contents_of G R Ha) as X. rewrite X. intros Q.
      inversion Q as [Q1]. subst l. 
      unfold contents in *. rewrite mkf_eta, X. f_equal. f_equal. symmetry. apply tag_back. eapply stored_marked; eauto.
    + unfold exec. simpl. rewrite Al. discriminate.
  - intros X. rewrite X. simpl. rewrite mkf_eta. f_equal. f_equal. apply keys_back. intros; auto.
Qed.
Lemma see_capacity st t c n : finv E st t -> f_capacity E callable c st n <-> capacity_is E c (f_world st) n.
Proof.
  intros I. pose proof I as [A B D _]. unfold f_capacity, capacity_is.
  rewrite (quiet_exec (i := t c)) by (simpl; auto; discriminate). simpl.
  destruct (exec E (Capacity c) (f_world st)) as [r w| | |]; split; intros Q; inversion Q; subst.
  - destruct r; inversion H0; subst. auto.
  - simpl. rewrite mkf_eta. auto.
Qed.
Lemma see_objects st t c : finv E st t -> f_alive st c = true -> f_objects E callable c st (t c).
Proof.
  intros I Al. unfold f_objects, fexec, bind, objects. unfold f_alive in Al. rewrite Al. simpl. rewrite (fi_map I). auto.
Qed.
Lemma accessor st t c : f_after E callable st t -> f_alive st c = true -> f_objects E callable c st (t c).
Proof. eauto using after_inv, see_objects. Qed.

(** ** A cache with its objects is a textbook cache *)
Definition hist_map st (h : hist key V) : fhist K V :=
  match h with
  | Finished l w => FFinished (map (omap snd) l) (MkF w (f_map st) (f_last st))
  | Undefined l u => FUndefined (map (omap snd) l) u
  | Terminated l e => FTerminated (map (omap snd) l) e
  end.
Lemma hist_push st r h : fpush (omap snd r) (hist_map st h) = hist_map st (push r h).
Proof. destruct h; auto. Qed.
Lemma run_calls c i (calls : list (@lcall K V)) : callable i = true -> forall st,
  f_map st c = i -> f_last st c = i ->
  f_run E callable (map (fun x => FCall (on c x)) calls) st =
  hist_map st (run E (map (on c) (map (lmap (pair i)) calls)) (f_world st)).
Proof.
  intros Ca. induction calls as [|x calls IH]; intros st Fm Fl; [simpl; rewrite mkf_eta; auto|].
  simpl map. cbn [f_run run]. rewrite (quiet_exec (i := i)); [|destruct x; auto|destruct x; auto|destruct x; auto|auto].
  rewrite on_map.
  destruct (exec E (map_op (pair i) (on c x)) (f_world st)) as [r w|e w|u|e] eqn:X; auto.
  - rewrite (IH (MkF w (f_map st) (f_last st))) by auto. rewrite <- (hist_push st (Returned r)). reflexivity.
  - rewrite (IH (MkF w (f_map st) (f_last st))) by auto. rewrite <- (hist_push st (Threw e)). reflexivity.
Qed.

Variable feq : nat -> K -> K -> bool.
Hypothesis CB : compares_by E feq.
Lemma same_env i (Ei : env K V) : (forall a b, key_equal Ei a b = feq i a b) ->
  forall a b, key_equal E (pair i a) (pair i b) = key_equal Ei a b.
Proof. intros Q a b. rewrite CB, Nat.eqb_refl, Q. auto. Qed.

Lemma objects_lru st t c (Ei : env K V) l n calls : f_after E callable st t -> f_timed st c = false ->
  callable (t c) = true -> f_contents E callable c st l -> f_capacity E callable c st n ->
  (forall a b, key_equal Ei a b = feq (t c) a b) ->
  match lrun Ei calls (Lru n (rev l)) with
  | (answers, Some s) =>
      exists outs st', f_run E callable (map (fun x => FCall (on c x)) calls) st = FFinished outs st' /\
        agrees calls outs answers /\ f_contents E callable c st' (rev (items s)) /\
        f_capacity E callable c st' (lcap s) /\ f_objects E callable c st' (t c)
  | (answers, None) =>
      exists outs, f_run E callable (map (fun x => FCall (on c x)) calls) st = FTerminated outs EmptyCache /\
        agrees calls outs answers
  end.
Proof.
  intros H T Ca Cl Cp Q. pose proof (after_inv H) as I. pose proof I as [A B D _].
  apply (see_contents c l I) in Cl. pose proof Cp as Cp'. apply (see_capacity c n I) in Cp.
  pose proof (@lru_refinement key V E G (f_world st) c n _ (map (lmap (pair (t c))) calls) A T Cl Cp) as X.
  rewrite keys_rev in X.
  pose proof (lrun_map (same_env Q) calls (Lru n (rev l))) as Y. unfold smap at 1 in Y. simpl in Y. rewrite Y in X. clear Y.
  rewrite (run_calls calls Ca (B c) (D c)).
  destruct (lrun Ei calls (Lru n (rev l))) as (answers & [s|]) eqn:Lr; simpl in X.
  - destruct X as (outs & w' & X & Ag & C' & Cp1). rewrite X. simpl.
    exists (map (omap snd) outs), (MkF w' (f_map st) (f_last st)). split; auto. split; [apply (agrees_back (f := pair (t c)) (g := snd) (snd_pair (t c))); exact Ag|].
    set (st' := MkF w' (f_map st) (f_last st)).
    assert (qc : forall n', capacity_is E c w' n' -> f_capacity E callable c st' n').
    { intros n' Z. unfold f_capacity. rewrite (quiet_exec (i := t c)) by (simpl; auto; discriminate). simpl. rewrite Z. auto. }
    assert (qo : forall l', contents E c w' (map_keys (pair (t c)) l') -> f_contents E callable c st' l').
    { intros l' Z. unfold f_contents. rewrite (quiet_exec (i := t c)) by (simpl; auto; discriminate). simpl. rewrite Z. simpl.
      f_equal. f_equal. apply keys_back. auto. }
    split; [|split; auto].
    + apply qo. rewrite <- keys_rev. exact C'.
    + unfold f_objects, fexec, bind, objects. simpl. unfold contents, exec in C'. simpl in C'.
      destruct (alive w' c); [|discriminate]. simpl. rewrite B. auto.
  - destruct X as (outs & X & Ag). rewrite X. simpl. exists (map (omap snd) outs). split; auto. apply (agrees_back (f := pair (t c)) (g := snd) (snd_pair (t c))); exact Ag.
Qed.

Lemma objects_distinct st t c (Ei : env K V) l n : f_after E callable st t -> f_contents E callable c st l ->
  f_capacity E callable c st n -> (forall a b, key_equal Ei a b = feq (t c) a b) -> distinct Ei l /\ length l <= n.
Proof.
  intros H Cl Cp Q. pose proof (after_inv H) as I. pose proof I as [A B D (aw & R & M)].
  apply (see_contents c l I) in Cl. apply (see_capacity c n I) in Cp. split.
  - apply (distinct_map (same_env Q)). apply (traversals G A Cl).
  - rewrite <- (keys_length (pair (t c)) l). eapply (size_le_capacity G A); [|exact Cp]. apply (traversals G A Cl).
Qed.
End Seen.

Section Moves.
Context {K V : Type}.
Notation key := (nat * K)%type.
Notation fstate := (fstate K V).
Variable E : env key V.
Hypothesis G : good E.
Variable callable : nat -> bool.
Implicit Types (t : nat -> nat) (o : op K V) (st : fstate) (p : fop K V).
Notation f_after := (f_after E callable).
Notation fexec := (fexec E callable).

Lemma map_mentions o (i : nat) : mentions (map_op (pair i) o) = mentions o.
Proof. destruct o; reflexivity. Qed.
Lemma ctor_mentions o : constructor o = true -> mentions o = [].
Proof. destruct o; simpl; intros; try discriminate; reflexivity. Qed.
Lemma first_mention o t : constructor o = false -> match mentions o with c :: _ => t c | [] => 0 end = t (receiver o).
Proof. destruct o; simpl; intros; try discriminate; reflexivity. Qed.
Lemma exec_cases (o : op key V) w : reachable E w -> copy_free o = true ->
  match exec E o w with
  | Val _ _ | Exc _ _ => True
  | Undef u => (exists c, o = Move c /\ u = Indeterminate /\ junk E = None) \/
               (exists c k, o = FindEntry c k /\ u = PastTheEnd /\ lenient_end E = false)
  | Term e => e = EmptyCache /\ exists c, (o = Front c \/ o = Back c) /\ contents E c w []
  end.
Proof.
  intros H CF. destruct (reach_rel G H) as (aw & R). destruct (exec_step G R CF) as (ch & S).
  pose proof (step_safe ch o (awf_rel R)) as A.
  destruct (exec E o w), (astep E ch o aw); simpl in S; try contradiction; auto.
  - subst; auto.
  - subst. destruct A as (-> & c & a & O & Ha & En). split; auto. exists c. split; auto.
    pose proof (contents_of G R Ha) as X. rewrite En in X. exact X.
Qed.

(** Every step is a call of the model below it. *)
Definition below p t st st' (k : out key V + exn) : Prop :=
  exists o' : op key V, copy_free o' = true /\ (forall d, In d (mentions o') -> In d (f_mentions p)) /\
    exec E o' (f_world st) = match k with inl r => Val r (f_world st') | inr e => Exc e (f_world st') end.
Lemma step_below p st t : f_copy_free p = true -> finv E st t ->
  match fexec p st with
  | Val r st' => st' = st \/ exists k, below p t st st' (inl k)
  | Exc e st' => below p t st st' (inr e)
  | Undef u =>
      (u = NullPointer /\ callable (works_with p t) = false) \/
      (u = MixedFunctions /\ exists c d, p = FCall (Equal c d) /\ t c <> t d) \/
      (u = Indeterminate /\ junk E = None /\ exists c, p = FCall (Move c)) \/
      (u = PastTheEnd /\ lenient_end E = false /\ exists c k, p = FCall (FindEntry c k))
  | Term e => e = EmptyCache /\ exists c, (p = FCall (Front c) \/ p = FCall (Back c)) /\ f_contents E callable c st []
  end.
Proof.
  intros CF I. unfold FunObj.fexec, bind. 
  assert (New : forall i o, constructor o = true -> f_mentions p = [] \/ (exists d, p = FDirect d) -> works_with p t = i ->
    match match construct E callable i o st with
          | Val a s => ret (map_out snd a) s | Exc e s => Exc e s | Undef u => Undef u | Term e => Term e end with
    | Val r st' => st' = st \/ exists k, below p t st st' (inl k)
    | Exc e st' => below p t st st' (inr e)
    | Undef u => u = NullPointer /\ callable (works_with p t) = false
    | Term e => False
    end).
  { intros i o C _ W. pose proof (construct_inv G callable i C I) as X.
    destruct (construct E callable i o st) as [r st'| | |]; try contradiction; [|rewrite W; auto].
    destruct X as (e & -> & _ & _ & X). unfold ret. right. exists (RNat e), (map_op (pair i) o).
    split; [destruct o; try discriminate; reflexivity|]. split; auto.
    rewrite map_mentions, ctor_mentions by auto. intros d []. }
  destruct p as [i o|o|d|c].
  - destruct (constructor o) eqn:C; [|simpl; auto]. specialize (New i o C (or_introl (ctor_mentions C)) eq_refl).
    destruct (construct E callable i o st); unfold ret in *; auto; contradiction.
  - destruct (constructor o) eqn:C.
    + assert (W : works_with (FCall o) t = 0) by (simpl; rewrite ctor_mentions; auto).
      specialize (New 0 o C (or_introl (ctor_mentions C)) W).
      destruct (construct E callable 0 o st); unfold ret in *; auto; contradiction.
    + pose proof (call_inv G callable C CF I) as X. cbv zeta in X. 
      assert (CF' : copy_free (map_op (pair (t (receiver o))) o) = true) by (rewrite copy_free_map; auto).
      pose proof (exec_cases (fi_reach I) CF') as Y.
      destruct (call E callable o st) as [r st'|e st'|u|e]; unfold ret.
      * right. destruct X as (_ & X). exists r, (map_op (pair (t (receiver o))) o). rewrite map_mentions. auto.
      * destruct X as (_ & X). exists (map_op (pair (t (receiver o))) o). rewrite map_mentions. auto.
      * destruct X as [(-> & Ca & _)|[(-> & c & d & -> & N)|X]].
        -- left. split; auto. simpl. rewrite first_mention; auto.
        -- right. left. split; auto. exists c, d. auto.
        -- rewrite X in Y. right. right. destruct Y as [(c & Q & Qu & J)|(c & k & Q & Qu & J)].
           ++ left. destruct o; try discriminate. inversion Q; subst. eauto.
           ++ right. destruct o; try discriminate. inversion Q; subst. split; auto. split; auto. eexists _, _. reflexivity.
      * rewrite X in Y. destruct Y as (-> & c & Q & Cn). split; auto. exists c. split.
        -- destruct Q as [Q|Q]; destruct o; try discriminate; inversion Q; auto.
        -- apply (see_contents G callable c [] I). exact Cn.
  - unfold direct. destruct (timed (f_world st) d) eqn:T; [simpl; auto|].
    pose proof (unordered_step G (finv_self I) T) as X.
    destruct (exec E (Unordered d) (f_world st)) as [r w'| | |]; try contradiction.
    destruct r; try (simpl; auto). destruct X as (-> & _). rewrite mkf_eta.
    specialize (New 0 (NewIters None (map_keys snd l)) eq_refl (or_intror (ex_intro _ d eq_refl)) eq_refl).
    destruct (construct E callable 0 (NewIters None (map_keys snd l)) st); unfold ret in *; auto; contradiction.
  - unfold objects. destruct (alive (f_world st) c); simpl; auto.
Qed.

Lemma only_undefined st t p u : f_after st t -> f_copy_free p = true -> fexec p st = Undef u ->
  (u = NullPointer /\ callable (works_with p t) = false) \/
  (u = MixedFunctions /\ exists c d, p = FCall (Equal c d) /\ t c <> t d) \/
  (u = Indeterminate /\ junk E = None /\ exists c, p = FCall (Move c)) \/
  (u = PastTheEnd /\ lenient_end E = false /\ exists c k, p = FCall (FindEntry c k)).
Proof. intros H CF X. pose proof (step_below CF (after_inv G H)) as Y. rewrite X in Y. exact Y. Qed.
Lemma only_terminated st t p e : f_after st t -> f_copy_free p = true -> fexec p st = Term e ->
  e = EmptyCache /\ exists c, (p = FCall (Front c) \/ p = FCall (Back c)) /\ f_contents E callable c st [].
Proof. intros H CF X. pose proof (step_below CF (after_inv G H)) as Y. rewrite X in Y. exact Y. Qed.

(** ** Other caches *)
Lemma below_keeps p t st st' k d : reachable E (f_world st) -> reachable E (f_world st') -> below p t st st' k -> ~ In d (f_mentions p) ->
  (forall l, contents E d (f_world st) l -> contents E d (f_world st') l) /\
  (forall n, capacity_is E d (f_world st) n -> capacity_is E d (f_world st') n).
Proof.
  intros H H' (o' & CF & Nm & X) N. destruct (reach_rel G H) as (aw & R). destruct (exec_step G R CF) as (ch & S).
  assert (Sl : forall a, slot (aw_caches aw) d = Some a -> exists aw', rel E (f_world st') aw' /\ slot (aw_caches aw') d = Some a).
  { intros a Ha. pose proof (@step_caches _ _ E ch o' aw d a (fun i => N (Nm d i)) Ha) as Y. rewrite X in S.
    destruct k, (astep E ch o' aw) as [x aw'|x aw'|x|x]; simpl in S; try contradiction; exists aw'; tauto. }
  split.
  - intros l C. destruct (contents_inv G R C) as (a & Ha & ->). destruct (Sl a Ha) as (aw' & R' & Ha'). apply (contents_of G R' Ha').
  - intros n C. destruct (alive (f_world st) d) eqn:Al.
    + destruct (alive_inv R Al) as (a & Ha). destruct (Sl a Ha) as (aw' & R' & Ha').
      pose proof (capacity_of R Ha) as Q. unfold capacity_is in Q, C. rewrite C in Q. inversion Q; subst. apply (capacity_of R' Ha').
    + unfold capacity_is, exec in C. simpl in C. rewrite Al in C. discriminate.
Qed.
Lemma ledger_spares p st t r st' d : f_copy_free p = true -> finv E st t -> fexec p st = Val r st' ->
  f_alive st d = true -> ~ In d (f_mentions p) -> ledger p (Returned r) t d = t d.
Proof.
  intros CF I X Al N. unfold FunObj.fexec, bind in X. destruct p as [i o|o|e|c].
  - destruct (constructor o) eqn:C; [|inversion X; auto]. pose proof (construct_inv G callable i C I) as Y.
    destruct (construct E callable i o st) as [r' s'| | |]; inversion X; subst. destruct Y as (e & -> & _ & D & _). simpl.
    apply enter_other. unfold f_alive in Al. congruence.
  - destruct (constructor o) eqn:C.
    + pose proof (construct_inv G callable 0 C I) as Y.
      destruct (construct E callable 0 o st) as [r' s'| | |]; inversion X; subst. destruct Y as (e & -> & _ & D & _). 
      simpl map_out. rewrite ledger_default by auto. apply enter_other. unfold f_alive in Al. congruence.
    + pose proof (call_inv G callable C CF I) as Y. cbv zeta in Y.
      destruct (call E callable o st) as [r' s'| | |]; inversion X; subst. rewrite ledger_map by auto. destruct Y as (_ & Y).
      destruct o; try reflexivity; simpl in *.
      * (* Copy *) discriminate.
      * (* Move *) destruct r'; auto. rewrite !enter_other; auto. unfold f_alive in Al.
        assert (Alc : alive (f_world st) c = true).
        { unfold exec in Y. simpl in Y. destruct (alive (f_world st) c); auto. discriminate. }
        destruct (junk E) as [m|] eqn:J.
        -- destruct (move_constructs G (fi_reach I) Alc J) as (e & w' & Z & D & _). rewrite Z in Y. inversion Y; subst. congruence.
        -- rewrite (move_undefined G (fi_reach I) Alc J) in Y. discriminate.
      * (* CopyAssign *) apply Nat.eqb_eq in CF as ->. destruct r'; auto. rewrite enter_other; auto.
      * destruct r'; auto. rewrite !enter_other; auto.
      * destruct r'; auto. rewrite !enter_other; auto.
  - unfold direct in X. destruct (timed (f_world st) e) eqn:T; [inversion X; auto|].
    pose proof (unordered_step G (finv_self I) T) as Y.
    destruct (exec E (Unordered e) (f_world st)) as [r' w'| | |]; try contradiction.
    destruct r'; try (inversion X; subst; reflexivity). destruct Y as (-> & _). rewrite mkf_eta in X.
    assert (C : constructor (NewIters (V := V) None (map_keys snd l)) = true) by auto.
    pose proof (construct_inv G callable 0 C I) as Z.
    destruct (construct E callable 0 (NewIters None (map_keys snd l)) st) as [r' s'| | |]; inversion X; subst.
    destruct Z as (e' & -> & _ & D & _). simpl. apply enter_other. unfold f_alive in Al. congruence.
  - reflexivity.
Qed.
Lemma see_alive st t c : finv E st t -> f_alive st c = true <-> exists n, f_capacity E callable c st n.
Proof.
  intros I. unfold f_alive. split.
  - intros Al. destruct (reach_rel G (fi_reach I)) as (aw & R). destruct (alive_inv R Al) as (a & Ha).
    exists (a_cap a). apply (see_capacity _ _ _ I). apply (capacity_of R Ha).
  - intros (n & C). apply (see_capacity _ _ _ I) in C. unfold capacity_is, exec in C. simpl in C.
    destruct (alive (f_world st) c); auto. discriminate.
Qed.
Lemma objects_inv_see st t c i : finv E st t -> f_objects E callable c st i -> f_alive st c = true /\ i = t c.
Proof.
  intros I. unfold f_objects, FunObj.fexec, bind, objects, f_alive. destruct (alive (f_world st) c); intros Q; inversion Q.
  split; auto. apply (fi_map I).
Qed.

Lemma f_frame st t p r st' d : f_after st t -> f_copy_free p = true -> f_call E callable p st r st' ->
  f_alive st d = true -> ~ In d (f_mentions p) -> f_same E callable d st d st'.
Proof.
  intros H CF X Al N. pose proof (after_inv G H) as I.
  assert (Y : exists t', finv E st' t' /\ t' d = t d /\ (st' = st \/ exists k, below p t st st' k)).
  { pose proof (step_inv G callable CF I) as S. pose proof (step_below CF I) as B. destruct r as [r|e]; simpl in X; rewrite X in *.
    - exists (ledger p (Returned r) t). split; auto. split; [eapply ledger_spares; eauto|].
      destruct B as [B|(k & B)]; eauto.
    - exists t. split; auto. split; eauto. }
  destruct Y as (t' & I' & Qt & [->|(k & B)]); [repeat split; auto|].
  destruct (below_keeps (fi_reach I) (fi_reach I') B N) as (Kc & Kn). split; [|split].
  - intros l C. apply (see_contents G callable _ _ I'). rewrite Qt. apply Kc. apply (see_contents G callable _ _ I). auto.
  - intros n C. apply (see_capacity _ _ _ I'). apply Kn. apply (see_capacity _ _ _ I) in C. auto.
  - intros i O. destruct (objects_inv_see I O) as (_ & ->). rewrite <- Qt. apply see_objects; auto.
    apply (see_alive d I'). apply (see_alive d I) in Al as (n & C). exists n.
    apply (see_capacity _ _ _ I'). apply Kn. apply (see_capacity _ _ _ I) in C. auto.
Qed.
End Moves.

Section Carry.
Context {K V : Type}.
Notation key := (nat * K)%type.
Notation fstate := (fstate K V).
Variable E : env key V.
Hypothesis G : good E.
Variable callable : nat -> bool.
Implicit Types (t : nat -> nat) (o : op K V) (st : fstate) (p : fop K V).
Notation f_after := (f_after E callable).
Notation fexec := (fexec E callable).
Notation f_same := (f_same E callable).

Lemma carried st t c st' t' d : finv E st t -> finv E st' t' -> t' d = t c ->
  same_elements E d (f_world st') c (f_world st) -> f_same c st d st'.
Proof.
  intros I I' Q (Sc & Sn & _). split; [|split].
  - intros l C. apply (see_contents G callable _ _ I'). rewrite Q. apply Sc. apply (see_contents G callable _ _ I). auto.
  - intros n C. apply (see_capacity _ _ _ I'). apply Sn. apply (see_capacity _ _ _ I) in C. auto.
  - intros i O. destruct (objects_inv_see I O) as (Al & ->). rewrite <- Q. apply see_objects; auto.
    apply (see_alive G callable d I'). apply (see_alive G callable c I) in Al as (n & C). exists n.
    apply (see_capacity _ _ _ I'). apply Sn. apply (see_capacity _ _ _ I) in C. auto.
Qed.
(** A call that is no constructor and cannot fail. *)
Lemma call_val o st t r w' : constructor o = false -> copy_free o = true -> searches o = false -> comparable o st = true ->
  finv E st t -> exec E (map_op (pair (t (receiver o))) o) (f_world st) = Val r w' ->
  exists st', fexec (FCall o) st = Val (map_out snd r) st' /\ f_world st' = w' /\ finv E st' (ledger_call o (Returned r) t).
Proof.
  intros C CF S Cm I X. unfold FunObj.fexec, bind. rewrite C. pose proof (call_inv G callable C CF I) as Y. cbv zeta in Y. rewrite X in Y.
  destruct (call E callable o st) as [r' st'|e st'|u|e] eqn:Z.
  - destruct Y as (I' & Y). inversion Y; subst. exists st'. auto.
  - destruct Y as (_ & Y). discriminate.
  - exfalso. destruct Y as [(_ & _ & Y)|[(_ & c & d & -> & N)|Y]]; try congruence.
    simpl in Cm. rewrite !(fi_map I) in Cm. apply orb_prop in Cm as [Cm|Cm]; apply Nat.eqb_eq in Cm; congruence.
  - discriminate.
Qed.
Lemma f_exchange st t c d p : f_after st t -> same_kind (f_world st) c d = true -> c <> d ->
  p = FCall (Swap c d) \/ p = FCall (MoveAssign c d) ->
  exists st', fexec p st = Val RUnit st' /\ f_same c st d st' /\ f_same d st c st'.
Proof.
  intros H SK N P. pose proof (after_inv G H) as I.
  assert (W : exists w', exec E (match p with FCall (Swap _ _) => Swap c d | _ => MoveAssign c d end) (f_world st) = Val RUnit w' /\
     same_elements E c w' d (f_world st) /\ same_elements E d w' c (f_world st)).
  { destruct P as [->| ->].
    - destruct (swap_exchanges G (fi_reach I) SK N) as (w' & X & A & B & _). eauto.
    - destruct (move_assigns G (fi_reach I) SK N) as (w' & X & A & B & _). eauto. }
  destruct W as (w' & X & A & B).
  assert (Y : exists st', fexec p st = Val RUnit st' /\ f_world st' = w' /\ finv E st' (enter c (t d) (enter d (t c) t))).
  { destruct P as [->| ->].
    - apply (call_val (o := Swap c d) (r := RUnit)); auto.
    - apply (call_val (o := MoveAssign c d) (r := RUnit)); auto. }
  destruct Y as (st' & Y & Qw & I'). subst w'. exists st'. split; auto. split.
  - apply (carried I I'); auto. rewrite enter_other, enter_same; auto.
  - apply (carried I I'); auto. rewrite enter_same; auto.
Qed.
Lemma f_moved st t c n : f_after st t -> f_alive st c = true -> junk E = Some n ->
  exists d st', fexec (FCall (Move c)) st = Val (RNat d) st' /\ f_alive st d = false /\ f_same c st d st' /\
    f_contents E callable c st' [] /\ f_capacity E callable c st' n /\ f_objects E callable c st' 0.
Proof.
  intros H Al J. pose proof (after_inv G H) as I.
  destruct (move_constructs G (fi_reach I) Al J) as (d & w' & X & Dd & Se & _ & Cn & Cc & _).
  destruct (call_val (o := Move c) (r := RNat d) eq_refl eq_refl eq_refl eq_refl I X) as (st' & Y & Qw & I'). subst w'. simpl in I'.
  assert (Nd : d <> c) by (intros ->; unfold f_alive in Al; congruence).
  exists d, st'. split; auto. split; auto. split; [|split; [|split]].
  - apply (carried I I'); auto. rewrite enter_other, enter_same; auto.
  - apply (see_contents G callable _ _ I'). exact Cn.
  - apply (see_capacity _ _ _ I'). exact Cc.
  - rewrite <- (enter_same c 0 (enter d (t c) t)). apply see_objects; auto. apply (see_alive G callable c I'). exists n.
    apply (see_capacity _ _ _ I'). exact Cc.
Qed.
Lemma f_null st t c k v p : f_after st t -> f_alive st c = true -> callable (t c) = false ->
  In p [FCall (Insert c k v); FCall (Emplace c k v); FCall (Find c k); FCall (Contains c k); FCall (Lookup c k);
        FCall (Write c k v); FCall (Erase c k)] -> fexec p st = Undef NullPointer.
Proof.
  intros H Al Ca P. pose proof (after_inv G H) as [_ B D _].
  repeat (destruct P as [<-|P]; [unfold FunObj.fexec, bind, call, with_objects; simpl; unfold f_alive in Al; rewrite Al, B, D, Nat.eqb_refl; simpl;
    unfold bind; rewrite Ca; reflexivity|]). destruct P.
Qed.

(** ** Copies *)
Lemma quiet_contents st c i l : f_map st c = i -> f_last st c = i -> contents E c (f_world st) (map_keys (pair i) l) ->
  f_contents E callable c st l.
Proof.
  intros Fm Fl C. unfold f_contents. rewrite (quiet_exec E (callable := callable) (i := i)) by (simpl; auto; discriminate). simpl. rewrite C. simpl.
  rewrite mkf_eta. f_equal. f_equal. apply keys_back. auto.
Qed.
Lemma quiet_capacity st c i n : f_map st c = i -> f_last st c = i -> capacity_is E c (f_world st) n -> f_capacity E callable c st n.
Proof.
  intros Fm Fl C. unfold f_capacity. rewrite (quiet_exec E (callable := callable) (i := i)) by (simpl; auto; discriminate). simpl.
  unfold capacity_is in C. rewrite C. simpl. rewrite mkf_eta. auto.
Qed.
Lemma carried_raw st t c st' d : finv E st t -> f_map st' d = t c -> f_last st' d = t c ->
  same_elements E c (f_world st) d (f_world st') -> f_same c st d st'.
Proof.
  intros I Fm Fl (Sc & Sn & _). split; [|split].
  - intros l C. apply (quiet_contents Fm Fl). apply Sc. apply (see_contents G callable _ _ I). auto.
  - intros n C. apply (quiet_capacity Fm Fl). apply Sn. apply (see_capacity _ _ _ I) in C. auto.
  - intros i O. destruct (objects_inv_see I O) as (Al & ->). apply (see_alive G callable c I) in Al as (n & C).
    apply (see_capacity _ _ _ I) in C. apply Sn in C. unfold f_objects, FunObj.fexec, bind, objects.
    unfold capacity_is, exec in C. simpl in C. destruct (alive (f_world st') d); [|discriminate]. rewrite Fm. reflexivity.
Qed.
Lemma f_copied st t c d st' : f_after st t -> c <> d ->
  fexec (FCall (Copy c)) st = Val (RNat d) st' \/ fexec (FCall (CopyAssign d c)) st = Val RUnit st' ->
  f_same c st d st' /\ (forall e, e <> d -> f_alive st e = true -> f_same e st e st').
Proof.
  intros H N P. pose proof (after_inv G H) as I. pose proof I as [A B D _].
  assert (Q : copies E c d (f_world st) (f_world st') /\ st' = MkF (f_world st') (put d (f_map st c) (f_map st)) (put d (f_last st c) (f_last st))).
  { destruct P as [P|P]; unfold FunObj.fexec, bind in P; simpl in P; unfold call in P; simpl in P.
    - destruct (alive (f_world st) c) eqn:Al; [|discriminate]. simpl in P. rewrite B, D, Nat.eqb_refl in P. simpl in P.
      unfold bind, with_objects, in_world in P. simpl in P. unfold exec in P. simpl in P. rewrite Al in P.
      destruct (body E (Copy c) (f_world st)) as [r w'| | |] eqn:X; simpl in X; rewrite X in P; try discriminate.
      destruct r; simpl in P; try discriminate. inversion P; subst. split; auto. apply copies_new. unfold exec. simpl. rewrite Al. auto.
    - destruct (same_kind (f_world st) d c) eqn:Al; [|discriminate]. simpl in P. rewrite B, D, Nat.eqb_refl in P. simpl in P.
      unfold bind, with_objects, in_world in P. simpl in P. unfold exec in P. simpl in P. rewrite Al in P.
      destruct (body E (CopyAssign d c) (f_world st)) as [r w'| | |] eqn:X; simpl in X; rewrite X in P; try discriminate.
      destruct r; simpl in P; try discriminate. inversion P; subst. split; auto. apply copies_assign; auto. unfold exec. simpl. rewrite Al. auto. }
  destruct Q as (C & Qs). destruct (copy_same G A C) as (S1 & _ & S2 & _).
  assert (Fm : forall x, f_map st' x = if Nat.eqb x d then t c else t x) by (intros x; rewrite Qs; simpl; unfold put; rewrite !B; auto).
  assert (Fl : forall x, f_last st' x = if Nat.eqb x d then t c else t x) by (intros x; rewrite Qs; simpl; unfold put; rewrite !D; auto).
  split.
  - apply (carried_raw (t := t)); auto; [rewrite Fm|rewrite Fl]; rewrite Nat.eqb_refl; auto.
  - intros e Ne Al. destruct (S2 e Ne Al) as (S3 & _). apply Nat.eqb_neq in Ne.
    apply (carried_raw (t := t)); auto; [rewrite Fm|rewrite Fl]; rewrite Ne; auto.
Qed.

(** ** Cache e(d) *)
Variable feq : nat -> K -> K -> bool.
Hypothesis CB : compares_by E feq.
Lemma f_direct st t d l (E0 : env K V) : f_after st t -> f_timed st d = false -> f_contents E callable d st l -> callable 0 = true ->
  (forall a b, key_equal E0 a b = feq 0 a b) ->
  exists e st' u, fexec (FDirect d) st = Val (RNat e) st' /\ f_alive st e = false /\ Permutation u l /\
    f_contents E callable e st' (rev (items (snd (lputs E0 u (Lru (Nat.max (length l) 128) []))))) /\
    f_capacity E callable e st' (Nat.max (length l) 128) /\ f_objects E callable e st' 0 /\ f_same d st d st'.
Proof.
  intros H T C Ca Q. pose proof (after_inv G H) as I. pose proof C as C0. apply (see_contents G callable _ _ I) in C.
  destruct (traversals G (fi_reach I) C) as (_ & (u & X & P) & _).
  assert (Qu : length u = length l) by (rewrite (Permutation_length P); apply keys_length).
  assert (Cn : constructor (NewIters (V := V) None (map_keys snd u)) = true) by auto.
  pose proof (construct_inv G callable 0 Cn I) as Y.
  destruct (construct E callable 0 (NewIters None (map_keys snd u)) st) as [r st'| |ub|] eqn:Z; try contradiction.
  2: { destruct Y. congruence. }
  destruct Y as (e & -> & I' & De & Y). exists e, st', (map_keys snd u).
  assert (F : fexec (FDirect d) st = Val (RNat e) st').
  { unfold FunObj.fexec, bind, direct. unfold f_timed in T. rewrite T, X, mkf_eta, Z. auto. }
  split; auto. split; auto. split.
  { apply (Permutation_map (fun q : key * V => (snd (fst q), snd q))) in P. change (Permutation (map_keys snd u) (map_keys snd (map_keys (pair (t d)) l))) in P.
    rewrite keys_back in P; auto. }
  set (m := Nat.max (length l) 128).
  assert (Bd : builds (K := key) (V := V) None (map_op (pair 0) (NewIters None (map_keys snd u))) m (map_keys (pair 0) (map_keys snd u))).
  { unfold m. rewrite <- Qu, <- (keys_length snd u), <- (keys_length (pair 0) (map_keys snd u)). constructor. }
  destruct (build_result G Bd (fi_reach I)) as (e' & w' & Y' & _ & Cc & Cp & _).
  rewrite Y in Y'. inversion Y'; subst e' w'. clear Y'.
  assert (Te : forall j, enter e j t e = j) by (intros; apply enter_same).
  split; [|split; [|split]].
  - apply (see_contents G callable _ _ I'). rewrite Te.
    pose proof (lputs_map (same_env CB Q) (map_keys snd u) (Lru m [])) as W. unfold smap at 1 in W. simpl in W. rewrite W in Cc. simpl in Cc.
    rewrite <- keys_rev. exact Cc.
  - apply (see_capacity _ _ _ I'). exact Cp.
  - pose proof (see_objects callable (c := e) I') as So. rewrite Te in So. apply So. apply (see_alive G callable e I'). exists m. apply (see_capacity _ _ _ I'). exact Cp.
  - assert (Nd : d <> e).
    { intros ->. unfold contents, exec in C. simpl in C. rewrite De in C. discriminate. }
    assert (Al : f_alive st d = true).
    { unfold f_alive. unfold contents, exec in C. simpl in C. destruct (alive (f_world st) d); auto. discriminate. }
    pose proof (fi_reach I) as R1. pose proof (fi_reach I') as R2.
    assert (Bl : below E (FNew 0 (NewIters None (map_keys snd u))) t st st' (inl (RNat e))).
    { exists (map_op (pair 0) (NewIters None (map_keys snd u))). split; auto. }
    assert (Nm : ~ In d (f_mentions (FNew 0 (NewIters (V := V) None (map_keys snd u))))) by (simpl; auto).
    destruct (below_keeps G callable R1 R2 Bl Nm) as (Kc & Kn). split; [|split].
    + intros l' C'. apply (see_contents G callable _ _ I'). rewrite enter_other by auto. apply Kc. apply (see_contents G callable _ _ I). auto.
    + intros n C'. apply (see_capacity _ _ _ I'). apply Kn. apply (see_capacity _ _ _ I) in C'. auto.
    + intros i O. destruct (objects_inv_see I O) as (_ & ->). rewrite <- (enter_other (c := e) 0 t Nd). apply see_objects; auto.
      apply (see_alive G callable d I'). apply (see_alive G callable d I) in Al as (n & C'). exists n.
      apply (see_capacity _ _ _ I'). apply Kn. apply (see_capacity _ _ _ I) in C'. auto.
Qed.
End Carry.

(** ** Construction *)
Section Built.
Context {K V : Type}.
Notation key := (nat * K)%type.
Variable E : env key V.
Hypothesis G : good E.
Variable callable : nat -> bool.
Variable feq : nat -> K -> K -> bool.
Hypothesis CB : compares_by E feq.
Implicit Types (t : nat -> nat) (o : op K V).

Lemma map_builds ttl o cap l (i : nat) : builds ttl o cap l -> builds ttl (map_op (pair i) o) cap (map_keys (pair i) l).
Proof.
  destruct 1; simpl.
  - constructor.
  - constructor.
  - constructor.
  - rewrite <- (keys_length (pair i) l). constructor.
  - rewrite <- (keys_length (pair i) l) at 1. constructor.
  - rewrite <- (keys_length (pair i) l) at 1. constructor.
Qed.
Lemma f_built st t i ttl o cap l (Ei : env K V) : f_after E callable st t -> builds ttl o cap l -> callable i = true ->
  (forall a b, key_equal Ei a b = feq i a b) ->
  exists e st', fexec E callable (FNew i o) st = Val (RNat e) st' /\ f_alive st e = false /\
    f_contents E callable e st' (rev (items (snd (lputs Ei l (Lru cap []))))) /\
    f_capacity E callable e st' cap /\ f_objects E callable e st' i.
Proof.
  intros H Bd Ca Q. pose proof (after_inv G H) as I.
  assert (Cn : constructor o = true) by (destruct Bd; auto).
  pose proof (construct_inv G callable i Cn I) as Y. unfold fexec, bind. rewrite Cn.
  destruct (construct E callable i o st) as [r st'| |u|]; try contradiction.
  2: { destruct Y. congruence. }
  destruct Y as (e & -> & I' & De & Y). exists e, st'. split; auto. split; auto.
  destruct (build_result G (map_builds i Bd) (fi_reach I)) as (e' & w' & Y' & _ & Cc & Cp & _).
  rewrite Y in Y'. inversion Y'; subst e' w'. clear Y'.
  assert (Te : enter e i t e = i) by apply enter_same.
  split; [|split].
  - apply (see_contents G callable _ _ I'). rewrite Te.
    pose proof (lputs_map (same_env CB Q) l (Lru cap [])) as W. unfold smap at 1 in W. simpl in W. rewrite W in Cc. simpl in Cc.
    rewrite <- keys_rev. exact Cc.
  - apply (see_capacity _ _ _ I'). exact Cp.
  - pose proof (see_objects callable (c := e) I') as So. rewrite Te in So. apply So. apply (see_alive G callable e I'). exists cap.
    apply (see_capacity _ _ _ I'). exact Cp.
Qed.
Lemma default_new o : constructor o = true -> fexec E callable (FCall o) = fexec E callable (FNew 0 o).
Proof. intros C. unfold fexec. rewrite C. auto. Qed.
Lemma f_built_default st ttl o cap l : builds ttl o cap l -> fexec E callable (FCall o) st = fexec E callable (FNew 0 o) st.
Proof. intros B. rewrite default_new; auto. destruct B; auto. Qed.
End Built.

(** The state and the notes after a program, for the examples. *)
Section Final.
Context {K V : Type}.
Variable E : env (nat * K) V.
Variable callable : nat -> bool.
Fixpoint f_go (l : list (fop K V)) (st : fstate K V) (t : nat -> nat) : option (fstate K V * (nat -> nat)) :=
  match l with
  | [] => Some (st, t)
  | p :: l' => match fexec E callable p st with
              | Val r st' => f_go l' st' (ledger p (Returned r) t)
              | Exc e st' => f_go l' st' (ledger p (Threw e) t)
              | _ => None
              end
  end.
Definition f_final (l : list (fop K V)) : fstate K V * (nat -> nat) :=
  match f_go l (@init_fstate K V) (fun _ => 0) with Some q => q | None => (@init_fstate K V, fun _ => 0) end.
Lemma f_go_after l : forallb f_copy_free l = true -> forall st t st' t', f_after E callable st t -> f_go l st t = Some (st', t') ->
  f_after E callable st' t'.
Proof.
  induction l as [|p l IH]; simpl; intros F st t st' t' H X; [inversion X; subst; auto|].
  apply andb_prop in F as (F1 & F2). destruct (fexec E callable p st) eqn:Y; try discriminate.
  - eapply IH; [auto| |exact X]. eapply fa_return; eauto.
  - eapply IH; [auto| |exact X]. eapply fa_throw; eauto.
Qed.
Lemma f_final_after l : forallb f_copy_free l = true -> f_after E callable (fst (f_final l)) (snd (f_final l)).
Proof.
  intros F. unfold f_final. destruct (f_go l (@init_fstate K V) (fun _ => 0)) as [(st & t)|] eqn:X; simpl.
  - eapply f_go_after; [exact F| |exact X]. constructor.
  - constructor.
Qed.
End Final.
