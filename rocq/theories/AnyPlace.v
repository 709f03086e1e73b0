(** Calls that refer to an element by its place, in any world a program can reach. *)
From Coq Require Import List Arith ZArith Bool Permutation Lia.
Import ListNotations.
From Verif Require Import Monad Types Model Api Spec Ref Lists SimBase SimRel SimIter SimRun SimOps Effects SpecCopy CopyBlind CopyEval AnyWorld AnyKeep AnyInsert AnyRun AnyCopy AnyAll AnySee SpecAny AnyView AnyPut AnyMore AnyFill LruMore AnyHit AnyErase AnyOwn.
Set Implicit Arguments.
Unset Strict Implicit.
Local Open Scope cpp_scope.

Section Place.
Context {K V : Type}.
Variable E : env K V.
Hypothesis G : good E.

Notation world := (world K V).
Notation store := (store K V).
Notation mnode := (mnode K V).
Notation cell := (@cell K V).
Notation M := (M world).
Notation W := (W E).
Notation ws := (ws E).
Notation lc := (@lc K).
Notation still := (@still K V).
Notation keep := (keep E).
Implicit Types (w z : world) (s : store).

Definition unmoved w w' : Prop := forall e le ne, coherent E e w le ne -> coherent E e w' le ne.

Lemma nth_shown i (cs : list cell) : nth_error (shown cs) i = option_map (fun cl => pair_of (cl_e cl)) (nth_error cs i).
Proof. unfold shown, ents. rewrite map_map. apply nth_error_map. Qed.
Lemma place w c x s ls cs i : at_ w c x s -> ws (c_rid x) s ls -> Forall2 (holds s) ls cs ->
  ordered_nth c i w = Val (MkO c (opos_of c (c_rid x) (skipn i cs)) None) w.
Proof.
  intros A Hl H. assert (CB : forall ev w, cb E ev w = Val tt (with_log (fun l => l ++ [ev]) w)) by apply (good_cb G).
  apply (through A Hl H); [apply p_ordered_nth|apply e_ordered_nth|]. intros z t Az Rz. eapply ordered_nth_ev; eauto.
Qed.
Lemma place_split s (ls : list lc) cs i cl : Forall2 (holds s) ls cs -> nth_error cs i = Some cl ->
  exists a d b ca cb, ls = a ++ d :: b /\ cs = ca ++ cl :: cb /\ Forall2 (holds s) a ca /\ holds s d cl /\ Forall2 (holds s) b cb /\ skipn i cs = cl :: cb.
Proof.
  intros H N. pose proof (skipn_split i cs) as S. rewrite N in S. destruct S as (cb & S & Q). rewrite Q in H.
  apply Forall2_app_inv_r in H as (a & b' & F1 & F2 & ->). inversion F2; subst. exists a, x, l, (firstn i cs), cb. auto 10.
Qed.
(** The element at a place in the order, on a cache that is not timed. *)
Lemma at_deref w c x s a d b n : at_ w c x s -> ws (c_rid x) s (a ++ d :: b) -> In (lm d, n) (s_map s) ->
  list_deref (c_rid x, lq d) w = Val (c_rid x, lm d) w /\ deref (c_rid x, lm d) w = Val n w /\ n_key n = lk d /\
  map_find E c (n_key n) w = Val (Some ((c_rid x, lm d), s_epoch s)) w.
Proof.
  intros A Hl I. assert (Id : In d (a ++ d :: b)) by (apply in_or_app; simpl; auto).
  assert (Hk : n_key n = lk d).
  { destruct (ws_cell Hl I) as (d' & Id' & Hm & <-). f_equal. apply (nd_inj (f := @lm K) (l := a ++ d :: b)); auto. apply (ws_nm Hl). }
  split; [|split; [eapply node_deref; eauto|split; auto]].
  - unfold list_deref. erewrite bind_val; [|apply get_store_ev; exact (proj2 A)]. cbn [snd]. rewrite (ord_assoc Hl Id). reflexivity.
  - unfold map_find. erewrite bind_val; [|apply (own_ev A)]. cbv iota beta.
    destruct (@find_ws_of _ _ E G _ _ _ (n_key n) d Hl Id) as (n' & F & _ & _); [rewrite Hk; apply (good_refl G)|]. rewrite F. reflexivity.
Qed.

Theorem any_entry_at w c i l n : attained E w -> ttl_of c w None -> coherent E c w l n ->
  exec E (EntryAt c i) w = match nth_error l i with Some p => Val (ROpt (Some p)) w | None => Exc InvalidIterator w end.
Proof.
  intros Hw (x' & Hx' & Tt) Co. destruct (cells_of G Hw Co) as (x & s & ls & cs & HW & A & Hl & H & L & -> & ->). pose proof A as (Hx & Hs).
  assert (x' = x) as -> by congruence. unfold exec. simpl well_formed. unfold alive. rewrite Hx. cbn [body].
  erewrite bind_val; [|apply (place i A Hl H)]. rewrite nth_shown. unfold o_entry, throw_if_invalid_o. cbn [oi_cache].
  unfold bind at 1. unfold bind at 1. unfold bind at 1. rewrite (get_cache_ev _ _ Hx). destruct (nth_error cs i) as [cl|] eqn:N.
  - destruct (place_split H N) as (a & d & b & ca & cb & -> & -> & F1 & Hd & F2 & S). rewrite S. unfold o_eq. cbn [opos_of oi_pos ordered_end opos_eqb]. rewrite Tt.
    destruct Hd as (Qq & Qm & Qk & m & I & K1 & K2 & K3). destruct (at_deref A Hl I) as (D1 & D2 & D3 & D4).
    unfold ret at 1. cbv iota beta. unfold o_deref. cbn [oi_entry oi_pos oi_cache]. rewrite Qq. unfold bind at 1. unfold bind at 1. rewrite D1.
    unfold bind at 1. rewrite D2. unfold bind at 1. rewrite D4. cbn [fst option_map]. unfold ret at 1. cbv iota beta. unfold ret at 1.
    unfold read_entry. unfold bind at 1. unfold bind at 1. rewrite D2. unfold ret, pair_of. rewrite K1, K2. reflexivity.
  - pose proof (skipn_split i cs) as S. rewrite N in S. destruct S as (S & _). rewrite S. unfold o_eq. simpl. rewrite Nat.eqb_refl. reflexivity.
Qed.
Theorem any_valid_at w c i l n : attained E w -> ttl_of c w None -> coherent E c w l n ->
  exec E (ValidAt c i) w = Val (RBool (Nat.ltb i (length l))) w.
Proof.
  intros Hw (x' & Hx' & Tt) Co. destruct (cells_of G Hw Co) as (x & s & ls & cs & HW & A & Hl & H & L & -> & ->). pose proof A as (Hx & Hs).
  assert (x' = x) as -> by congruence. unfold exec. simpl well_formed. unfold alive. rewrite Hx. cbn [body].
  erewrite bind_val; [|apply (place i A Hl H)]. unfold is_valid_o. unfold bind at 1. unfold bind at 1. rewrite (get_cache_ev _ _ Hx), Tt.
  assert (Q : length (shown cs) = length cs) by (unfold shown, ents; rewrite !map_length; auto). rewrite Q.
  pose proof (skipn_split i cs) as S. destruct (nth_error cs i) as [cl|] eqn:N.
  - destruct S as (b & -> & _). assert (i < length cs) as Lt by (apply nth_error_Some; congruence). rewrite (proj2 (Nat.ltb_lt _ _) Lt). reflexivity.
  - destruct S as (-> & Ge). rewrite (proj2 (Nat.ltb_ge _ _) Ge). unfold o_eq. simpl. rewrite Nat.eqb_refl. reflexivity.
Qed.

(** ** Erasing by place *)
Lemma check_at w c x s a d b n : at_ w c x s -> ws (c_rid x) s (a ++ d :: b) -> In (lm d, n) (s_map s) ->
  exists bad w1, still w w1 /\ (bad = true -> exists t, c_ttl x = Some t) /\
    throw_if_invalid_o E c (MkO c (OAt (c_rid x, lq d)) None) w = if bad then Exc KeyExpired w1 else Val tt w1.
Proof.
  intros A Hl I. pose proof A as (Hx & Hs). destruct (at_deref A Hl I) as (D1 & D2 & D3 & D4).
  unfold throw_if_invalid_o. unfold bind at 1. rewrite (get_cache_ev _ _ Hx). unfold o_eq. cbn [oi_pos ordered_end opos_eqb]. destruct (c_ttl x) as [t|] eqn:Tt.
  - assert (X : exists bad w1, has_expired_o E c t (MkO c (OAt (c_rid x, lq d)) None) w = Val bad w1 /\ still w w1).
    { unfold has_expired_o, o_eq. cbn [oi_pos oi_cache ordered_end opos_eqb]. unfold o_deref. cbn [oi_entry oi_pos oi_cache].
      unfold bind at 1. unfold bind at 1. rewrite D1. unfold bind at 1. rewrite D2. unfold bind at 1. rewrite D4. cbn [fst]. unfold ret at 1. cbv iota beta.
      unfold bind at 1. rewrite D2. unfold bind at 1. rewrite D4. unfold bind at 1. rewrite (node_deref_it A Hl I).
      pose proof (@e_has_expired_info K V E t n w) as T. unfold has_expired_info, bind, now in *. simpl in *. eexists. eexists. split; [reflexivity|]. split; apply T. }
    destruct X as (bad & w1 & X & S1). exists bad, w1. split; auto. split; [eauto|]. unfold bind. rewrite X. destruct bad; reflexivity.
  - exists false, w. split; [apply still_refl|]. split; [discriminate|reflexivity].
Qed.
Lemma still_unmoved w w' : attained E w -> still w w' -> unmoved w w'.
Proof.
  intros Hw (S3 & S4) e le ne Ce. destruct (coherent_alive Ce) as (v & Hv).
  apply (same_seen_at G (d := e) (e := e) (x := v) (x' := v) Hw Ce); auto; congruence.
Qed.
Theorem any_erase_ordered w c i l n r w' : attained E w -> coherent E c w l n -> call E (EraseOrdered c i) w r w' ->
  match nth_error l i with
  | Some p => (r = Returned RUnit /\ coherent E c w' (without E (fst p) l) n /\ keep c w w') \/
              ((exists d, ttl_of c w (Some d)) /\ r = Threw KeyExpired /\ unmoved w w')
  | None => r = Threw InvalidIterator /\ unmoved w w'
  end.
Proof.
  intros Hw Co C. destruct (cells_of G Hw Co) as (x & s & ls & cs & HW & A & Hl & H & L & -> & ->). pose proof A as (Hx & Hs).
  rewrite nth_shown. destruct (nth_error cs i) as [cl|] eqn:N; cbn [option_map].
  - pose proof (place i A Hl H) as P. destruct (place_split H N) as (a & d & b & ca & cb & -> & -> & F1 & Hd & F2 & S). rewrite S in P. cbn [opos_of] in P.
    pose proof Hd as (Qq & Qm & Qk & m & I & K1 & K2 & K3). rewrite Qq in P. destruct (check_at A Hl I) as (bad & w1 & S1 & Tb & X).
    assert (Wf : exec E (EraseOrdered c i) w = body E (EraseOrdered c i) w) by (unfold exec; simpl; unfold alive; rewrite Hx; reflexivity).
    destruct bad.
    + right. destruct (Tb eq_refl) as (t & Tt).
      assert (Y : exec E (EraseOrdered c i) w = Exc KeyExpired w1).
      { rewrite Wf. cbn [body]. erewrite bind_val; [|exact P]. unfold erase_o, o_eq. cbn [oi_pos ordered_end opos_eqb]. unfold o_key. cbn [oi_cache]. unfold bind. rewrite X. reflexivity. }
      unfold call in C. destruct r as [y|e]; rewrite Y in C; [discriminate C|]. injection C as <- <-. split; [exists t, x; auto|]. split; auto. apply (still_unmoved Hw S1).
    + left. set (POST := fun (y : out K V) w' => y = RUnit /\ coherent E c w' (without E (fst (pair_of (cl_e cl))) (shown (ca ++ cl :: cb))) (c_cap x) /\ keep c w w').
      destruct (@ok_call K V E (EraseOrdered c i) w r w' POST) as (y & -> & (-> & C1 & K4)); auto.
      apply ok_exec; [simpl; unfold alive; rewrite Hx; auto|]. cbn [body]. eapply ok_step; [exact P|].
      pose proof (still_at S1 A) as A1. destruct (at_deref A1 Hl I) as (D1 & D2 & D3 & D4).
      unfold erase_o, o_eq. cbn [oi_pos ordered_end opos_eqb]. apply ok_bind.
      eapply ok_step. { unfold o_key. cbn [oi_cache oi_pos]. unfold bind at 1. rewrite X. unfold bind at 1. rewrite D1. unfold bind at 1. rewrite D2. reflexivity. }
      eapply ok_step; [exact D4|]. cbv iota beta. eapply ok_weaken; [apply (ok_erase_it A1 Hl I)|]. intros [] w2 Go. eapply ok_val; [reflexivity|].
      assert (Go' : goes w w2 c x (less s d)) by (eapply goes_trans; [apply (goes_still A S1)|apply A1|exact Go]).
      split; auto. destruct (less_shown (k := fst (pair_of (cl_e cl))) G HW A Hl L F1 Hd F2 Go') as (_ & C1 & K4); auto.
      unfold pair_of. cbn [fst]. rewrite Qk. apply (good_refl G).
  - unfold call in C. pose proof (skipn_split i cs) as S. rewrite N in S. destruct S as (S & _).
    assert (X : exec E (EraseOrdered c i) w = Exc InvalidIterator w).
    { unfold exec. simpl well_formed. unfold alive. rewrite Hx. cbn [body]. erewrite bind_val; [|apply (place i A Hl H)]. rewrite S. unfold erase_o, o_eq. simpl. rewrite Nat.eqb_refl. reflexivity. }
    destruct r as [y|e]; rewrite X in C; [discriminate C|]. injection C as <- <-. split; auto. intros e le ne Ce. exact Ce.
Qed.
Theorem any_erase_unordered w c i l n u r w' : attained E w -> coherent E c w l n -> exec E (Unordered c) w = Val (REnts u) w -> call E (EraseUnordered c i) w r w' ->
  match nth_error u i with
  | Some p => r = Returned RUnit /\ coherent E c w' (without E (fst p) l) n /\ keep c w w'
  | None => r = Threw InvalidIterator /\ unmoved w w'
  end.
Proof.
  intros Hw Co Un C. destruct (cells_of G Hw Co) as (x & s & ls & cs & HW & A & Hl & H & L & -> & ->). pose proof A as (Hx & Hs).
  assert (ND : NoDup (map fst (s_map s))) by (eapply ws_nodup; eauto).
  assert (U : u = map (fun p => (n_key (snd p), n_val (snd p))) (s_map s)).
  { assert (Q : exec E (Unordered c) w = Val (REnts (map (fun p => (n_key (snd p), n_val (snd p))) (s_map s))) w).
    { unfold exec. simpl well_formed. unfold alive. rewrite Hx. cbn [body]. erewrite bind_val; [reflexivity|].
      unfold traverse_unordered. erewrite bind_val; [|apply (size_ev A)]. erewrite bind_val; [|apply (unordered_begin_ev A)].
      eapply (u_collect_ev (m1 := [])); eauto. }
    rewrite Q in Un. injection Un as <-. reflexivity. }
  assert (P : unordered_nth c i w = Val (MkU c (upos_of c (c_rid x) (s_epoch s) (skipn i (s_map s))) None) w).
  { unfold unordered_nth. erewrite bind_val; [|apply (unordered_begin_ev A)]. eapply (u_advance_ev _ (m1 := [])); eauto. }
  rewrite U, nth_error_map. pose proof (skipn_split i (s_map s)) as S. destruct (nth_error (s_map s) i) as [[j m]|] eqn:N; cbn [option_map].
  - destruct S as (t & S & _). rewrite S in P. cbn [upos_of] in P. apply nth_error_In in N. cbn [snd fst].
    destruct (ws_cell Hl N) as (d & Id & <- & Hk). destruct (holds_split H Id) as (a & b & ca & cl & cb & -> & -> & F1 & Hd & F2).
    set (POST := fun (y : out K V) w' => y = RUnit /\ coherent E c w' (without E (n_key m) (shown (ca ++ cl :: cb))) (c_cap x) /\ keep c w w').
    destruct (@ok_call K V E (EraseUnordered c i) w r w' POST) as (y & -> & (-> & C1 & K1)); auto.
    apply ok_exec; [simpl; unfold alive; rewrite Hx; auto|]. cbn [body]. eapply ok_step; [exact P|].
    unfold erase_u, u_eq. cbn [ui_pos unordered_end upos_eqb]. eapply ok_seq; [apply (ok_erase_it A Hl N)|]. intros [] w2 Go. eapply ok_val; [reflexivity|].
    split; auto. destruct (less_shown (k := n_key m) G HW A Hl L F1 Hd F2 Go) as (_ & C1 & K4); auto. rewrite Hk. apply (good_refl G).
  - destruct S as (S & _). rewrite S in P.
    assert (X : exec E (EraseUnordered c i) w = Exc InvalidIterator w).
    { unfold exec. simpl well_formed. unfold alive. rewrite Hx. cbn [body]. erewrite bind_val; [|exact P]. unfold erase_u, u_eq. simpl. rewrite Nat.eqb_refl. reflexivity. }
    unfold call in C. destruct r as [y|e]; rewrite X in C; [discriminate C|]. injection C as <- <-. split; auto. intros e le ne Ce. exact Ce.
Qed.

(** Reading by place, also on a timed cache. *)
Theorem any_entry w c i l n : attained E w -> coherent E c w l n ->
  exists w', unmoved w w' /\
  match nth_error l i with
  | Some p => exec E (EntryAt c i) w = Val (ROpt (Some p)) w' \/ ((exists d, ttl_of c w (Some d)) /\ exec E (EntryAt c i) w = Exc KeyExpired w')
  | None => exec E (EntryAt c i) w = Exc InvalidIterator w'
  end.
Proof.
  intros Hw Co. destruct (cells_of G Hw Co) as (x & s & ls & cs & HW & A & Hl & H & L & -> & ->). pose proof A as (Hx & Hs).
  assert (Wf : exec E (EntryAt c i) w = body E (EntryAt c i) w) by (unfold exec; simpl; unfold alive; rewrite Hx; reflexivity).
  rewrite nth_shown. pose proof (place i A Hl H) as P. destruct (nth_error cs i) as [cl|] eqn:N; cbn [option_map].
  - destruct (place_split H N) as (a & d & b & ca & cb & -> & -> & F1 & Hd & F2 & S). rewrite S in P. cbn [opos_of] in P.
    pose proof Hd as (Qq & Qm & Qk & m & I & K1 & K2 & K3). rewrite Qq in P. destruct (check_at A Hl I) as (bad & w1 & S1 & Tb & X).
    exists w1. split; [apply (still_unmoved Hw S1)|]. rewrite Wf. cbn [body]. erewrite bind_val; [|exact P].
    unfold o_entry. cbn [oi_cache]. unfold bind. rewrite X. destruct bad.
    + right. destruct (Tb eq_refl) as (t & Tt). split; [exists t, x; auto|reflexivity].
    + left. pose proof (still_at S1 A) as A1. destruct (at_deref A1 Hl I) as (D1 & D2 & D3 & D4).
      unfold o_deref, read_entry, ret, bind. cbn [oi_entry oi_pos oi_cache]. rewrite D1, D2, D4. cbn [fst]. rewrite D2. unfold pair_of. rewrite K1, K2. reflexivity.
  - exists w. split; [intros e le ne Ce; exact Ce|]. rewrite Wf. cbn [body]. erewrite bind_val; [|exact P]. pose proof (skipn_split i cs) as S. rewrite N in S. destruct S as (S & _). rewrite S.
    unfold o_entry, throw_if_invalid_o. cbn [oi_cache]. unfold bind at 1. unfold bind at 1. unfold bind at 1. rewrite (get_cache_ev _ _ Hx). unfold o_eq. simpl. rewrite Nat.eqb_refl. reflexivity.
Qed.

(** ** Erasing what was found *)
Theorem any_erase_found w c k l n r w' : attained E w -> coherent E c w l n -> call E (EraseFound c k) w r w' ->
  if has E k l then (r = Returned RUnit /\ coherent E c w' (without E k l) n /\ keep c w w') \/
                    ((exists d, ttl_of c w (Some d)) /\ r = Threw InvalidIterator /\ unmoved w w')
  else r = Threw InvalidIterator /\ unmoved w w'.
Proof.
  intros Hw Co C. destruct (cells_of G Hw Co) as (x & s & ls & cs & HW & A & Hl & H & L & -> & ->). pose proof A as (Hx & Hs).
  assert (Y : exec E (EraseFound c k) w = (it <- find E c k;; erase_u E c it;;; ret RUnit) w) by (unfold exec; simpl well_formed; unfold alive; rewrite Hx; reflexivity).
  assert (AWAY : forall w1, find E c k w = Val (unordered_end c) w1 -> still w w1 -> r = Threw InvalidIterator /\ unmoved w w').
  { intros w1 X S1. erewrite bind_val in Y; [|exact X].
    assert (Q : (erase_u E c (unordered_end c);;; ret (@RUnit K V)) w1 = Exc InvalidIterator w1) by (unfold erase_u, u_eq; simpl; rewrite Nat.eqb_refl; reflexivity).
    rewrite Q in Y. unfold call in C. destruct r as [y|e]; rewrite Y in C; [discriminate C|]. injection C as <- <-. split; auto. apply (still_unmoved Hw S1). }
  destruct (has E k (shown cs)) eqn:Hh.
  - destruct (key_found A Hl H Hh) as (a & d & b & ca & cl & cb & m & -> & -> & F1 & Hd & F2 & Nw & I & Hq & Hkey & Hp).
    assert (MF : map_find E c k w = Val (Some ((c_rid x, lm d), s_epoch s)) w).
    { unfold map_find. erewrite bind_val; [|apply (own_ev A)]. cbv iota beta. rewrite Nw. reflexivity. }
    set (POST := fun (y : out K V) w' => y = RUnit /\ coherent E c w' (without E k (shown (ca ++ cl :: cb))) (c_cap x) /\ keep c w w').
    assert (HIT : forall z, still w z -> ok (find_hit E c k ((c_rid x, lm d), s_epoch s);;; ret (uiter_of c (Some ((c_rid x, lm d), s_epoch s)))) z
      (fun it w1 => ok (erase_u E c it;;; ret RUnit) w1 POST)).
    { intros z Sz. pose proof (still_at Sz A) as Az. eapply ok_seq; [apply (ok_find_hit G k Az Hl I)|]. intros [] w1 (s' & Go & Q1 & Q2 & Hl'). eapply ok_val; [reflexivity|].
      destruct (goes_at Go) as (y & Ay & R & P). rewrite <- Q2, <- R. rewrite <- R in Hl'. rewrite <- Q1 in I.
      unfold erase_u, u_eq, uiter_of. cbn [ui_pos unordered_end upos_eqb]. rewrite app_assoc in Hl'.
      eapply ok_seq; [apply (ok_erase_it Ay Hl' I)|]. intros [] w2 Go2. eapply ok_val; [reflexivity|]. split; auto.
      assert (Go3 : goes w w2 c x (less s' d)).
      { eapply goes_trans; [apply (goes_still A Sz)|apply Az|]. eapply goes_trans; [exact Go|apply Ay|exact Go2]. }
      pose proof (co_distinct (view G A Hl H L)) as D. rewrite shown_app in *. change (shown (cl :: cb)) with (pair_of (cl_e cl) :: shown cb) in *.
      destruct (look_at G (k := k) D) as (_ & L2 & _). { rewrite Hp. simpl. rewrite Hkey. auto. }
      rewrite L2, <- shown_app, <- (app_nil_r (ca ++ cb)). apply (shown_after G (s' := less s' d) (ls := (a ++ b) ++ []) HW Hx Go3).
      + rewrite <- R. apply (ws_remove G Hl').
      + apply (holds_less Hl'); [|constructor]. apply (holds_map Q1). apply Forall2_app; auto.
      + rewrite app_nil_r, !app_length in *. simpl in *. lia. }
    assert (DONE : ok (find E c k) w (fun it w1 => ok (erase_u E c it;;; ret RUnit) w1 POST) -> r = Returned RUnit /\ coherent E c w' (without E k (shown (ca ++ cl :: cb))) (c_cap x) /\ keep c w w').
    { intros O. destruct (@ok_call K V E (EraseFound c k) w r w' POST) as (y & -> & (-> & C1 & K1)); auto.
      apply ok_exec; [simpl; unfold alive; rewrite Hx; auto|]. cbn [body]. apply ok_bind. exact O. }
    destruct (c_ttl x) as [t|] eqn:Tt.
    + assert (X : exists bad w1, has_expired_info E t m w = Val bad w1 /\ still w w1).
      { pose proof (@e_has_expired_info K V E t m w) as T. unfold has_expired_info, bind, now in *. simpl in *. eexists. eexists. split; [reflexivity|]. split; apply T. }
      destruct X as (bad & w1 & X & S1). destruct bad.
      * right. split; [exists t, x; auto|].
        assert (F : ok (find E c k) w (fun it w2 => it = unordered_end c /\ still w w2)).
        { unfold find. eapply ok_step; [apply get_cache_ev; exact Hx|]. rewrite Tt. eapply ok_step; [exact MF|]. cbv iota beta.
          eapply ok_step; [eapply node_deref_it; eauto|]. eapply ok_step; [exact X|]. cbv iota. eapply ok_seq; [apply (calm_miss G)|]. intros [] w2 S2.
          eapply ok_val; [reflexivity|]. split; auto. exact (still_trans S1 S2). }
        unfold ok in F. destruct (find E c k w) as [it w2|e w2|u|e] eqn:Fd; [|contradiction| |].
        -- destruct F as (-> & S2). apply (AWAY w2); auto.
        -- exfalso. unfold bind in Y. rewrite Fd in Y. unfold call in C. destruct r; rewrite Y in C; discriminate C.
        -- exfalso. unfold bind in Y. rewrite Fd in Y. unfold call in C. destruct r; rewrite Y in C; discriminate C.
      * left. apply DONE. unfold find. eapply ok_step; [apply get_cache_ev; exact Hx|]. rewrite Tt. eapply ok_step; [exact MF|]. cbv iota beta.
        eapply ok_step; [eapply node_deref_it; eauto|]. eapply ok_step; [exact X|]. cbv iota. apply HIT. exact S1.
    + left. apply DONE. unfold find. eapply ok_step; [apply get_cache_ev; exact Hx|]. rewrite Tt. eapply ok_step; [exact MF|]. cbv iota beta. apply HIT. apply still_refl.
  - assert (F : ok (find E c k) w (fun it w2 => it = unordered_end c /\ still w w2)).
    { unfold find. eapply ok_step; [apply get_cache_ev; exact Hx|]. destruct (c_ttl x); (eapply ok_step; [apply (absent_node A Hl H Hh)|]); cbv iota beta;
        (eapply ok_seq; [apply (calm_miss G)|]); intros [] w1 S1; (eapply ok_val; [reflexivity|]); auto. }
    unfold ok in F. destruct (find E c k w) as [it w2|e w2|u|e] eqn:Fd; [|contradiction| |].
    + destruct F as (-> & S2). apply (AWAY w2); auto.
    + exfalso. unfold bind in Y. rewrite Fd in Y. unfold call in C. destruct r; rewrite Y in C; discriminate C.
    + exfalso. unfold bind in Y. rewrite Fd in Y. unfold call in C. destruct r; rewrite Y in C; discriminate C.
Qed.
End Place.
