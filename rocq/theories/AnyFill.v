(** Filling, moving and resizing caches, and searching in vain, in any world a
    program can reach. *)
From Coq Require Import List Arith ZArith Bool Permutation Lia.
Import ListNotations.
From Verif Require Import Monad Types Model Api Spec Ref Lists SimBase SimRel SimIter SimRun SimOps Effects SpecCopy CopyBlind CopyEval AnyWorld AnyKeep AnyInsert AnyRun AnyCopy AnyAll AnySee SpecAny AnyView AnyPut AnyMore SpecSettings SpecStats SpecTally TallyEff TallyProofs TallyRun.
Set Implicit Arguments.
Unset Strict Implicit.
Local Open Scope cpp_scope.

Section Fill.
Context {K V : Type}.
Variable E : env K V.
Hypothesis G : good E.

Notation world := (world K V).
Notation store := (store K V).
Notation M := (M world).
Notation W := (W E).
Notation ws := (ws E).
Implicit Types (w z : world) (s : store).

Definition keep c w w' : Prop := forall d ld nd, d <> c -> coherent E d w ld nd -> coherent E d w' ld nd.
Lemma keep_trans c w1 w2 w3 : keep c w1 w2 -> keep c w2 w3 -> keep c w1 w3.
Proof. intros A B d ld nd N C. apply B; auto. Qed.

(** ** Capacity *)
Theorem any_capacity w c l n m : attained E w -> coherent E c w l n -> length l <= m ->
  exists w', exec E (SetCapacity c m) w = Val RUnit w' /\ coherent E c w' l m /\ keep c w w'.
Proof.
  intros Hw Co L. destruct (cells_of G Hw Co) as (x & s & ls & cs & HW & A & Hl & H & L' & -> & ->). pose proof A as (Hx & Hs).
  assert (Sz : length (s_map s) = length (shown cs)) by (rewrite (shown_length H); apply (ws_size Hl)).
  assert (Lt : Nat.ltb m (length (s_map s)) = false) by (apply Nat.ltb_ge; lia).
  eexists. split; [|split].
  - unfold exec. simpl. unfold alive. rewrite Hx. erewrite bind_val; [reflexivity|]. unfold set_capacity.
    erewrite bind_val; [|apply (size_ev A)].
    erewrite bind_val.
    2: { destruct (length (s_map s)) eqn:Q; simpl; (erewrite bind_val; [|apply (size_ev A)]); rewrite Q, Lt; reflexivity. }
    erewrite bind_val; [|apply get_cache_ev; exact Hx]. apply put_cache_ev.
  - change m with (c_cap (MkCache (c_rid x) (c_last x) m (c_stats x) (c_cbs x) (c_ttl x))).
    apply view with (s := s) (l := ls); auto.
    + split; simpl; auto. erewrite slot_upd_same; eauto.
    + simpl. rewrite <- (shown_length H). auto.
  - intros d ld nd N Cd. destruct (coherent_alive Cd) as (y & Hy).
    apply (same_seen_at G (d := d) (e := d) (x := y) (x' := y) Hw Cd); auto; simpl. rewrite slot_upd_other; auto.
Qed.
Theorem any_shrink w c l n m : attained E w -> coherent E c w l n -> length l <= m -> exec E (Shrink c m) w = Val RUnit w.
Proof.
  intros Hw Co L. destruct (cells_of G Hw Co) as (x & s & ls & cs & HW & A & Hl & H & L' & -> & ->). pose proof A as (Hx & Hs).
  assert (Sz : length (s_map s) = length (shown cs)) by (rewrite (shown_length H); apply (ws_size Hl)).
  assert (Le : Nat.leb (length (s_map s)) m = true) by (apply Nat.leb_le; lia).
  unfold exec. simpl. unfold alive. rewrite Hx. erewrite bind_val; [reflexivity|]. unfold shrink.
  erewrite bind_val; [|apply (size_ev A)]. rewrite Le. reflexivity.
Qed.

(** ** New caches *)
Theorem any_new w cap t : attained E w ->
  exists d w', exec E (New cap t) w = Val (RNat d) w' /\ new_cache cap t w = Val d w' /\ alive w d = false /\ coherent E d w' [] cap /\
    forall e le ne, coherent E e w le ne -> coherent E e w' le ne.
Proof.
  intros Hw. pose proof (attained_W G Hw) as HW. exists (length (w_caches w)). eexists. split; [|split; [reflexivity|split; [|split]]].
  - reflexivity.
  - unfold alive. rewrite slot_overflow; auto.
  - change cap with (c_cap (MkCache (length (w_stores w)) None cap None no_callbacks t)).
    change (@nil (K * V)) with (shown (@nil (@cell K V))).
    apply view with (s := empty_store) (l := []); [exact G| |apply ws_nil|constructor|simpl; lia].
    split; simpl; apply slot_app_new.
  - intros e le ne Ce. destruct (coherent_alive Ce) as (y & Hy). destruct (W_c HW Hy) as (sy & Hsy & _).
    apply (same_seen_at G (d := e) (e := e) (x := y) (x' := y) Hw Ce); auto; simpl.
    + rewrite slot_app_lt; auto. eapply slot_lt; eauto.
    + rewrite slot_app_lt; auto. eapply slot_lt; eauto.
Qed.

(** ** Moving *)
Lemma swapped w c d x y l n m k : attained E w -> c <> d -> slot (w_caches w) c = Some x -> slot (w_caches w) d = Some y ->
  coherent E c w l n -> coherent E d w m k ->
  exists w', base_swap c d w = Val tt w' /\
    (exists x' y', slot (w_caches w') c = Some x' /\ slot (w_caches w') d = Some y' /\
       c_rid x' = c_rid y /\ c_cap x' = c_cap y /\ c_rid y' = c_rid x /\ c_cap y' = c_cap x) /\
    w_stores w' = w_stores w /\ forall e, e <> c -> e <> d -> slot (w_caches w') e = slot (w_caches w) e.
Proof.
  intros Hw N Hx Hy Cc Cd. eexists. split; [|split; [|split]].
  - unfold base_swap. erewrite bind_val; [|apply get_cache_ev; exact Hx]. erewrite bind_val; [|apply get_cache_ev; exact Hy].
    rewrite (proj2 (Nat.eqb_neq c d) N). erewrite bind_val; [|apply put_cache_ev]. apply put_cache_ev.
  - do 2 eexists. simpl. split; [|split].
    + rewrite slot_upd_other by auto. erewrite slot_upd_same; eauto.
    + erewrite slot_upd_same; [reflexivity|]. rewrite slot_upd_other by auto. eauto.
    + simpl. auto.
  - reflexivity.
  - intros e N1 N2. simpl. rewrite !slot_upd_other; auto.
Qed.
Theorem any_move_assign w c d l n m k : attained E w -> c <> d -> same_kind w c d = true -> coherent E c w l n -> coherent E d w m k ->
  exists w', exec E (MoveAssign c d) w = Val RUnit w' /\ coherent E c w' m k /\ coherent E d w' l n /\
    forall e le ne, e <> c -> e <> d -> coherent E e w le ne -> coherent E e w' le ne.
Proof.
  intros Hw N Sk Cc Cd. destruct (coherent_alive Cc) as (x & Hx). destruct (coherent_alive Cd) as (y & Hy).
  destruct (swapped Hw N Hx Hy Cc Cd) as (w1 & Sw & (x' & y' & Hx' & Hy' & R1 & P1 & R2 & P2) & St & Ot).
  eexists. split; [|split; [|split]].
  - unfold exec. cbn [well_formed]. rewrite Sk. cbn [body]. erewrite bind_val; [reflexivity|].
    unfold move_assign. erewrite bind_val; [|exact Sw]. erewrite bind_val; [|apply get_cache_ev; exact Hx'].
    erewrite bind_val; [|apply get_cache_ev; exact Hy']. apply put_cache_ev.
  - eapply (same_seen_at G (d := d) (e := c) (x := y) Hw Cd); simpl; [exact Hy|erewrite slot_upd_same; [reflexivity|exact Hx']| | |]; simpl; auto. rewrite St; auto.
  - eapply (same_seen_at G (d := c) (e := d) (x := x) (x' := y') Hw Cc); simpl; auto; [|rewrite St; auto]. rewrite slot_upd_other; auto.
  - intros e le ne N1 N2 Ce. destruct (coherent_alive Ce) as (v & Hv).
    apply (same_seen_at G (d := e) (e := e) (x := v) (x' := v) Hw Ce); auto; simpl; [|rewrite St; auto].
    rewrite slot_upd_other by auto. rewrite Ot; auto.
Qed.
Theorem any_move w c l n j : attained E w -> coherent E c w l n -> junk E = Some j ->
  exists d w', exec E (Move c) w = Val (RNat d) w' /\ alive w d = false /\ coherent E d w' l n /\ coherent E c w' [] j /\ keep c w w'.
Proof.
  intros Hw Cc J. destruct (coherent_alive Cc) as (x & Hx).
  destruct (any_new j (c_ttl x) Hw) as (d & w1 & X & Nw & Al & Cd & Kp).
  pose proof (att_return _ Hw X) as Hw1. pose proof (Kp _ _ _ Cc) as Cc1.
  destruct (coherent_alive Cc1) as (x1 & Hx1). destruct (coherent_alive Cd) as (y & Hy).
  assert (N : d <> c) by (intros ->; unfold alive in Al; rewrite Hx in Al; discriminate).
  destruct (swapped Hw1 N Hy Hx1 Cd Cc1) as (w2 & Sw & (x' & y' & Hx' & Hy' & R1 & P1 & R2 & P2) & St & Ot).
  exists d, w2. split; [|split; [exact Al|split; [|split]]].
  - unfold exec. cbn [well_formed]. unfold alive. rewrite Hx. cbn [body]. unfold move_new. erewrite bind_val.
    2: { erewrite bind_val; [|apply get_cache_ev; exact Hx]. rewrite J. erewrite bind_val; [|exact Nw]. erewrite bind_val; [|exact Sw]. reflexivity. }
    reflexivity.
  - eapply (same_seen_at G (d := c) (e := d) (x := x1) (x' := x') Hw1 Cc1); auto. rewrite St; auto.
  - eapply (same_seen_at G (d := d) (e := c) (x := y) (x' := y') Hw1 Cd); auto. rewrite St; auto.
  - intros e le ne Ne Ce. pose proof (Kp _ _ _ Ce) as Ce1. destruct (coherent_alive Ce1) as (v & Hv).
    assert (e <> d).
    { intros ->. destruct (coherent_alive Ce) as (v' & Hv'). unfold alive in Al. rewrite Hv' in Al. discriminate. }
    apply (same_seen_at G (d := e) (e := e) (x := v) (x' := v) Hw1 Ce1); auto; [rewrite Ot; auto|rewrite St; auto].
Qed.

(** ** Searching in vain *)
Lemma attained_there w c x i : attained E w -> slot (w_caches w) c = Some x -> c_stats x = Some i -> slot (w_stats w) i <> None.
Proof.
  intros Hw. assert (Q : exists t, right E False t w).
  { pose proof (fun e : False => False_ind (eqop_good E) e) as Eq.
    assert (Cb : passive E) by (intros ev z; apply (good_cb G)).
    induction Hw as [|w o r w' _ (t & R) H|w o e w' _ (t & R) H|w p v w' _ (t & R) H].
    - exists no_tally. apply right_init.
    - pose proof (step Cb Eq (o := o) R (fun e : False => match e with end)) as Q. unfold wp in Q. rewrite H in Q. eexists. apply Q.
    - pose proof (step Cb Eq (o := o) R (fun e : False => match e with end)) as Q. unfold wp in Q. rewrite H in Q. eexists. apply Q.
    - exists t. pose proof (c_update_node true p (fun n => MkNode (n_key n) v (n_ord n) (n_time n)) w) as Q. rewrite H in Q.
      destruct Q as (Q1 & Q2 & _). apply right_same with (w := w); auto. }
  intros Hx Hi. destruct Q as (t & R). apply (r_there R (c := c)). unfold fed. rewrite Hx. simpl. f_equal. exact Hi.
Qed.

Lemma absent_node w c x s ls cs k : at_ w c x s -> ws (c_rid x) s ls -> Forall2 (holds s) ls cs -> has E k (shown cs) = false ->
  map_find E c k w = Val None w.
Proof.
  intros A Hl H Hk. unfold map_find. erewrite bind_val; [|apply (own_ev A)]. cbv iota beta.
  destruct (node_with E k (s_map s)) as [[i m]|] eqn:F; auto. exfalso. destruct (find_ws Hl F) as (_ & cl & Ic & _ & _ & Hq).
  apply has_false' in Hk. rewrite (shown_keys H), Forall_map, Forall_forall in Hk. specialize (Hk _ Ic). simpl in Hk. congruence.
Qed.
Theorem any_find w c k l n : attained E w -> coherent E c w l n -> has E k l = false ->
  exists w', exec E (Find c k) w = Val (ROpt None) w' /\ forall d ld nd, coherent E d w ld nd -> coherent E d w' ld nd.
Proof.
  intros Hw Co Hk. destruct (cells_of G Hw Co) as (x & s & ls & cs & HW & A & Hl & H & L' & -> & ->). pose proof A as (Hx & Hs).
  pose proof (absent_node A Hl H Hk) as MF.
  assert (RM : register_miss E c k w = Val tt (noted (c_stats x) (stats_register_miss E k) (miss_events (c_cbs x) k) w)).
  { apply (register_miss_ev G); auto. intros i. apply (attained_there Hw Hx). }
  assert (D : forall z, denotes c (unordered_end c) z = Val (None : option (K * V)) z).
  { intros z. unfold denotes. replace (u_eq (unordered_end c) (unordered_end c)) with true; [reflexivity|]. unfold u_eq. simpl. symmetry. apply Nat.eqb_refl. }
  eexists. split.
  - unfold exec. cbn [well_formed]. unfold alive. rewrite Hx. cbn [body]. unfold find. erewrite bind_val.
    2: { erewrite bind_val; [|apply get_cache_ev; exact Hx]. destruct (c_ttl x).
         - erewrite bind_val; [|exact MF]. cbv iota beta. erewrite bind_val; [|exact RM]. reflexivity.
         - erewrite bind_val; [|exact MF]. cbv iota beta. erewrite bind_val; [|exact RM]. reflexivity. }
    erewrite bind_val; [|apply D]. reflexivity.
  - intros d ld nd Cd. destruct (coherent_alive Cd) as (y & Hy).
    apply (same_seen_at G (d := d) (e := d) (x := y) (x' := y) Hw Cd); auto; unfold noted; simpl; auto.
Qed.

(** ** Many elements *)
Lemma skip_skip {A} a : forall b (l : list A), skipn a (skipn b l) = skipn (b + a) l.
Proof. intros b. induction b as [|b IH]; intros l; simpl; auto. destruct l; simpl; auto. apply skipn_nil. Qed.
Lemma newest_newest n (l : list (K * V)) a m : 0 < n -> newest n (newest n (l ++ [a]) ++ m) = newest n (l ++ a :: m).
Proof.
  intros P. replace (l ++ a :: m) with ((l ++ [a]) ++ m) by (rewrite <- app_assoc; auto).
  generalize (l ++ [a]). intros q. unfold newest. rewrite !app_length, skipn_length. destruct (Nat.le_gt_cases (length q) n) as [L|L].
  - replace (length q - n) with 0 by lia. rewrite Nat.sub_0_r. reflexivity.
  - replace (length q + length m - n) with ((length q - n) + length m) by lia. rewrite <- skip_skip, (skipn_app (length q - n)).
    replace (length q - n - length q) with 0 by lia. f_equal. lia.
Qed.
Lemma has_newest n k (l : list (K * V)) : has E k l = false -> has E k (newest n l) = false.
Proof.
  unfold newest. generalize (length l - n). intros i. rewrite <- (firstn_skipn i l) at 1. unfold has. rewrite existsb_app.
  intros H. apply orb_false_elim in H. tauto.
Qed.
Lemma has_app k (l m : list (K * V)) : has E k (l ++ m) = has E k l || has E k m.
Proof. apply existsb_app. Qed.
Lemma pure_denotes c it w r w' : @denotes K V c it w = Val r w' -> w' = w.
Proof.
  intros H. assert (Q : within eq (@denotes K V c it)).
  { unfold denotes, u_deref, read_entry, deref_it, deref. repeat match goal with
    | |- within _ (bind _ _) => apply w_bind; [congruence| |intros]
    | |- within _ (match ?x with _ => _ end) => destruct x
    | |- within _ (ret _) => intros ?; simpl; auto
    | |- within _ (undef _) => intros ?; simpl; auto
    | |- within _ (get_store _) => intros z; unfold get_store; destruct slot; auto
    end. }
  specialize (Q w). rewrite H in Q. auto.
Qed.
Definition put_op (ins : bool) c k v : op K V := if ins then Insert c k v else Emplace c k v.
Definition put_fn (ins : bool) := if ins then @insert K V E else @emplace K V E.
Lemma put_fn_ev ins w c k v l n : attained E w -> coherent E c w l n -> 0 < n -> has E k l = false ->
  exists it w', put_fn ins c k v w = Val (true, it) w' /\ attained E w' /\ coherent E c w' (newest n (l ++ [(k, v)])) n /\ keep c w w'.
Proof.
  intros Hw Co P Hk. assert (Po : puts c k v (put_op ins c k v)) by (destruct ins; constructor).
  destruct (any_put G Hw Po Co P Hk) as (w' & X & Co' & Kp). destruct (coherent_alive Co) as (x & Hx).
  assert (B : exec E (put_op ins c k v) w = bind (put_fn ins c k v) (fun r => e <- denotes c (snd r);; ret (RIns (fst r) e)) w).
  { unfold exec. destruct ins; simpl; unfold alive; rewrite Hx; reflexivity. }
  pose proof X as X0. rewrite B in X. unfold bind at 1 in X. destruct (put_fn ins c k v w) as [[b it] w1|e w1|u|e]; try discriminate X.
  cbn [fst snd] in X. unfold bind in X. destruct (denotes c it w1) as [e w2|e w2|u|e] eqn:D; try discriminate X.
  apply pure_denotes in D. subst w2. unfold ret in X. injection X as -> _ <-. exists it, w1. split; auto. split; auto. apply (att_return _ Hw X0).
Qed.
Lemma fill_ev ins c n m : 0 < n -> forall w l cnt, attained E w -> coherent E c w l n -> distinct E m ->
  Forall (fun p => has E (fst p) l = false) m ->
  exists w', foldM (fun cnt p => r <- put_fn ins c (fst p) (snd p);; ret (if fst r then S cnt else cnt)) m cnt w = Val (cnt + length m) w' /\
    coherent E c w' (newest n (l ++ m)) n /\ keep c w w'.
Proof.
  intros P. induction m as [|p m IH]; intros w l cnt Hw Co D F.
  - exists w. simpl. rewrite Nat.add_0_r, app_nil_r. split; auto. split; [|intros d ld nd _ Q; auto].
    replace (newest n l) with l; auto. unfold newest. pose proof (co_bound Co). replace (length l - n) with 0 by lia. auto.
  - destruct D as (D1 & D2). inversion F as [|? ? F1 F2]; subst.
    destruct (put_fn_ev ins (snd p) Hw Co P F1) as (it & w1 & X & Hw1 & Co1 & K1).
    destruct (IH w1 (newest n (l ++ [(fst p, snd p)])) (S cnt) Hw1 Co1 D2) as (w' & Y & Co' & K2).
    + apply Forall_forall. intros q Iq. apply has_newest. rewrite has_app, orb_false_iff. split; [apply (proj1 (Forall_forall _ _) F2 q Iq)|].
      unfold has in *. simpl. rewrite orb_false_r. rewrite (good_sym G). destruct (key_equal E (fst p) (fst q)) eqn:Q; auto.
      rewrite <- D1. symmetry. apply existsb_exists. eauto.
    + exists w'. split; [|split; [|eapply keep_trans; eauto]].
      * cbn [foldM]. erewrite bind_val; [|erewrite bind_val; [|exact X]; reflexivity]. cbn [fst]. rewrite Y. f_equal. simpl. lia.
      * rewrite newest_newest in Co' by auto. destruct p; auto.
Qed.
Lemma none_ev ins c m w x cnt : slot (w_caches w) c = Some x -> c_cap x = 0 ->
  foldM (fun cnt p => r <- put_fn ins c (fst p) (snd p);; ret (if fst r then S cnt else cnt)) m cnt w = Val cnt w.
Proof.
  intros Hx Z. induction m as [|p m IH]; simpl; auto. rewrite <- IH at 1.
  erewrite bind_val; [reflexivity|]. erewrite bind_val.
  2: { destruct ins; simpl; unfold insert, emplace; (erewrite bind_val; [|apply capacity_ev; exact Hx]); rewrite Z; reflexivity. }
  reflexivity.
Qed.
Lemma newest_zero (l : list (K * V)) : newest 0 l = [].
Proof. unfold newest. rewrite Nat.sub_0_r. apply skipn_all. Qed.
(** The same for all capacities. *)
Lemma filled_ev ins c n m w l : attained E w -> coherent E c w l n -> distinct E m -> Forall (fun p => has E (fst p) l = false) m ->
  exists w', foldM (fun cnt p => r <- put_fn ins c (fst p) (snd p);; ret (if fst r then S cnt else cnt)) m 0 w =
      Val (if Nat.eqb n 0 then 0 else length m) w' /\
    coherent E c w' (newest n (l ++ m)) n /\ keep c w w'.
Proof.
  intros Hw Co D F. destruct (Nat.eqb_spec n 0) as [->|N].
  - destruct (coherent_alive Co) as (x & Hx). destruct (cells_of G Hw Co) as (x' & s & ls & cs & HW & A & Hl & H & L' & -> & Z).
    assert (x' = x) as -> by (destruct A; congruence). exists w. split; [apply (@none_ev _ _ _ _ x); auto|]. split; [|intros d ld nd _ Q; auto].
    rewrite newest_zero. pose proof (co_bound Co). destruct (shown cs); [auto|simpl in *; lia].
  - destruct (@fill_ev ins c n m ltac:(lia) w l 0 Hw Co D F) as (w' & X). exists w'. exact X.
Qed.

Theorem any_fill w c l n m o : attained E w -> puts_range c m o -> coherent E c w l n -> distinct E m ->
  Forall (fun p => has E (fst p) l = false) m ->
  exists w', exec E o w = Val (RNat (if Nat.eqb n 0 then 0 else length m)) w' /\ coherent E c w' (newest n (l ++ m)) n /\ keep c w w'.
Proof.
  intros Hw Po Co D F. destruct (coherent_alive Co) as (x & Hx).
  assert (B : exists ins, exec E o w = bind (foldM (fun cnt p => r <- put_fn ins c (fst p) (snd p);; ret (if fst r then S cnt else cnt)) m 0) (fun n => ret (RNat n)) w).
  { destruct Po; [exists true|exists false]; unfold exec; simpl; unfold alive; rewrite Hx; reflexivity. }
  destruct B as (ins & B). destruct (filled_ev ins Hw Co D F) as (w' & X & Co' & Kp). exists w'. split; auto.
  rewrite B. erewrite bind_val; [|exact X]. reflexivity.
Qed.
Lemma foreign_nil (m : list (K * V)) : Forall (fun p => has E (fst p) [] = false) m.
Proof. apply Forall_forall. auto. Qed.
Lemma body_of o w r w' : well_formed w o = true -> exec E o w = Val r w' -> body E o w = Val r w'.
Proof. intros H. unfold exec. rewrite H. auto. Qed.
Theorem any_assign w c l n m o : attained E w -> assigns c m o -> coherent E c w l n -> distinct E m ->
  exists w', exec E o w = Val RUnit w' /\ coherent E c w' m (Nat.max n (length m)) /\ keep c w w'.
Proof.
  intros Hw Po Co D. destruct (coherent_alive Co) as (x & Hx).
  destruct (any_clear G Hw Co) as (w1 & X1 & Co1 & K1). pose proof (att_return _ Hw X1) as Hw1.
  destruct (any_capacity (m := Nat.max n (length m)) Hw1 Co1 ltac:(simpl; lia)) as (w2 & X2 & Co2 & K2).
  assert (C1 : clear c w = Val tt w1).
  { apply body_of in X1; [|simpl; unfold alive; rewrite Hx; auto]. cbn [body] in X1. unfold bind in X1.
    destruct (clear c w) as [[] z|e z|u|e]; try discriminate X1. unfold ret in X1. injection X1 as ->. auto. }
  destruct (cells_of G Hw1 Co1) as (x1 & s1 & ls & cs & HW & A & Hl & H & L' & Nl & ->). pose proof A as (Hx1 & Hs1).
  assert (Sz : length (s_map s1) = 0) by (rewrite (ws_size Hl), <- (shown_length H), <- Nl; auto).
  assert (CI : exists w3, clear_and_increase_capacity c (length m) w = Val tt w3 /\ attained E w3 /\
    coherent E c w3 [] (Nat.max (c_cap x1) (length m)) /\ keep c w1 w3).
  { unfold clear_and_increase_capacity. destruct (Nat.ltb_spec (c_cap x1) (length m)) as [Lt|Ge].
    - replace (Nat.max (c_cap x1) (length m)) with (length m) in * by lia.
      exists w2. split; [|split; [apply (att_return _ Hw1 X2)|split; auto]].
      erewrite bind_val; [|exact C1]. erewrite bind_val; [|apply get_cache_ev; exact Hx1].
      rewrite (proj2 (Nat.ltb_lt _ _) Lt). apply body_of in X2; [|simpl; unfold alive; rewrite Hx1; auto].
      cbn [body] in X2. unfold set_capacity in X2. rewrite bind_assoc in X2. erewrite bind_val in X2; [|apply (size_ev A)]. rewrite Sz in X2.
      rewrite bind_assoc in X2. erewrite bind_val in X2.
      2: { simpl. erewrite bind_val; [|apply (size_ev A)]. rewrite Sz. simpl. reflexivity. }
      rewrite bind_assoc in X2. erewrite bind_val in X2; [|apply get_cache_ev; exact Hx1].
      erewrite bind_val in X2; [|apply put_cache_ev]. unfold ret in X2. injection X2 as <-. reflexivity.
    - replace (Nat.max (c_cap x1) (length m)) with (c_cap x1) in * by lia. exists w1. split; [|split; [exact Hw1|split; [exact Co1|intros d ld nd _ Q; auto]]].
      erewrite bind_val; [|exact C1]. erewrite bind_val; [|apply get_cache_ev; exact Hx1].
      rewrite (proj2 (Nat.ltb_ge _ _) Ge). reflexivity. }
  destruct CI as (w3 & CI & Hw3 & Co3 & K3).
  assert (B : exists ins, exec E o w = bind (clear_and_increase_capacity c (length m))
      (fun _ => bind (bind (foldM (fun cnt p => r <- put_fn ins c (fst p) (snd p);; ret (if fst r then S cnt else cnt)) m 0) (fun _ => ret tt)) (fun _ => ret RUnit)) w).
  { destruct Po; [exists true|exists false]; unfold exec; cbn [well_formed]; unfold alive; rewrite Hx; cbn [body]; unfold assign_range, assign_move;
      rewrite bind_assoc; reflexivity. }
  destruct B as (ins & B). destruct (filled_ev ins Hw3 Co3 D (foreign_nil m)) as (w' & X & Co' & Kp). exists w'. split; [|split].
  - rewrite B. erewrite bind_val; [|exact CI]. erewrite bind_val; [|erewrite bind_val; [|exact X]; reflexivity]. reflexivity.
  - simpl in Co'. unfold newest in Co'. replace (length m - Nat.max (c_cap x1) (length m)) with 0 in Co' by lia. exact Co'.
  - eapply keep_trans; [exact K1|]. eapply keep_trans; eauto.
Qed.
Lemma built ins w cap t m : attained E w -> distinct E m ->
  exists d w', with_new cap t (fun c => foldM (fun cnt p => r <- put_fn ins c (fst p) (snd p);; ret (if fst r then S cnt else cnt)) m 0) w = Val d w' /\
    alive w d = false /\ coherent E d w' (newest cap m) cap /\ forall e le ne, coherent E e w le ne -> coherent E e w' le ne.
Proof.
  intros Hw D. destruct (any_new cap t Hw) as (d & w1 & X & Nw & Al & Cd & Kp). pose proof (att_return _ Hw X) as Hw1.
  destruct (filled_ev ins Hw1 Cd D (foreign_nil m)) as (w' & Y & Co' & K'). exists d, w'. split; [|split; [exact Al|split; [exact Co'|]]].
  - unfold with_new. erewrite bind_val; [|exact Nw]. cbv beta. rewrite Y. reflexivity.
  - intros e le ne Ce. apply K'; auto. intros ->. destruct (coherent_alive Ce) as (v & Hv). unfold alive in Al. rewrite Hv in Al. discriminate.
Qed.
Theorem any_build w t o cap m : attained E w -> builds t o cap m -> distinct E m ->
  exists d w', exec E o w = Val (RNat d) w' /\ alive w d = false /\ coherent E d w' (newest cap m) cap /\
    forall e le ne, coherent E e w le ne -> coherent E e w' le ne.
Proof.
  intros Hw B D. assert (Q : forall ins cp, exists d w', with_new cp t (fun c => foldM (fun cnt p => r <- put_fn ins c (fst p) (snd p);; ret (if fst r then S cnt else cnt)) m 0) w = Val d w' /\
    alive w d = false /\ coherent E d w' (newest cp m) cp /\ forall e le ne, coherent E e w le ne -> coherent E e w' le ne) by (intros; apply built; auto).
  assert (F : exists ins, exec E o w = bind (with_new cap t (fun c => foldM (fun cnt p => r <- put_fn ins c (fst p) (snd p);; ret (if fst r then S cnt else cnt)) m 0)) (fun c => ret (RNat c)) w).
  { destruct B; first [exists true; reflexivity | exists false; reflexivity]. }
  destruct F as (ins & F). destruct (Q ins cap) as (d & w' & X & R). exists d, w'. split; auto. rewrite F. erewrite bind_val; [|exact X]. reflexivity.
Qed.
End Fill.
