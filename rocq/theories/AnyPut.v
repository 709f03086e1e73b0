(** Inserting a key that is not there, and clearing, in any world a program can
    reach. *)
From Coq Require Import List Arith ZArith Bool Permutation Lia.
Import ListNotations.
From Verif Require Import Monad Types Model Api Spec Ref Lists SimBase SimRel SimIter SimRun SimOps Effects SpecCopy CopyBlind CopyEval AnyWorld AnyKeep AnyInsert AnyRun AnyCopy AnyAll AnySee SpecAny AnyView.
Set Implicit Arguments.
Unset Strict Implicit.
Local Open Scope cpp_scope.

Section Put.
Context {K V : Type}.
Variable E : env K V.
Hypothesis G : good E.

Notation world := (world K V).
Notation store := (store K V).
Notation mnode := (mnode K V).
Notation cell := (@cell K V).
Notation M := (M world).
Notation W := (W E).
Notation ws := (ws E).
Notation lc := (@lc K).
Implicit Types (w z : world) (s : store).

Lemma seen_cells w c l : attained E w -> contents E c w l ->
  exists x s ls cs, W w /\ at_ w c x s /\ ws (c_rid x) s ls /\ Forall2 (holds s) ls cs /\ length ls <= c_cap x /\ shown cs = l.
Proof.
  intros Hw C. apply attained_W in Hw; auto.
  assert (Al : exists x, slot (w_caches w) c = Some x).
  { unfold contents, exec in C. simpl in C. unfold alive in C. destruct (slot (w_caches w) c) as [x|]; eauto. discriminate C. }
  destruct Al as (x & Hx). destruct (W_at Hw Hx) as (s & ls & A & Hl & L). destruct (ws_cells Hl) as (cs & H).
  exists x, s, ls, cs. pose proof (co_ordered (view G A Hl H L)) as Q. unfold contents in C. rewrite Q in C. injection C as ->. auto 10.
Qed.
Lemma put_last_ev c x w p : slot (w_caches w) c = Some x ->
  set_last c p w = Val tt (setC c (MkCache (c_rid x) p (c_cap x) (c_stats x) (c_cbs x) (c_ttl x)) w).
Proof. intros Hx. unfold set_last. erewrite bind_val; [|apply get_cache_ev; exact Hx]. reflexivity. Qed.

(** The world after a key was added to cache [c]. *)
Definition still w w' : Prop := w_caches w' = w_caches w /\ w_stores w' = w_stores w.
Lemma still_at w w' c x s : still w w' -> at_ w c x s -> at_ w' c x s.
Proof. intros (C & S) (H1 & H2). split; congruence. Qed.
Definition added c x s ls w k v t w' : Prop := exists q s' w0 y, still w w0 /\ placed E w0 (setC c x w') x s ls (MkNode k v None t) q s' /\
  slot (w_caches w') c = Some y /\ c_rid y = c_rid x /\ c_cap y = c_cap x /\ c_ttl y = c_ttl x /\ c_last y = Some (c_rid x, s_next s).
Lemma put_ev w c k v o x s ls : W w -> at_ w c x s -> ws (c_rid x) s ls -> length ls <= c_cap x -> 0 < c_cap x -> puts c k v o ->
  node_with E k (s_map s) = None ->
  exists t w', exec E o w = Val (RIns true (Some (k, v))) w' /\ added c x s ls w k v t w'.
Proof.
  intros Hw A Hl L P Po N. pose proof (proj1 A) as Hx.
  assert (FIN : forall w0 t, still w w0 -> 
    exists w1 q w2 w3 wf, map_emplace E c (MkNode k v None t) w0 = Val (((c_rid x, s_next s), if rehash E s then S (s_epoch s) else s_epoch s), true) w1 /\
    insert_new_key E c (c_rid x, s_next s) w1 = Val q w2 /\ set_node_order (c_rid x, s_next s) q w2 = Val tt w3 /\
    (exists n', deref_it ((c_rid x, s_next s), if rehash E s then S (s_epoch s) else s_epoch s) w3 = Val n' w3) /\
    set_last c (Some (c_rid x, s_next s)) w3 = Val tt wf /\
    denotes c (uiter_of c (Some ((c_rid x, s_next s), if rehash E s then S (s_epoch s) else s_epoch s))) wf = Val (Some (k, v)) wf /\
    added c x s ls w k v t wf).
  { intros w0 t T. pose proof (still_at T A) as A0.
    destruct (@new_key_ev K V E G w0 c x s ls (MkNode k v None t) A0 Hl L P N) as (w1 & q & w2 & w3 & s' & E1 & E2 & E3 & Pl).
    assert (Hw0 : W w0) by (destruct T as (C & S); eapply W_same; eauto).
    destruct (placed_W Hw0 A0 L P Pl) as (Hw3 & A3). pose proof A3 as (Hx3 & Hs3).
    exists w1, q, w2, w3. eexists. split; [exact E1|]. split; [exact E2|]. split; [exact E3|].
    assert (D : forall z, w_stores z = w_stores w3 -> deref (c_rid x, s_next s) z = Val (with_ord q (MkNode k v None t)) z).
    { intros z Hz. unfold deref. erewrite bind_val; [|apply get_store_ev; rewrite Hz; exact Hs3]. simpl. rewrite (pl_new Pl). auto. }
    assert (DI : forall z, w_stores z = w_stores w3 ->
      deref_it ((c_rid x, s_next s), if rehash E s then S (s_epoch s) else s_epoch s) z = Val (with_ord q (MkNode k v None t)) z).
    { intros z Hz. unfold deref_it. erewrite bind_val; [|apply get_store_ev; rewrite Hz; exact Hs3]. simpl fst. simpl snd. rewrite (pl_ep Pl), Nat.eqb_refl. apply D; auto. }
    split; [exists (with_ord q (MkNode k v None t)); apply DI; auto|]. split; [apply put_last_ev; exact Hx3|]. split.
    - unfold denotes, uiter_of. replace (u_eq _ (unordered_end c)) with false by reflexivity. unfold u_deref. cbn [ui_entry ui_pos].
      erewrite bind_val; [|erewrite bind_val; [|apply DI; reflexivity]; reflexivity]. cbv iota beta. cbn [fst].
      unfold read_entry. erewrite bind_val; [|erewrite bind_val; [|apply D; reflexivity]; reflexivity]. reflexivity.
    - exists q, s', w0. eexists. split; [exact T|]. split.
      + rewrite setC_setC, setC_same; auto.
      + simpl. rewrite (slot_upd_same _ _ _ Hx3). split; [reflexivity|auto]. }
  assert (MF : forall z, at_ z c x s -> map_find E c k z = Val None z).
  { intros z Az. unfold map_find. erewrite bind_val; [|apply (own_ev Az)]. cbv iota beta. rewrite N. reflexivity. }
  assert (Z : Nat.eqb (c_cap x) 0 = false) by (apply Nat.eqb_neq; lia).
  assert (WF : well_formed w o = true) by (destruct Po; simpl; unfold alive; rewrite Hx; auto).
  unfold exec. rewrite WF. destruct Po; cbn [body]; unfold insert, emplace.
  - destruct (timestamp_ev E Hx) as (t & w0 & Ht & T0). assert (T : still w w0) by (destruct T0 as (T1 & T2 & _); split; auto). destruct (FIN w0 t T) as (w1 & q & w2 & w3 & wf & E1 & E2 & E3 & (n' & E4) & E5 & E6 & E7).
    exists t, wf. split; auto. erewrite bind_val.
    2: { erewrite bind_val; [|apply capacity_ev; exact Hx]. rewrite Z. erewrite bind_val; [|apply MF; exact A]. cbv iota beta.
         erewrite bind_val; [|exact Ht]. erewrite bind_val; [|exact E1]. cbv iota beta. erewrite bind_val; [|reflexivity]. cbn [fst].
         erewrite bind_val; [|exact E2]. erewrite bind_val; [|exact E3]. erewrite bind_val; [|exact E4]. erewrite bind_val; [|exact E5]. reflexivity. }
    cbn [fst snd]. erewrite bind_val; [|exact E6]. reflexivity.
  - pose proof (fallible_ev G w) as F0. set (wt := MkWorld (w_caches w) (w_stores w) (w_stats w) (w_log w) (w_reads w) (S (w_steps w))) in *.
    assert (Hxt : slot (w_caches wt) c = Some x) by exact Hx.
    destruct (timestamp_ev E Hxt) as (t & w0 & Ht & T0). assert (T : still w w0) by (destruct T0 as (T1 & T2 & _); split; auto).
    destruct (FIN w0 t T) as (w1 & q & w2 & w3 & wf & E1 & E2 & E3 & (n' & E4) & E5 & E6 & E7).
    exists t, wf. split; auto. erewrite bind_val.
    2: { erewrite bind_val; [|apply capacity_ev; exact Hx]. rewrite Z. erewrite bind_val; [|exact F0].
         erewrite bind_val; [|apply MF; exact A]. cbv iota beta.
         erewrite bind_val; [|exact Ht]. erewrite bind_val; [|exact E1]. cbv iota beta. cbn [fst].
         erewrite bind_val; [|exact E2]. erewrite bind_val; [|exact E3]. erewrite bind_val; [|reflexivity]. erewrite bind_val; [|exact E4]. erewrite bind_val; [|exact E5]. reflexivity. }
    cbn [fst snd]. erewrite bind_val; [|exact E6]. reflexivity.
Qed.

(** Other caches are not touched. *)
Lemma others_seen w w' c x s' : W w -> slot (w_caches w) c = Some x ->
  (forall d, d <> c -> slot (w_caches w') d = slot (w_caches w) d) ->
  (forall r, r <> c_rid x -> slot (w_stores w') r = slot (w_stores w) r) -> slot (w_stores w') (c_rid x) = Some s' ->
  forall d l n, d <> c -> coherent E d w l n -> coherent E d w' l n.
Proof.
  intros Hw Hx C S _ d l n N Co. 
  assert (Al : exists y, slot (w_caches w) d = Some y).
  { pose proof (co_ordered Co) as Q. unfold exec in Q. simpl in Q. unfold alive in Q. destruct (slot (w_caches w) d) as [y|]; eauto. discriminate Q. }
  destruct Al as (y & Hy). destruct (W_at Hw Hy) as (s & ls & A & Hl & L). destruct (ws_cells Hl) as (cs & H).
  pose proof (view G A Hl H L) as Q.
  assert (l = shown cs) as -> by (pose proof (co_ordered Q) as Q1; rewrite (co_ordered Co) in Q1; injection Q1; auto).
  assert (n = c_cap y) as -> by (pose proof (co_capacity Q) as Q1; rewrite (co_capacity Co) in Q1; injection Q1; auto).
  apply view with (s := s) (l := ls); auto. destruct A as (_ & Hs). split; [rewrite C; auto|]. rewrite S; auto.
  intros R. apply N. symmetry. apply (W_inj Hw Hx Hy (eq_sym R)).
Qed.

Lemma newest_skip n (l : list (K * V)) p : length l <= n -> 0 < n ->
  newest n (l ++ [p]) = if Nat.ltb (length l) n then l ++ [p] else tl l ++ [p].
Proof.
  intros L P. unfold newest. rewrite app_length. simpl. destruct (Nat.ltb_spec (length l) n).
  - replace (length l + 1 - n) with 0 by lia. auto.
  - replace (length l + 1 - n) with 1 by lia. destruct l; [simpl in *; lia|auto].
Qed.

Theorem any_put w c k v o l n : attained E w -> puts c k v o -> coherent E c w l n -> 0 < n -> has E k l = false ->
  exists w', exec E o w = Val (RIns true (Some (k, v))) w' /\ coherent E c w' (newest n (l ++ [(k, v)])) n /\
    forall d ld nd, d <> c -> coherent E d w ld nd -> coherent E d w' ld nd.
Proof.
  intros Hw Po Co P Hk. destruct (seen_cells Hw (co_ordered Co)) as (x & s & ls & cs & HW & A & Hl & H & L & Sh).
  pose proof (view G A Hl H L) as Q.
  assert (n = c_cap x) as -> by (pose proof (co_capacity Q) as Q1; rewrite (co_capacity Co) in Q1; injection Q1; auto).
  pose proof A as (Hx & Hs).
  assert (N : node_with E k (s_map s) = None).
  { destruct (node_with E k (s_map s)) as [[i m]|] eqn:F; auto. destruct (find_ws Hl F) as (_ & cl & Ic & _ & _ & Hq).
    apply has_false' in Hk. rewrite <- Sh, (shown_keys H), Forall_map, Forall_forall in Hk. specialize (Hk _ Ic). simpl in Hk. congruence. }
  destruct (put_ev HW A Hl L P Po N) as (t & w' & Ex & (q & s' & w0 & y & T & Pl & Hy & Ry & Cy & _)).
  exists w'. split; auto.
  assert (SS : w_stores w' = upd (w_stores w) (c_rid x) (Some s')).
  { pose proof (pl_stores Pl) as Q1. simpl in Q1. destruct T as (_ & T). rewrite T in Q1. exact Q1. }
  assert (CC : forall d, d <> c -> slot (w_caches w') d = slot (w_caches w) d).
  { intros d Nd. pose proof (pl_caches Pl) as Q1. simpl in Q1. destruct T as (T & _). rewrite T in Q1.
    rewrite <- Q1. rewrite slot_upd_other; auto. }
  split.
  - assert (A' : at_ w' c y s') by (split; auto; rewrite SS, Ry; erewrite slot_upd_same; eauto).
    set (g := grown (c_cap x) ls (inherited (s_next s) (c_cap x) ls) (s_next s) k).
    assert (Hg : ws (c_rid y) s' g) by (rewrite Ry; apply (pl_ws Pl)).
    set (cl := Cell (inherited (s_next s) (c_cap x) ls) (s_next s) (Ent k v t)).
    assert (OLD : forall lc1 cl1, In lc1 g -> In lc1 ls -> holds s lc1 cl1 -> holds s' lc1 cl1).
    { intros d e Ig Id (B1 & B2 & B3 & n1 & B4 & B5). repeat split; auto. exists n1. split; auto.
      apply (ws_assoc _ _ Hg). rewrite (pl_old Pl); [apply (ws_assoc _ _ Hl); auto|exact Ig|].
      destruct (proj1 (Forall_forall _ _) (ws_lt Hl) d Id) as (Y1 & Y2). cbv beta in *. simpl. intro. lia. }
    assert (NEW : holds s' (LC (inherited (s_next s) (c_cap x) ls) (s_next s) k) cl).
    { repeat split. exists (with_ord q (MkNode k v None t)). split; auto. apply (ws_assoc _ _ Hg). apply (pl_new Pl). }
    assert (HG : Forall2 (holds s') g ((if Nat.ltb (length ls) (c_cap x) then cs else tl cs) ++ [cl])).
    { assert (SUB : forall m ms, incl m ls -> incl m g -> Forall2 (holds s) m ms -> Forall2 (holds s') m ms).
      { intros m ms I1 I2 F. induction F; constructor.
        - apply OLD; [apply I2|apply I1|]; simpl; auto.
        - apply IHF; intros z Hz; [apply I1|apply I2]; simpl; auto. }
      unfold g, grown in *. destruct (Nat.ltb (length ls) (c_cap x)); apply Forall2_app; try (constructor; [exact NEW|constructor]).
      - apply SUB; auto; [apply incl_refl|apply incl_appl, incl_refl].
      - destruct H as [|a b la lb H1 H2]; [constructor|]. simpl. apply SUB; auto; [apply incl_tl, incl_refl|apply incl_appl, incl_refl]. }
    rewrite <- Cy at 2. pose proof (@view K V E G w' c y s' g _ A' Hg HG) as Vw.
    replace (newest (c_cap x) (l ++ [(k, v)])) with (shown ((if Nat.ltb (length ls) (c_cap x) then cs else tl cs) ++ [cl])).
    + apply Vw. unfold g. rewrite Cy. apply grown_length; auto.
    + rewrite newest_skip by (rewrite <- ?Sh, ?(shown_length H); auto). rewrite <- Sh, (shown_length H).
      unfold shown, ents. rewrite !map_app. destruct (Nat.ltb (length ls) (c_cap x)); auto. destruct cs; auto.
  - intros d ld nd Nd. apply (others_seen (c := c) (x := x) (s' := s') HW Hx); auto.
    + intros r Nr. rewrite SS, slot_upd_other; auto.
    + rewrite SS. erewrite slot_upd_same; eauto.
Qed.
End Put.
