(** Erasing elements in any world a program can reach.  On a copy it may be undefined;
    if it is defined, it does what it does on any cache. *)
From Coq Require Import List Arith ZArith Bool Permutation Lia.
Import ListNotations.
From Verif Require Import Monad Types Model Api Spec Ref Lists SimBase SimRel SimIter SimRun SimOps Effects SpecCopy CopyBlind CopyEval AnyWorld AnyKeep AnyInsert AnyRun AnyCopy AnyAll AnySee SpecAny AnyView AnyPut AnyMore AnyFill LruMore AnyHit.
Set Implicit Arguments.
Unset Strict Implicit.
Local Open Scope cpp_scope.

Section Erase.
Context {K V : Type}.
Variable E : env K V.
Hypothesis G : good E.

Notation world := (world K V).
Notation store := (store K V).
Notation mnode := (mnode K V).
Notation cell := (@cell K V).
Notation M := (M world).
Notation W := (W E).
Notation ws := (ws E).
Notation lc := (@lc K).
Notation still := (@still K V).
Notation keep := (keep E).
Implicit Types (w z : world) (s : store).

Definition less s (d : lc) : store := MkStore (unassoc (lm d) (s_map s)) (unassoc (lq d) (s_ord s)) (s_next s) (s_epoch s).
Lemma in_unassoc_other {A} (l : list (nat * A)) i j a : In (j, a) l -> j <> i -> In (j, a) (unassoc i l).
Proof.
  induction l as [|[m b] l IH]; simpl; auto. intros [Q|Q] N.
  - injection Q as -> ->. destruct (Nat.eqb_spec i j); [congruence|simpl; auto].
  - destruct (Nat.eqb i m); simpl; auto.
Qed.
Lemma holds_less s a d b ca cb r : ws r s (a ++ d :: b) -> Forall2 (holds s) a ca -> Forall2 (holds s) b cb -> Forall2 (holds (less s d)) (a ++ b) (ca ++ cb).
Proof.
  intros Hl F1 F2. pose proof (ws_nm Hl) as NM. apply nd_mid in NM as (_ & NM).
  assert (N : forall e, In e (a ++ b) -> lm e <> lm d) by (intros e Ie Q; apply NM; rewrite <- Q; apply in_map; auto).
  assert (F : Forall2 (holds s) (a ++ b) (ca ++ cb)) by (apply Forall2_app; auto). clear F1 F2 NM Hl. revert N. generalize (a ++ b) (ca ++ cb) F. clear.
  intros m ms F. induction F as [|e cl m ms H F IH]; intros N; constructor; [|apply IH; intros; apply N; simpl; auto].
  destruct H as (B1 & B2 & B3 & n & B4 & B5). repeat split; auto. exists n. split; auto. apply in_unassoc_other; auto. apply N. simpl; auto.
Qed.

(** Forgetting the last accessed element, if it is the one. *)
Lemma ok_forget w c x s k : at_ w c x s ->
  ok (same <- last_is E c k;; (if same then invalidate_last c else ret tt)) w (fun _ w' => goes w w' c x s).
Proof.
  intros A. eapply ok_seq; [apply calm_last_is|]. intros same w1 S1. pose proof (still_at S1 A) as A1. destruct same.
  - unfold invalidate_last. eapply ok_val; [apply put_last_ev; apply A1|].
    eapply goes_trans; [apply (goes_still A S1)|apply A1|]. apply (goes_setC (y := MkCache _ _ _ _ _ _) A1); reflexivity.
  - eapply ok_val; [reflexivity|]. apply (goes_still A S1).
Qed.
Lemma ok_unlink w c x s a d b n (m : M unit) : at_ w c x s -> ws (c_rid x) s (a ++ d :: b) -> In (lm d, n) (s_map s) ->
  (forall s1, s_map s1 = s_map s -> s_epoch s1 = s_epoch s -> s_ord s1 = unassoc (lq d) (s_ord s) -> s_next s1 = s_next s ->
     forall z, at_ z c x s1 -> m z = Val tt (setS (c_rid x) (less s d) z)) ->
  ok (list_erase c (n_ord n);;; m) w (fun _ w' => goes w w' c x (less s d)).
Proof.
  intros A Hl I Hm. apply ok_bind. pose proof (list_erase_cases c (n_ord n) w) as L. unfold ok at 1.
  destruct (list_erase c (n_ord n) w) as [[] w1|e w1|u|e]; auto. destruct L as (x' & s' & q & A' & O & ->).
  assert (x' = x) as -> by (destruct A, A'; congruence). assert (s' = s) as -> by (destruct A, A'; congruence).
  destruct (ws_n Hl I O) as (_ & J). destruct (J eq_refl) as (d' & Id & Hmd & <-).
  assert (d' = d) as -> by (apply (nd_inj (f := @lm K) (l := a ++ d :: b)); auto; [apply (ws_nm Hl)|apply in_or_app; simpl; auto]).
  eapply ok_val. { eapply Hm; [| | | |apply (at_setS _ A)]; reflexivity. }
  rewrite setS_setS. apply (goes_setS _ A).
Qed.
Lemma ok_erase_it w c x s a d b n : at_ w c x s -> ws (c_rid x) s (a ++ d :: b) -> In (lm d, n) (s_map s) ->
  ok (erase_it E c ((c_rid x, lm d), s_epoch s)) w (fun _ w' => goes w w' c x (less s d)).
Proof.
  intros A Hl I. unfold erase_it. eapply ok_step; [eapply node_deref_it; eauto|].
  pose proof (ok_forget (n_key n) A) as F. unfold ok at 1, bind in F. apply ok_bind. unfold ok at 1.
  destruct (last_is E c (n_key n) w) as [same w1|e w1|u|e] eqn:La; auto.
  eapply ok_seq; [exact F|]. intros [] w2 Go. destruct (goes_at Go) as (y & Ay & R & P). rewrite <- R in *.
  eapply ok_step; [eapply node_deref_it; eauto|]. eapply ok_weaken.
  - apply (ok_unlink (m := map_erase_it c ((c_rid y, lm d), s_epoch s)) Ay Hl I). intros s1 M1 E1 O1 N1 z Az. unfold map_erase_it.
    erewrite bind_val; [|apply (own_ev Az)]. cbv iota beta. cbn [fst snd]. rewrite Nat.eqb_refl.
    erewrite bind_val; [|unfold deref_it; erewrite bind_val; [|apply get_store_ev; exact (proj2 Az)]; cbn [fst snd]; rewrite E1, Nat.eqb_refl;
      unfold deref; erewrite bind_val; [|apply get_store_ev; exact (proj2 Az)]; cbn [fst snd]; rewrite M1, (proj2 (ws_assoc _ _ Hl) I); reflexivity].
    unfold less. rewrite M1, E1, O1, N1. apply put_store_ev.
  - intros [] w3 Go3. eapply goes_trans; [exact Go|apply Ay|exact Go3].
Qed.
Lemma less_shown w w' c x s a d b ca cl cb k : W w -> at_ w c x s -> ws (c_rid x) s (a ++ d :: b) -> length (a ++ d :: b) <= c_cap x ->
  Forall2 (holds s) a ca -> holds s d cl -> Forall2 (holds s) b cb -> goes w w' c x (less s d) -> key_equal E k (lk d) = true ->
  has E k (shown (ca ++ cl :: cb)) = true /\ coherent E c w' (without E k (shown (ca ++ cl :: cb))) (c_cap x) /\ keep c w w'.
Proof.
  intros HW A Hl L F1 Hd F2 Go Hq.
  assert (H : Forall2 (holds s) (a ++ d :: b) (ca ++ cl :: cb)) by (apply Forall2_app; auto).
  pose proof (co_distinct (view G A Hl H L)) as D. rewrite shown_app in *. change (shown (cl :: cb)) with (pair_of (cl_e cl) :: shown cb) in *.
  destruct (look_at G (k := k) D) as (_ & L2 & L3). { destruct Hd as (_ & _ & Hk & _). unfold pair_of. simpl. rewrite Hk. auto. }
  split; auto. rewrite L2, <- shown_app. apply (shown_after G (s' := less s d) (ls := a ++ b) HW (proj1 A) Go).
  - apply (ws_remove G Hl).
  - apply (holds_less Hl F1 F2).
  - rewrite !app_length in *. simpl in *. lia.
Qed.
Lemma ok_erase_hot w c x s ls cs p n k : W w -> at_ w c x s -> ws (c_rid x) s ls -> Forall2 (holds s) ls cs -> length ls <= c_cap x ->
  c_last x = Some p -> deref p w = Val n w -> key_equal E k (n_key n) = true ->
  ok (erase_key_info E c p) w (fun _ w' => has E k (shown cs) = true /\ coherent E c w' (without E k (shown cs)) (c_cap x) /\ keep c w w').
Proof.
  intros HW A Hl H L La D Hq. unfold erase_key_info. eapply ok_step; [exact D|].
  pose proof (ok_forget (n_key n) A) as F. unfold ok at 1, bind in F. apply ok_bind. unfold ok at 1.
  destruct (last_is E c (n_key n) w) as [same w1|e w1|u|e] eqn:Ls; auto.
  assert (S1 : still w w1) by (pose proof (calm_last_is E c (n_key n) w) as Q; unfold ok in Q; rewrite Ls in Q; exact Q).
  assert (ST : ok (if same then invalidate_last c else ret tt) w1 (fun _ w2 => goes w w2 c x s /\ w_stores w2 = w_stores w)).
  { destruct same.
    - unfold invalidate_last in *. pose proof (still_at S1 A) as A1. eapply ok_val; [apply put_last_ev; apply A1|]. split; [|simpl; apply S1].
      unfold ok in F. unfold invalidate_last in F. rewrite (put_last_ev _ (proj1 A1)) in F. exact F.
    - eapply ok_val; [reflexivity|]. split; [exact F|apply S1]. }
  eapply ok_seq; [exact ST|]. intros [] w2 (Go & S2). destruct (goes_at Go) as (y & Ay & R & P).
  assert (D2 : deref p w2 = Val n w2).
  { apply deref_some in D as (s1 & H1 & H2). unfold deref. erewrite bind_val; [|apply get_store_ev; rewrite S2; exact H1]. rewrite H2. reflexivity. }
  eapply ok_step; [exact D2|].
  apply deref_some in D as (s1 & H1 & H2). destruct (W_s HW H1) as (l1 & Hl1). apply assoc_in in H2. pose proof (W_last HW (proj1 A) La) as Le.
  pose proof (list_erase_cases c (n_ord n) w2) as LE. apply ok_bind. unfold ok at 1.
  destruct (list_erase c (n_ord n) w2) as [[] w3|e w3|u|e] eqn:LQ; auto. destruct LE as (y' & sy & q & Ay' & O & Qw).
  assert (y' = y) as -> by (destruct Ay, Ay'; congruence).
  destruct (ws_n Hl1 H2 O) as (Le' & _). assert (Rp : fst p = c_rid x) by lia.
  assert (s1 = s) as -> by (destruct A; congruence). 
  destruct (ws_cell Hl H2) as (d & Id & Hm & Hk). destruct (holds_split H Id) as (a & b & ca & cl & cb & -> & -> & F1 & Hd & F2).
  rewrite <- Hm in H2. rewrite <- R in Hl.
  assert (KE : ok (list_erase c (n_ord n);;; map_erase_key E c (n_key n)) w2 (fun _ w' => goes w2 w' c y (less s d))).
  { apply (ok_unlink Ay Hl H2). intros s2 M1 E1 O1 N1 z Az. unfold map_erase_key. erewrite bind_val; [|apply (own_ev Az)]. cbv iota beta.
    destruct (@find_ws_of _ _ E G _ _ _ (n_key n) d Hl Id) as (n' & Fd & _ & _); [rewrite Hk; apply (good_refl G)|].
    rewrite M1, Fd, E1, O1, N1. apply put_store_ev. }
  unfold ok at 1, bind in KE. rewrite LQ in KE. eapply ok_weaken; [exact KE|]. intros [] w4 Go4. rewrite R in Hl.
  apply (less_shown HW A Hl L F1 Hd F2); [|rewrite Hk; auto]. eapply goes_trans; [exact Go|apply Ay|exact Go4].
Qed.
Theorem any_erase w c k l n r w' : attained E w -> coherent E c w l n -> call E (Erase c k) w r w' ->
  r = Returned (RBool (has E k l)) /\ coherent E c w' (without E k l) n /\ keep c w w'.
Proof.
  intros Hw Co C. destruct (cells_of G Hw Co) as (x & s & ls & cs & HW & A & Hl & H & L & -> & ->). pose proof A as (Hx & Hs).
  set (POST := fun (y : out K V) w' => y = RBool (has E k (shown cs)) /\ coherent E c w' (without E k (shown cs)) (c_cap x) /\ keep c w w').
  destruct (@ok_call K V E (Erase c k) w r w' POST) as (y & -> & (-> & C1 & K1)); auto.
  apply ok_exec; [simpl; unfold alive; rewrite Hx; auto|]. cbn [body]. apply ok_bind. unfold erase_key. unfold last_is. apply ok_bind.
  eapply ok_step; [apply get_cache_ev; exact Hx|].
  assert (COLD : ok (i <- map_find E c k;; match i with Some i => erase_it E c i;;; ret true | None => ret false end) w
    (fun b w1 => ok (ret (RBool b)) w1 POST)).
  { destruct (has E k (shown cs)) eqn:Hh.
    - destruct (key_found A Hl H Hh) as (a & d & b & ca & cl & cb & m & -> & -> & F1 & Hd & F2 & Nw & I & Hq & Hkey & Hp).
      eapply ok_step. { unfold map_find. erewrite bind_val; [|apply (own_ev A)]. cbv iota beta. rewrite Nw. reflexivity. }
      cbv iota beta. eapply ok_seq; [apply (ok_erase_it A Hl I)|]. intros [] w2 Go. eapply ok_val; [reflexivity|]. eapply ok_val; [reflexivity|].
      destruct (less_shown HW A Hl L F1 Hd F2 Go Hq) as (_ & C1 & K1). unfold POST. auto.
    - eapply ok_step; [apply (absent_node A Hl H Hh)|]. cbv iota beta. eapply ok_val; [reflexivity|]. eapply ok_val; [reflexivity|].
      unfold POST. rewrite (without_none Hh). split; auto. split; auto. intros d ld nd _ Cd. exact Cd. }
  destruct (c_last x) as [p|] eqn:La.
  - unfold ok at 1. unfold bind at 1. pose proof (@calm_deref K V p w) as Cp. unfold ok in Cp. destruct (deref p w) as [m w1|e w1|u|e] eqn:D; auto.
    assert (w1 = w) as ->. { pose proof (@e_deref K V p w) as Q. rewrite D in Q. auto. }
    cbn [ret]. destruct (key_equal E k (n_key m)) eqn:Hq; [|exact COLD].
    unfold last_ptr. eapply ok_step. { erewrite bind_val; [|apply get_cache_ev; exact Hx]. rewrite La. reflexivity. }
    eapply ok_seq; [apply (ok_erase_hot HW A Hl H L La D Hq)|]. intros [] w2 (Hh & C1 & K1). eapply ok_val; [reflexivity|]. eapply ok_val; [reflexivity|].
    unfold POST. rewrite Hh. auto.
  - eapply ok_val; [reflexivity|]. cbv iota beta. exact COLD.
Qed.

(** ** Dropping the least recently used elements *)
Lemma ok_erase_lru w c x s d b : at_ w c x s -> ws (c_rid x) s (d :: b) -> ok (erase_lru E c) w (fun _ w' => goes w w' c x (less s d)).
Proof.
  intros A Hl. unfold erase_lru. destruct (ws_node Hl (or_introl eq_refl)) as (n & I & Hk).
  eapply ok_step. { unfold list_front. erewrite bind_val; [|apply (own_ev A)]. cbv iota beta. rewrite (ws_ord Hl). reflexivity. }
  eapply ok_step; [eapply node_deref; eauto|].
  destruct (@find_ws_of _ _ E G _ _ _ (n_key n) d Hl (or_introl eq_refl)) as (n' & F & _ & I'); [rewrite Hk; apply (good_refl G)|].
  eapply ok_step. { unfold map_find. erewrite bind_val; [|apply (own_ev A)]. cbv iota beta. rewrite F. reflexivity. }
  cbv iota beta. apply (ok_erase_it (a := []) A Hl I').
Qed.
Lemma ok_while n f : forall w c x s ls cs, at_ w c x s -> ws (c_rid x) s ls -> Forall2 (holds s) ls cs ->
  ok (erase_lru_while E f c n) w (fun _ w' => exists s', goes w w' c x s' /\ ws (c_rid x) s' (skipn (length ls - n) ls) /\
    Forall2 (holds s') (skipn (length ls - n) ls) (skipn (length ls - n) cs)).
Proof.
  induction f as [|f IH]; intros w c x s ls cs A Hl H; simpl; (eapply ok_step; [apply (size_ev A)|]); rewrite (ws_size Hl);
    destruct (Nat.ltb_spec n (length ls)) as [Lt|Ge]; try exact I;
    try (eapply ok_val; [reflexivity|]; replace (length ls - n) with 0 by lia; exists s; split; [apply (goes_still A (still_refl w))|auto]; fail).
  destruct H as [|d cl b cb Hd F2]; [simpl in Lt; lia|].
  eapply ok_seq; [apply (ok_erase_lru A Hl)|]. intros [] w1 Go. destruct (goes_at Go) as (y & Ay & R & P).
  assert (Hl1 : ws (c_rid x) (less s d) b) by (apply (ws_remove (a := []) G Hl)).
  assert (H1 : Forall2 (holds (less s d)) b cb) by (apply (holds_less (a := []) (ca := []) Hl); auto).
  rewrite <- R in Hl1. eapply ok_weaken; [apply (IH w1 c y (less s d) b cb Ay Hl1 H1)|]. intros [] w2 (s' & Go2 & Hl2 & H2). rewrite R in *.
  assert (Q : length (d :: b) - n = S (length b - n)) by (clear - Lt; cbn [length] in *; lia). rewrite Q. cbn [skipn].
  exists s'. split; auto. eapply goes_trans; [exact Go|apply Ay|exact Go2].
Qed.
Lemma newest_shown n s ls cs : Forall2 (holds s) ls cs -> shown (skipn (length ls - n) cs) = newest n (shown cs).
Proof. intros H. unfold newest. rewrite (shown_length H). unfold shown, ents. rewrite <- !skipn_map. reflexivity. Qed.
Theorem any_shrink_any w c m l n r w' : attained E w -> coherent E c w l n -> call E (Shrink c m) w r w' ->
  r = Returned RUnit /\ coherent E c w' (newest m l) n /\ keep c w w'.
Proof.
  intros Hw Co C. destruct (le_lt_dec (length l) m) as [Le|Lt].
  - pose proof (any_shrink G Hw Co Le) as X. assert (Q : newest m l = l) by (unfold newest; replace (length l - m) with 0 by lia; auto).
    rewrite Q. unfold call in C. destruct r as [y|e]; rewrite X in C; [|discriminate C]. injection C as <- <-. split; auto. split; auto. intros d ld nd _ Cd. exact Cd.
  - destruct (Nat.eq_dec m 0) as [->|Nz].
    + destruct (any_clear G Hw Co) as (w1 & X & C1 & K1). rewrite newest_zero.
      assert (Q : exec E (Shrink c 0) w = exec E (Clear c) w).
      { destruct (cells_of G Hw Co) as (x & s & ls & cs & HW & A & Hl & H & L & -> & ->). unfold exec. simpl. unfold alive. rewrite (proj1 A).
        unfold shrink. unfold bind at 1. unfold bind at 1. rewrite (size_ev A). rewrite (ws_size Hl), <- (shown_length H).
        replace (Nat.leb (length (shown cs)) 0) with false by (symmetry; apply Nat.leb_gt; lia). reflexivity. }
      unfold call in C. destruct r as [y|e]; rewrite Q, X in C; [|discriminate C]. injection C as <- <-. auto.
    + destruct (cells_of G Hw Co) as (x & s & ls & cs & HW & A & Hl & H & L & -> & ->). pose proof A as (Hx & Hs).
      set (POST := fun (y : out K V) w' => y = RUnit /\ coherent E c w' (newest m (shown cs)) (c_cap x) /\ keep c w w').
      destruct (@ok_call K V E (Shrink c m) w r w' POST) as (y & -> & (-> & C1 & K1)); auto.
      apply ok_exec; [simpl; unfold alive; rewrite Hx; auto|]. cbn [body]. apply ok_bind. unfold shrink. eapply ok_step; [apply (size_ev A)|].
      rewrite (shown_length H) in Lt. rewrite (ws_size Hl). rewrite (proj2 (Nat.leb_gt _ _) Lt), (proj2 (Nat.eqb_neq _ _) Nz).
      eapply ok_weaken; [apply (ok_while m (length ls) A Hl H)|]. intros [] w2 (s' & Go & Hl' & H'). eapply ok_val; [reflexivity|].
      split; auto. rewrite <- (newest_shown m H). apply (shown_after G HW Hx Go Hl' H'). rewrite skipn_length. lia.
Qed.
Theorem any_capacity_any w c m l n r w' : attained E w -> coherent E c w l n -> call E (SetCapacity c m) w r w' ->
  r = Returned RUnit /\ coherent E c w' (newest m l) m /\ keep c w w'.
Proof.
  intros Hw Co C. destruct (cells_of G Hw Co) as (x & s & ls & cs & HW & A & Hl & H & L & -> & ->). pose proof A as (Hx & Hs).
  set (POST := fun (y : out K V) w' => y = RUnit /\ coherent E c w' (newest m (shown cs)) m /\ keep c w w').
  destruct (@ok_call K V E (SetCapacity c m) w r w' POST) as (y & -> & (-> & C1 & K1)); auto.
  apply ok_exec; [simpl; unfold alive; rewrite Hx; auto|]. cbn [body]. apply ok_bind. unfold set_capacity. eapply ok_step; [apply (size_ev A)|].
  eapply ok_seq; [apply (ok_while m (length (s_map s)) A Hl H)|]. intros [] w2 (s' & Go & Hl' & H'). destruct (goes_at Go) as (y & Ay & R & P).
  eapply ok_step; [apply get_cache_ev; apply Ay|]. eapply ok_val; [apply put_cache_ev|]. eapply ok_val; [reflexivity|].
  split; auto. rewrite <- (newest_shown m H). set (y' := MkCache _ _ _ _ _ _). split.
  - change m with (c_cap y') at 2. apply view with (s := s') (l := skipn (length ls - m) ls); auto.
    + split; simpl; [erewrite slot_upd_same; [reflexivity|apply Ay]|apply Ay].
    + simpl. rewrite R. auto.
    + simpl. rewrite skipn_length. lia.
  - destruct Go as (_ & Gc & Gs & Gr). intros d ld nd N. apply (others_seen (c := c) (x := x) (s' := s') G HW Hx); auto.
    intros e Ne. simpl. rewrite slot_upd_other; auto.
Qed.
End Erase.
