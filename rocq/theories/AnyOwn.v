(** Elements that were inserted into a cache itself, in any world a program can reach.
    On a copy, calls on elements taken over from the original may be undefined; calls
    on elements inserted since are defined. *)
From Coq Require Import List Arith ZArith Bool Permutation Lia.
Import ListNotations.
From Verif Require Import Monad Types Model Api Spec Ref Lists SimBase SimRel SimIter SimRun SimOps Effects SpecCopy CopyBlind CopyEval AnyWorld AnyKeep AnyInsert AnyRun AnyCopy AnyAll AnySee SpecAny AnyView AnyPut AnyMore AnyFill LruMore AnyHit AnyErase.
Set Implicit Arguments.
Unset Strict Implicit.
Local Open Scope cpp_scope.

Section Own.
Context {K V : Type}.
Variable E : env K V.
Hypothesis G : good E.

Notation world := (world K V).
Notation store := (store K V).
Notation mnode := (mnode K V).
Notation cell := (@cell K V).
Notation M := (M world).
Notation W := (W E).
Notation ws := (ws E).
Notation lc := (@lc K).
Notation still := (@still K V).
Notation keep := (keep E).
Implicit Types (w z : world) (s : store).

(** [m] returns, with a result and a world as required. *)
Definition val {A} (m : M A) w (Q : A -> world -> Prop) : Prop := exists a w', m w = Val a w' /\ Q a w'.
Lemma val_step A B (m : M A) (k : A -> M B) w a w1 Q : m w = Val a w1 -> val (k a) w1 Q -> val (bind m k) w Q.
Proof. intros H (b & w' & H' & HQ). exists b, w'. split; auto. unfold bind. rewrite H. exact H'. Qed.
Lemma val_seq A B (m : M A) (k : A -> M B) w Q R : val m w R -> (forall a w1, R a w1 -> val (k a) w1 Q) -> val (bind m k) w Q.
Proof. intros (a & w1 & H & HR) H2. eapply val_step; [exact H|auto]. Qed.
Lemma val_val A (m : M A) w a w' (Q : A -> world -> Prop) : m w = Val a w' -> Q a w' -> val m w Q.
Proof. intros. exists a, w'. auto. Qed.
Lemma val_weaken A (m : M A) w (Q R : A -> world -> Prop) : val m w Q -> (forall a w', Q a w' -> R a w') -> val m w R.
Proof. intros (a & w' & H & HQ) X. exists a, w'. auto. Qed.
Lemma val_ok A (m : M A) w a w' (Q : A -> world -> Prop) : m w = Val a w' -> ok m w Q -> val m w Q.
Proof. intros H. unfold ok. rewrite H. intros. exists a, w'. auto. Qed.

(** The last accessed element is the most recently used one of this cache's list. *)
Definition last_ok (x : cache) s : Prop := forall p, c_last x = Some p -> exists a q, s_ord s = a ++ [(q, p)].
(** The element with key [k], if any, knows its place in this cache's list. *)
Definition mine (r : nat) s k : Prop := forall i n, node_with E k (s_map s) = Some (i, n) -> exists q, n_ord n = Some (r, q).
Definition owned w c (ks : list K) : Prop := exists x s, at_ w c x s /\ 0 < c_cap x /\ last_ok x s /\ Forall (mine (c_rid x) s) ks.

Definition stats_there w (x : cache) : Prop := forall i, c_stats x = Some i -> slot (w_stats w) i <> None.
Lemma v_hit w c x k p n : slot (w_caches w) c = Some x -> stats_there w x -> deref p w = Val n w ->
  val (register_hit E c k p) w (fun _ w' => still w w').
Proof.
  intros Hx St D. apply deref_some in D as (s1 & H1 & H2).
  assert (DD : forall z, w_stores z = w_stores w -> deref p z = Val n z).
  { intros z Hz. unfold deref. erewrite bind_val; [|apply get_store_ev; rewrite Hz; exact H1]. rewrite H2. reflexivity. }
  eapply val_val with (a := tt).
  - unfold register_hit. erewrite bind_val; [|apply get_cache_ev; eauto]. erewrite bind_val; [|apply count_ev; exact St].
    erewrite bind_val; [|apply (call_each_ev G) with (x := x) (f := fun id => EvHit id k (n_val n)); [auto|]].
    + apply (call_each_ev G) with (x := x) (f := fun id => EvAccess id k true); auto.
    + intros id w' H. unfold bind. rewrite DD; [reflexivity|exact H].
  - split; reflexivity.
Qed.

Definition lands w w' c (x : cache) s' : Prop :=
  goes w w' c x s' /\ exists y, slot (w_caches w') c = Some y /\ c_ttl y = c_ttl x /\ last_ok y s'.
Lemma owned_lands w w' c x s' ks : lands w w' c x s' -> 0 < c_cap x -> Forall (mine (c_rid x) s') ks -> owned w' c ks.
Proof.
  intros (Go & y & Hy & _ & Lo) P F. destruct Go as ((y' & Hy' & R & C) & _ & S & _). rewrite Hy in Hy'. injection Hy' as <-.
  exists y, s'. split; [split; auto; congruence|]. split; [lia|]. split; auto. rewrite R. exact F.
Qed.
Lemma lands_still w w' c x s : at_ w c x s -> last_ok x s -> still w w' -> lands w w' c x s.
Proof. intros A Lo S. split; [apply (goes_still A S)|]. exists x. destruct S as (C & _). rewrite C. split; [apply A|auto]. Qed.
Lemma last_ok_end (x : cache) s r (a : list lc) d : c_last x = Some (r, lm d) -> s_ord s = map (orow r) (a ++ [d]) -> last_ok x s.
Proof. intros H O p Q. rewrite H in Q. injection Q as <-. rewrite O, map_app. simpl. unfold orow at 2. eauto. Qed.

Lemma ord_assoc r s ls d : ws r s ls -> In d ls -> assoc (lq d) (s_ord s) = Some (r, lm d).
Proof.
  intros Hl Id. apply in_assoc.
  - rewrite (ws_ord Hl), map_map. apply (ws_nq Hl).
  - rewrite (ws_ord Hl). apply (in_map (orow r)) in Id. exact Id.
Qed.
Lemma v_front w c x s a d b n q : at_ w c x s -> ws (c_rid x) s (a ++ d :: b) -> In (lm d, n) (s_map s) -> n_ord n = Some (c_rid x, q) ->
  val (move_to_front c (n_ord n)) w (fun _ w' => exists s', w' = setS (c_rid x) s' w /\ s_map s' = s_map s /\ s_epoch s' = s_epoch s /\
    ws (c_rid x) s' (a ++ b ++ [d])).
Proof.
  intros A Hl I O. pose proof (ok_front G A Hl I) as F.
  assert (X : exists w', move_to_front c (n_ord n) w = Val tt w').
  { unfold move_to_front, bind. rewrite (size_ev A). destruct (Nat.eqb _ 1); [eexists; reflexivity|].
    rewrite O. unfold list_splice_back. erewrite bind_val; [|apply (own_ev A)]. cbv iota beta. rewrite Nat.eqb_refl.
    destruct (ws_n Hl I O) as (_ & J). destruct (J eq_refl) as (d' & Id & _ & <-).
    rewrite (ord_assoc Hl Id). eexists. apply put_store_ev. }
  destruct X as (w' & X). eapply val_ok; [exact X|exact F].
Qed.
Lemma v_find_hit w c x s a d b n q k : at_ w c x s -> stats_there w x -> ws (c_rid x) s (a ++ d :: b) -> In (lm d, n) (s_map s) ->
  n_ord n = Some (c_rid x, q) ->
  val (find_hit E c k ((c_rid x, lm d), s_epoch s)) w (fun _ w' => exists s', lands w w' c x s' /\ s_map s' = s_map s /\ s_epoch s' = s_epoch s /\
    ws (c_rid x) s' (a ++ b ++ [d])).
Proof.
  intros A St Hl I O. unfold find_hit. eapply val_step; [eapply node_deref_it; eauto|]. cbn [fst].
  eapply val_seq; [eapply v_hit; [apply A|exact St|eapply node_deref; eauto]|]. intros [] w1 S1. pose proof (still_at S1 A) as A1.
  eapply val_step; [eapply node_deref_it; eauto|].
  eapply val_seq; [apply (v_front A1 Hl I O)|]. intros [] w2 (s' & -> & Q1 & Q2 & Hl').
  pose proof (at_setS s' A1) as A2. rewrite <- Q1 in I.
  eapply val_step; [rewrite <- Q2; eapply node_deref_it; eauto|].
  eapply val_val; [apply put_last_ev; apply A2|]. exists s'. split; auto. split.
  - eapply goes_trans; [apply (goes_still A S1)|apply A1|]. eapply goes_trans; [apply (goes_setS s' A1)|apply A2|]. apply (goes_setC (y := MkCache _ _ _ _ _ _) A2); reflexivity.
  - eexists. split; [simpl; erewrite slot_upd_same; [reflexivity|apply A1]|]. split; [reflexivity|].
    eapply last_ok_end; [reflexivity|]. rewrite (ws_ord Hl'), app_assoc. reflexivity.
Qed.
Lemma v_existing w c x s a d b n q v : at_ w c x s -> ws (c_rid x) s (a ++ d :: b) -> In (lm d, n) (s_map s) -> n_ord n = Some (c_rid x, q) ->
  let i := ((c_rid x, lm d), s_epoch s) in
  val (move_to_front_value E c i v;;; deref_it i;;; set_last c (Some (fst i));;; ret (false, uiter_of c (Some i))) w
    (fun r w' => r = (false, uiter_of c (Some i)) /\ exists s', lands w w' c x s' /\ s_epoch s' = s_epoch s /\ ws (c_rid x) s' (a ++ b ++ [d]) /\
       s_map s' = alter (lm d) (fun n => MkNode (n_key n) v (n_ord n) (n_time n)) (s_map s)).
Proof.
  intros A Hl I O i. unfold move_to_front_value. eapply val_seq with (R := fun (_ : unit) w' => exists s1 w3, still (setS (c_rid x) s1 w) w3 /\
    s_map s1 = s_map s /\ s_epoch s1 = s_epoch s /\ ws (c_rid x) s1 (a ++ b ++ [d]) /\
    w' = setS (c_rid x) (MkStore (alter (lm d) (fun n => MkNode (n_key n) v (n_ord n) (n_time n)) (s_map s)) (s_ord s1) (s_next s1) (s_epoch s1)) w3).
  - eapply val_step; [eapply node_deref_it; eauto|]. eapply val_seq; [apply (v_front A Hl I O)|]. intros [] w2 (s1 & -> & Q1 & Q2 & Hl1).
    pose proof (at_setS s1 A) as A1. eapply val_step; [apply (fallible_ev G)|].
    set (w3 := MkWorld _ _ _ _ _ _). assert (S3 : still (setS (c_rid x) s1 w) w3) by (split; reflexivity). pose proof (still_at S3 A1) as A3.
    eapply val_val; [|exists s1, w3; split; [exact S3|split; [exact Q1|split; [exact Q2|split; [exact Hl1|reflexivity]]]]].
    unfold update_node. unfold i. cbn [fst snd]. erewrite bind_val; [|apply get_store_ev; apply A3]. rewrite Q1, (proj2 (ws_assoc _ _ Hl) I). apply put_store_ev.
  - intros [] w4 (s1 & w3 & S3 & Q1 & Q2 & Hl1 & ->). pose proof (at_setS s1 A) as A1. pose proof (still_at S3 A1) as A3.
    set (s4 := MkStore (alter (lm d) (fun n => MkNode (n_key n) v (n_ord n) (n_time n)) (s_map s)) (s_ord s1) (s_next s1) (s_epoch s1)).
    assert (Hl4 : ws (c_rid x) s4 (a ++ b ++ [d])) by (unfold s4; rewrite <- Q1; apply ws_alter; auto).
    pose proof (at_setS s4 A3) as A4.
    assert (I4 : In (lm d, MkNode (n_key n) v (n_ord n) (n_time n)) (s_map s4)).
    { unfold s4. cbn [s_map]. unfold alter. apply in_map_iff. exists (lm d, n). simpl. rewrite Nat.eqb_refl. auto. }
    eapply val_step. { unfold i. replace (s_epoch s) with (s_epoch s4) by (exact Q2). eapply node_deref_it; [exact A4|exact Hl4|exact I4]. }
    eapply val_step; [apply put_last_ev; apply A4|]. eapply val_val; [reflexivity|]. split; auto. exists s4. split; [|split; [exact Q2|auto]]. split.
    + eapply goes_trans; [apply (goes_setS s1 A)|apply A1|]. eapply goes_trans; [apply (goes_still A1 S3)|apply A3|].
      eapply goes_trans; [apply (goes_setS s4 A3)|apply A4|]. apply (goes_setC (y := MkCache _ _ _ _ _ _) A4); reflexivity.
    + eexists. split; [simpl; erewrite slot_upd_same; [reflexivity|apply A3]|]. split; [reflexivity|].
      eapply last_ok_end; [reflexivity|]. rewrite (ws_ord Hl4), app_assoc. reflexivity.
Qed.

(** ** What becomes of [mine] *)
Lemma mine_map r s s' k : s_map s' = s_map s -> mine r s k -> mine r s' k.
Proof. unfold mine. intros ->. auto. Qed.
Lemma node_with_alter k i (f : mnode -> mnode) m j n : (forall n, n_key (f n) = n_key n) -> node_with E k (alter i f m) = Some (j, n) ->
  exists n0, node_with E k m = Some (j, n0) /\ (n = n0 \/ n = f n0).
Proof.
  intros Fk. unfold node_with, alter. induction m as [|[j0 n0] m IH]; simpl; [discriminate|].
  destruct (Nat.eqb i j0) eqn:Q; simpl; rewrite ?Fk; destruct (key_equal E k (n_key n0)); auto; intros H; injection H as <- <-; eauto.
Qed.
Lemma mine_alter r s s' i f k : (forall n, n_key (f n) = n_key n) -> (forall n, n_ord (f n) = n_ord n) -> s_map s' = alter i f (s_map s) -> mine r s k -> mine r s' k.
Proof.
  intros Fk Fo Q H j n. rewrite Q. intros X. apply (node_with_alter Fk) in X as (n0 & X & Y). destruct (H _ _ X) as (q & O). exists q.
  destruct Y as [->| ->]; rewrite ?Fo; auto.
Qed.
Lemma mine_part r s s' ls ls' k : ws r s ls -> ws r s' ls' -> (forall i n, In (i, n) (s_map s') -> In (i, n) (s_map s) \/ exists q, n_ord n = Some (r, q)) ->
  mine r s k -> mine r s' k.
Proof.
  intros Hl Hl' Sub H i n X. destruct (find_ws Hl' X) as (I & d & Id & Hd & Hk & Hq). destruct (Sub _ _ I) as [J|J]; auto.
  destruct (ws_cell Hl J) as (e & Ie & He & Hke).
  destruct (@find_ws_of _ _ E G _ _ _ k e Hl Ie) as (n2 & F & _ & I2); [rewrite Hke, <- Hk; exact Hq|]. rewrite He in *.
  assert (n2 = n) as -> by (pose proof (proj2 (ws_assoc _ _ Hl) J) as J1; pose proof (proj2 (ws_assoc _ _ Hl) I2) as J2; congruence).
  exact (H _ _ F).
Qed.
Lemma mine_less r s a d b k : ws r s (a ++ d :: b) -> mine r s k -> mine r (less s d) k.
Proof. intros Hl. apply (mine_part Hl (ls' := a ++ b)); [apply (ws_remove G Hl)|]. intros i n I. left. apply (in_unassoc I). Qed.

(** ** Erasing *)
Lemma last_at w c x s ls : at_ w c x s -> ws (c_rid x) s ls -> last_ok x s -> c_last x = None \/
  exists a d n, ls = a ++ [d] /\ c_last x = Some (c_rid x, lm d) /\ In (lm d, n) (s_map s) /\ n_key n = lk d.
Proof.
  intros A Hl Lo. destruct (c_last x) as [p|] eqn:La; auto. right. destruct (Lo _ La) as (a' & q & O). rewrite (ws_ord Hl) in O.
  destruct (exists_last (l := ls)) as (a & d & ->). { intros ->. destruct a'; discriminate O. }
  rewrite map_app in O. simpl in O. apply app_inj_tail in O as (_ & O). injection O as _ <-.
  destruct (ws_node Hl (c := d)) as (n & I & Hk); [apply in_or_app; simpl; auto|]. exists a, d, n. auto.
Qed.
Lemma last_is_none w c x k : slot (w_caches w) c = Some x -> c_last x = None -> last_is E c k w = Val false w.
Proof. intros Hx La. unfold last_is. erewrite bind_val; [|apply get_cache_ev; exact Hx]. rewrite La. reflexivity. Qed.
Lemma last_is_some w c x s ls d n k : at_ w c x s -> ws (c_rid x) s ls -> c_last x = Some (c_rid x, lm d) -> In (lm d, n) (s_map s) -> n_key n = lk d ->
  last_is E c k w = Val (key_equal E k (lk d)) w.
Proof.
  intros A Hl La I Hk. unfold last_is. erewrite bind_val; [|apply get_cache_ev; apply A]. rewrite La. erewrite bind_val; [|eapply node_deref; eauto].
  rewrite Hk. reflexivity.
Qed.
Lemma v_unlink w c x s a d b n q (m : M unit) : at_ w c x s -> ws (c_rid x) s (a ++ d :: b) -> In (lm d, n) (s_map s) -> n_ord n = Some (c_rid x, q) ->
  (forall s1, s_map s1 = s_map s -> s_epoch s1 = s_epoch s -> s_ord s1 = unassoc (lq d) (s_ord s) -> s_next s1 = s_next s ->
     forall z, at_ z c x s1 -> m z = Val tt (setS (c_rid x) (less s d) z)) ->
  (list_erase c (n_ord n);;; m) w = Val tt (setS (c_rid x) (less s d) w).
Proof.
  intros A Hl I O Hm. destruct (ws_n Hl I O) as (_ & J). destruct (J eq_refl) as (d' & Id & Hmd & <-).
  assert (d' = d) as -> by (apply (nd_inj (f := @lm K) (l := a ++ d :: b)); auto; [apply (ws_nm Hl)|apply in_or_app; simpl; auto]).
  erewrite bind_val.
  2: { rewrite O. unfold list_erase. erewrite bind_val; [|apply (own_ev A)]. cbv iota beta. rewrite Nat.eqb_refl.
       rewrite (ord_assoc Hl Id). apply put_store_ev. }
  erewrite Hm; [rewrite setS_setS; reflexivity| | | | |apply (at_setS _ A)]; reflexivity.
Qed.
Lemma less_last (x y : cache) s r a d b : ws r s (a ++ d :: b) -> last_ok x s -> c_last y = c_last x ->
  c_last x <> Some (r, lm d) -> last_ok y (less s d).
Proof.
  intros Hl Lo Q N p Hp. rewrite Q in Hp. destruct (Lo _ Hp) as (a' & q & O). unfold less. cbn [s_ord]. rewrite O.
  assert (q <> lq d).
  { intros ->. apply N. rewrite Hp. f_equal. pose proof (ws_ord Hl) as O'. rewrite O in O'.
    assert (I : In (lq d, p) (map (orow r) (a ++ d :: b))) by (rewrite <- O'; apply in_or_app; simpl; auto).
    apply in_map_iff in I as (d' & Qd & Id). injection Qd as Hq <-.
    assert (d' = d) as -> by (apply (nd_inj (f := @lq K) (l := a ++ d :: b)); auto; [apply (ws_nq Hl)|apply in_or_app; simpl; auto]). reflexivity. }
  clear - H. induction a' as [|[j u] a' IH]; simpl.
  - destruct (Nat.eqb_spec (lq d) q); [congruence|]. exists [], q. reflexivity.
  - destruct (Nat.eqb (lq d) j); [exists a', q; reflexivity|]. destruct IH as (a2 & q2 & ->). exists ((j, u) :: a2), q2. reflexivity.
Qed.
Lemma v_erase_it w c x s a d b n q : at_ w c x s -> ws (c_rid x) s (a ++ d :: b) -> In (lm d, n) (s_map s) -> n_ord n = Some (c_rid x, q) -> last_ok x s ->
  val (erase_it E c ((c_rid x, lm d), s_epoch s)) w (fun _ w' => lands w w' c x (less s d)).
Proof.
  intros A Hl I O Lo. pose proof A as (Hx & Hs). unfold erase_it. eapply val_step; [eapply node_deref_it; eauto|].
  assert (FIN : forall w2 y, at_ w2 c y s -> c_rid y = c_rid x -> c_ttl y = c_ttl x -> goes w w2 c x s -> last_ok y (less s d) ->
    val (n <- deref_it ((c_rid x, lm d), s_epoch s);; list_erase c (n_ord n);;; map_erase_it c ((c_rid x, lm d), s_epoch s)) w2
      (fun _ w' => lands w w' c x (less s d))).
  { intros w2 y Ay R T Go L2. rewrite <- R in *. eapply val_step; [eapply node_deref_it; eauto|]. eapply val_val.
    - apply (v_unlink Ay Hl I O). intros s1 M1 E1 O1 N1 z Az. unfold map_erase_it.
      erewrite bind_val; [|apply (own_ev Az)]. cbv iota beta. cbn [fst snd]. rewrite Nat.eqb_refl.
      erewrite bind_val; [|unfold deref_it; erewrite bind_val; [|apply get_store_ev; exact (proj2 Az)]; cbn [fst snd]; rewrite E1, Nat.eqb_refl;
        unfold deref; erewrite bind_val; [|apply get_store_ev; exact (proj2 Az)]; cbn [fst snd]; rewrite M1, (proj2 (ws_assoc _ _ Hl) I); reflexivity].
      unfold less. rewrite M1, E1, O1, N1. apply put_store_ev.
    - split; [eapply goes_trans; [exact Go|apply Ay|apply (goes_setS _ Ay)]|]. exists y. simpl. split; [apply Ay|auto]. }
  destruct (ws_cell Hl I) as (d1 & Id1 & Hm1 & Hk1).
  assert (d1 = d) as -> by (apply (nd_inj (f := @lm K) (l := a ++ d :: b)); auto; [apply (ws_nm Hl)|apply in_or_app; simpl; auto]).
  destruct (last_at A Hl Lo) as [La|(a0 & d0 & n0 & Q & La & I0 & Hk0)].
  - eapply val_step; [apply (last_is_none _ Hx La)|]. eapply val_step; [reflexivity|]. apply (FIN w x); auto; [apply (goes_still A (still_refl w))|].
    intros p Hp. congruence.
  - eapply val_step; [eapply last_is_some; eauto|]. destruct (key_equal E (n_key n) (lk d0)) eqn:Hq.
    + eapply val_step; [apply put_last_ev; exact Hx|]. eapply FIN; [apply (at_setC (MkCache _ _ _ _ _ _) A); reflexivity|reflexivity|reflexivity| |].
      * apply (goes_setC (y := MkCache _ _ _ _ _ _) A); reflexivity.
      * intros p Hp. discriminate Hp.
    + eapply val_step; [reflexivity|]. apply (FIN w x); auto; [apply (goes_still A (still_refl w))|].
      eapply less_last; eauto. rewrite La. intros Hq2. injection Hq2 as Hq2.
      assert (d0 = d) as ->. { apply (nd_inj (f := @lm K) (l := a ++ d :: b)); auto; [apply (ws_nm Hl)|rewrite Q; apply in_or_app; simpl; auto]. }
      rewrite <- Hk1, (good_refl G) in Hq. discriminate.
Qed.
Lemma v_erase w c x s ls k : at_ w c x s -> ws (c_rid x) s ls -> last_ok x s -> mine (c_rid x) s k ->
  val (erase_key E c k) w (fun _ w' => exists s', lands w w' c x s' /\ forall k', mine (c_rid x) s k' -> mine (c_rid x) s' k').
Proof.
  intros A Hl Lo Mk. pose proof A as (Hx & Hs). unfold erase_key.
  assert (COLD : val (i <- map_find E c k;; match i with Some i => erase_it E c i;;; ret true | None => ret false end) w
    (fun _ w' => exists s', lands w w' c x s' /\ forall k', mine (c_rid x) s k' -> mine (c_rid x) s' k')).
  { unfold map_find. destruct (node_with E k (s_map s)) as [[i n]|] eqn:F.
    - eapply val_step. { erewrite bind_val; [|apply (own_ev A)]. cbv iota beta. rewrite F. reflexivity. }
      cbv iota beta. destruct (find_ws Hl F) as (I & d & Id & <- & Hk & Hq). destruct (Mk _ _ F) as (q & O).
      apply in_split in Id as (a & b & ->). eapply val_seq; [apply (v_erase_it A Hl I O Lo)|]. intros [] w' La. eapply val_val; [reflexivity|].
      exists (less s d). split; auto. intros k'. apply (mine_less Hl).
    - eapply val_step. { erewrite bind_val; [|apply (own_ev A)]. cbv iota beta. rewrite F. reflexivity. }
      eapply val_val; [reflexivity|]. exists s. split; auto. apply (lands_still A Lo (still_refl w)). }
  destruct (last_at A Hl Lo) as [La|(a0 & d0 & n0 & Q & La & I0 & Hk0)].
  - eapply val_step; [apply (last_is_none _ Hx La)|]. exact COLD.
  - eapply val_step; [eapply last_is_some; eauto|]. destruct (key_equal E k (lk d0)) eqn:Hq; [|exact COLD].
    subst ls. assert (Id : In d0 (a0 ++ [d0])) by (apply in_or_app; simpl; auto).
    destruct (@find_ws_of _ _ E G _ _ _ k d0 Hl Id Hq) as (n2 & F & _ & I2).
    assert (n2 = n0) as -> by (pose proof (proj2 (ws_assoc _ _ Hl) I0) as J1; pose proof (proj2 (ws_assoc _ _ Hl) I2) as J2; congruence).
    destruct (Mk _ _ F) as (q & O).
    eapply val_step. { unfold last_ptr. erewrite bind_val; [|apply get_cache_ev; exact Hx]. rewrite La. reflexivity. }
    eapply val_seq with (R := fun (_ : unit) w' => lands w w' c x (less s d0)).
    + unfold erase_key_info. eapply val_step; [eapply node_deref; eauto|]. eapply val_step; [eapply last_is_some; eauto|].
      rewrite Hk0, (good_refl G). eapply val_step; [apply put_last_ev; exact Hx|].
      set (y := MkCache (c_rid x) None (c_cap x) (c_stats x) (c_cbs x) (c_ttl x)).
      assert (Ay : at_ (setC c y w) c y s) by (apply (at_setC y A); reflexivity).
      assert (Hl2 : ws (c_rid y) s (a0 ++ [d0])) by exact Hl. assert (O2 : n_ord n0 = Some (c_rid y, q)) by exact O.
      eapply val_step; [exact (node_deref Ay Hl2 I0)|]. eapply val_val.
      * apply (v_unlink Ay Hl2 I0 O2). intros s2 M1 E1 O1 N1 z Az. unfold map_erase_key. erewrite bind_val; [|apply (own_ev Az)]. cbv iota beta.
        destruct (@find_ws_of _ _ E G _ _ _ (n_key n0) d0 Hl Id) as (n' & Fd & _ & _); [rewrite Hk0; apply (good_refl G)|].
        rewrite M1, Fd, E1, O1, N1. apply put_store_ev.
      * split; [eapply goes_trans; [apply (goes_setC (y := y) A); reflexivity|apply Ay|apply (goes_setS _ Ay)]|].
        exists y. split; [apply Ay|]. split; [reflexivity|]. intros p Hp. discriminate Hp.
    + intros [] w' Ld. eapply val_val; [reflexivity|]. exists (less s d0). split; auto. intros k'. apply (mine_less (a := a0) (b := []) Hl).
Qed.
End Own.
