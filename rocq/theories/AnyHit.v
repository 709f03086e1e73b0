(** Calls on keys that are in the cache, in any world a program can reach.  On a copy
    they may be undefined; if they are defined, they do what they do on any cache. *)
From Coq Require Import List Arith ZArith Bool Permutation Lia.
Import ListNotations.
From Verif Require Import Monad Types Model Api Spec Ref Lists SimBase SimRel SimIter SimRun SimOps Effects SpecCopy CopyBlind CopyEval AnyWorld AnyKeep AnyInsert AnyRun AnyCopy AnyAll AnySee SpecAny AnyView AnyPut AnyMore AnyFill LruMore.
Set Implicit Arguments.
Unset Strict Implicit.
Local Open Scope cpp_scope.

Section Hit.
Context {K V : Type}.
Variable E : env K V.
Hypothesis G : good E.

Notation world := (world K V).
Notation store := (store K V).
Notation mnode := (mnode K V).
Notation cell := (@cell K V).
Notation M := (M world).
Notation W := (W E).
Notation ws := (ws E).
Notation lc := (@lc K).
Notation still := (@still K V).
Notation keep := (keep E).
Implicit Types (w z : world) (s : store).

(** Where defined, [m] returns, with a result and a world as required. *)
Definition ok {A} (m : M A) w (Q : A -> world -> Prop) : Prop :=
  match m w with Val a w' => Q a w' | Exc _ _ => False | _ => True end.
Lemma ok_val A (m : M A) w a w' (Q : A -> world -> Prop) : m w = Val a w' -> Q a w' -> ok m w Q.
Proof. unfold ok. intros ->. auto. Qed.
Lemma ok_bind A B (m : M A) (k : A -> M B) w Q : ok m w (fun a w1 => ok (k a) w1 Q) -> ok (bind m k) w Q.
Proof. unfold ok, bind. destruct (m w); auto. Qed.
Lemma ok_weaken A (m : M A) w (Q R : A -> world -> Prop) : ok m w Q -> (forall a w', Q a w' -> R a w') -> ok m w R.
Proof. unfold ok. destruct (m w); auto. Qed.
Lemma ok_seq A B (m : M A) (k : A -> M B) w Q R : ok m w R -> (forall a w1, R a w1 -> ok (k a) w1 Q) -> ok (bind m k) w Q.
Proof. intros H1 H2. apply ok_bind. eapply ok_weaken; eauto. Qed.
Lemma ok_step A B (m : M A) (k : A -> M B) w a w1 Q : m w = Val a w1 -> ok (k a) w1 Q -> ok (bind m k) w Q.
Proof. intros H1 H2. apply ok_bind. eapply ok_val; eauto. Qed.

Lemma still_refl w : still w w. Proof. split; auto. Qed.
Lemma still_trans a b c : still a b -> still b c -> still a c. Proof. intros (? & ?) (? & ?). split; congruence. Qed.
Definition calm {A} (m : M A) : Prop := forall w, ok m w (fun _ w' => still w w').
Lemma calm_bind A B (m : M A) (k : A -> M B) : calm m -> (forall a, calm (k a)) -> calm (bind m k).
Proof. intros H1 H2 w. eapply ok_seq; [apply H1|]. intros a w1 S. eapply ok_weaken; [apply H2|]. intros b w2 S'. exact (still_trans S S'). Qed.
Lemma calm_ret A (a : A) : calm (ret a).
Proof. intros w. eapply ok_val; [reflexivity|apply still_refl]. Qed.
Lemma calm_undef A u : calm (undef u : M A). Proof. intros w. exact I. Qed.
Lemma calm_get_cache c : calm (@get_cache K V c).
Proof. intros w. unfold ok, get_cache. destruct (slot (w_caches w) c); auto. apply still_refl. Qed.
Lemma calm_get_stats c : calm (@get_stats K V c).
Proof. intros w. unfold ok, get_stats. destruct (slot (w_stats w) c); auto. apply still_refl. Qed.
Lemma calm_put_stats i st : calm (@put_stats K V i st).
Proof. intros w. split; reflexivity. Qed.
Lemma calm_get_store r : calm (@get_store K V r).
Proof. intros w. unfold ok, get_store. destruct (slot (w_stores w) r); auto. apply still_refl. Qed.
Lemma calm_deref p : calm (@deref K V p).
Proof. apply calm_bind; [apply calm_get_store|]. intros s. destruct (assoc (snd p) (s_map s)); [apply calm_ret|apply calm_undef]. Qed.
Lemma calm_cb ev : calm (cb E ev).
Proof. intros w. eapply ok_val; [apply (good_cb G)|]. split; reflexivity. Qed.
Lemma calm_each sel c mk : (forall id, calm (mk id)) -> calm (call_each E sel c mk).
Proof.
  intros H. apply calm_bind; [apply calm_get_cache|]. intros x. generalize (sel (c_cbs x)) at 1. intros all.
  generalize (sel (c_cbs x)). intros ids. induction ids as [|id t IH]; simpl; [apply calm_ret|].
  apply calm_bind; auto. intros ev. apply calm_bind; [apply calm_cb|]. intros []. apply calm_bind; [apply calm_get_cache|].
  intros y. destruct (natlist_eqb _ _); auto. apply calm_undef.
Qed.
Lemma calm_hit c k p : calm (register_hit E c k p).
Proof.
  apply calm_bind; [apply calm_get_cache|]. intros x. apply calm_bind.
  - destruct (c_stats x); [|apply calm_ret]. apply calm_bind; [apply calm_get_stats|]. intros. apply calm_put_stats.
  - intros []. apply calm_bind; [apply calm_each|intros []; apply calm_each]; intros.
    + apply calm_bind; [apply calm_deref|intros; apply calm_ret].
    + apply calm_ret.
Qed.
Lemma calm_miss c k : calm (register_miss E c k).
Proof.
  apply calm_bind; [apply calm_get_cache|]. intros x. apply calm_bind.
  - destruct (c_stats x); [|apply calm_ret]. apply calm_bind; [apply calm_get_stats|]. intros. apply calm_put_stats.
  - intros []. apply calm_bind; [apply calm_each|intros []; apply calm_each]; intros; apply calm_ret.
Qed.
Lemma calm_fallible : calm (fallible E).
Proof. intros w. eapply ok_val; [apply (fallible_ev G)|]. split; reflexivity. Qed.
Lemma calm_last_is c k : calm (last_is E c k).
Proof.
  apply calm_bind; [apply calm_get_cache|]. intros x. destruct (c_last x); [|apply calm_ret].
  apply calm_bind; [apply calm_deref|]. intros. apply calm_ret.
Qed.

(** Only cache [c] changed; its containers are now [s']. *)
Definition goes w w' c (x : cache) s' : Prop :=
  (exists y, slot (w_caches w') c = Some y /\ c_rid y = c_rid x /\ c_cap y = c_cap x) /\
  (forall d, d <> c -> slot (w_caches w') d = slot (w_caches w) d) /\
  slot (w_stores w') (c_rid x) = Some s' /\ forall r, r <> c_rid x -> slot (w_stores w') r = slot (w_stores w) r.
Lemma goes_still w w' c x s : at_ w c x s -> still w w' -> goes w w' c x s.
Proof. intros (Hx & Hs) (C & S). unfold goes. rewrite C, S. repeat split; auto. exists x. auto. Qed.
Lemma goes_trans w1 w2 w3 c x y s2 s3 : goes w1 w2 c x s2 -> slot (w_caches w2) c = Some y -> goes w2 w3 c y s3 -> goes w1 w3 c x s3.
Proof.
  intros ((y' & Hy & R & P) & C & S & O) Hy2 ((z & Hz & R' & P') & C' & S' & O'). rewrite Hy in Hy2. injection Hy2 as ->. rewrite R in *.
  unfold goes. split; [exists z; split; [|split]; congruence|]. split; [intros d Nd; rewrite C', C; auto|]. split; auto.
  intros r Nr. rewrite O', O; auto.
Qed.
Lemma goes_setS w c x s s' : at_ w c x s -> goes w (setS (c_rid x) s' w) c x s'.
Proof.
  intros (Hx & Hs). unfold goes. simpl. split; [exists x; auto|]. split; [auto|]. split; [erewrite slot_upd_same; eauto|].
  intros r N. rewrite slot_upd_other; auto.
Qed.
Lemma goes_setC w c x s y : at_ w c x s -> c_rid y = c_rid x -> c_cap y = c_cap x -> goes w (setC c y w) c x s.
Proof.
  intros (Hx & Hs) R P. unfold goes. simpl. split; [exists y; split; auto; erewrite slot_upd_same; eauto|].
  split; [intros d N; rewrite slot_upd_other; auto|]. auto.
Qed.
Lemma goes_at w w' c x s' : goes w w' c x s' -> exists y, at_ w' c y s' /\ c_rid y = c_rid x /\ c_cap y = c_cap x.
Proof. intros ((y & Hy & R & P) & _ & S & _). exists y. split; [split; auto; congruence|auto]. Qed.
Lemma shown_after w w' c x s' ls cs : W w -> slot (w_caches w) c = Some x -> goes w w' c x s' ->
  ws (c_rid x) s' ls -> Forall2 (holds s') ls cs -> length ls <= c_cap x -> coherent E c w' (shown cs) (c_cap x) /\ keep c w w'.
Proof.
  intros HW Hx Go Hl H L. destruct (goes_at Go) as (y & A & R & P). split.
  - rewrite <- P in *. apply view with (s := s') (l := ls); auto. rewrite R. auto.
  - destruct Go as (_ & C & S & O). intros d ld nd N. apply (others_seen (c := c) (x := x) (s' := s') G HW Hx); auto.
Qed.

(** ** One element *)
Lemma ok_front w c x s a d b n : at_ w c x s -> ws (c_rid x) s (a ++ d :: b) -> In (lm d, n) (s_map s) ->
  ok (move_to_front c (n_ord n)) w (fun _ w' => exists s', w' = setS (c_rid x) s' w /\ s_map s' = s_map s /\ s_epoch s' = s_epoch s /\
    ws (c_rid x) s' (a ++ b ++ [d])).
Proof.
  intros A Hl I. unfold move_to_front. eapply ok_step; [apply (size_ev A)|]. pose proof (ws_size Hl) as Sz.
  destruct (Nat.eqb_spec (length (s_map s)) 1) as [Q|_].
  - eapply ok_val; [reflexivity|]. exists s. rewrite setS_same by apply A. do 3 (split; [reflexivity|]).
    rewrite Sz, app_length in Q. simpl in Q. destruct a; [destruct b; [exact Hl|simpl in Q; lia]|simpl in Q; lia].
  - unfold list_splice_back. eapply ok_step; [apply (own_ev A)|]. cbv iota beta. destruct (n_ord n) as [[r' q]|] eqn:O; [|exact Logic.I].
    destruct (Nat.eqb_spec r' (c_rid x)) as [->|]; [|exact Logic.I]. destruct (assoc q (s_ord s)) as [p|] eqn:Hq; [|exact Logic.I].
    destruct (ws_n Hl I O) as (_ & J). destruct (J eq_refl) as (d' & Id & Hm & Hq').
    assert (d' = d) as ->.
    { apply (nd_inj (f := @lm K) (l := a ++ d :: b)); auto; [apply (ws_nm Hl)|apply in_or_app; simpl; auto]. }
    subst q. apply assoc_in in Hq. rewrite (ws_ord Hl) in Hq. apply in_map_iff in Hq as (d' & Qd & Id').
    injection Qd as Hq' <-. assert (d' = d) as -> by (apply (nd_inj (f := @lq K) (l := a ++ d :: b)); auto; apply (ws_nq Hl)).
    eapply ok_val; [apply put_store_ev|]. eexists. do 3 (split; [reflexivity|]). apply (ws_move G Hl).
Qed.
Lemma holds_map s s' m ms : s_map s' = s_map s -> Forall2 (holds s) m ms -> Forall2 (holds s') m ms.
Proof. intros Q F. induction F as [|u v m ms H F IH]; constructor; auto. unfold holds in *. rewrite Q. exact H. Qed.
Lemma holds_split s ls cs d : Forall2 (holds s) ls cs -> In d ls -> exists a b ca cl cb, ls = a ++ d :: b /\ cs = ca ++ cl :: cb /\
  Forall2 (holds s) a ca /\ holds s d cl /\ Forall2 (holds s) b cb.
Proof.
  intros F I. apply in_split in I as (a & b & ->). apply Forall2_app_inv_l in F as (ca & c2 & F1 & F2 & ->).
  inversion F2 as [|? cl ? cb Hd F3]; subst. exists a, b, ca, cl, cb. auto 10.
Qed.
(** What is shown, in the words of the specification. *)
Lemma look_at k (a b : list (K * V)) p : distinct E (a ++ p :: b) -> key_equal E k (fst p) = true ->
  look E k (a ++ p :: b) = Some p /\ without E k (a ++ p :: b) = a ++ b /\ has E k (a ++ p :: b) = true.
Proof.
  intros D Q. unfold look, without, has. induction a as [|q a IH]; simpl in *.
  - rewrite Q. simpl. split; auto. split; auto. destruct D as (F & _). apply has_false' in F. rewrite Forall_map in F.
    clear - F Q G. induction F as [|r b H F IH]; simpl; auto.
    replace (key_equal E k (fst r)) with false; [simpl; congruence|]. destruct (key_equal E k (fst r)) eqn:R; auto.
    rewrite (good_sym G) in Q. rewrite (good_trans G _ _ _ Q R) in H. discriminate.
  - destruct D as (F & D). destruct (IH D) as (I1 & I2 & I3). clear IH.
    assert (N : key_equal E k (fst q) = false).
    { destruct (key_equal E k (fst q)) eqn:R; auto. apply has_false' in F. rewrite Forall_map, Forall_forall in F.
      assert (Ip : In p (a ++ p :: b)) by (apply in_or_app; simpl; auto). specialize (F p Ip). rewrite (good_sym G) in R.
      rewrite (good_trans G _ _ _ R Q) in F. discriminate. }
    rewrite N. simpl. split; auto. split; [f_equal; auto|auto].
Qed.
Lemma shown_app (a b : list cell) : shown (a ++ b) = shown a ++ shown b.
Proof. unfold shown, ents. rewrite !map_app. auto. Qed.

(** Everything about a key of the map. *)
Lemma key_found w c x s ls cs k : at_ w c x s -> ws (c_rid x) s ls -> Forall2 (holds s) ls cs -> has E k (shown cs) = true ->
  exists a d b ca cl cb n, ls = a ++ d :: b /\ cs = ca ++ cl :: cb /\ Forall2 (holds s) a ca /\ holds s d cl /\ Forall2 (holds s) b cb /\
    node_with E k (s_map s) = Some (lm d, n) /\ In (lm d, n) (s_map s) /\ key_equal E k (lk d) = true /\ n_key n = lk d /\ pair_of (cl_e cl) = (n_key n, n_val n).
Proof.
  intros A Hl H Hk. destruct (node_with E k (s_map s)) as [[i n]|] eqn:F.
  - destruct (find_ws Hl F) as (I & d & Id & <- & Hkd & Hq). destruct (holds_split H Id) as (a & b & ca & cl & cb & -> & -> & F1 & Hd & F2).
    exists a, d, b, ca, cl, cb, n. repeat split; auto; try apply Hd.
    destruct Hd as (_ & _ & _ & n2 & I2 & K2 & V2 & _).
    assert (n2 = n) as -> by (pose proof (proj2 (ws_assoc _ _ Hl) I) as J1; pose proof (proj2 (ws_assoc _ _ Hl) I2) as J2; congruence).
    unfold pair_of. congruence.
  - exfalso. pose proof (find_none_ws Hl F) as Q. rewrite <- (shown_keys H) in Q. apply has_false in Q. congruence.
Qed.
Lemma node_deref w c x s i n ls : at_ w c x s -> ws (c_rid x) s ls -> In (i, n) (s_map s) -> deref (c_rid x, i) w = Val n w.
Proof.
  intros (_ & Hs) Hl I. unfold deref. erewrite bind_val; [|apply get_store_ev; exact Hs]. simpl. rewrite (proj2 (ws_assoc _ _ Hl) I). reflexivity.
Qed.
Lemma node_deref_it w c x s i n ls : at_ w c x s -> ws (c_rid x) s ls -> In (i, n) (s_map s) -> deref_it ((c_rid x, i), s_epoch s) w = Val n w.
Proof.
  intros A Hl I. unfold deref_it. erewrite bind_val; [|apply get_store_ev; exact (proj2 A)]. simpl. rewrite Nat.eqb_refl. eapply node_deref; eauto.
Qed.
Lemma node_denotes w c x s i n ls : at_ w c x s -> ws (c_rid x) s ls -> In (i, n) (s_map s) ->
  denotes c (uiter_of c (Some ((c_rid x, i), s_epoch s))) w = Val (Some (n_key n, n_val n)) w.
Proof.
  intros A Hl I. unfold denotes, uiter_of. replace (u_eq _ (unordered_end c)) with false by reflexivity. unfold u_deref. cbn [ui_entry ui_pos].
  erewrite bind_val; [|erewrite bind_val; [|eapply node_deref_it; eauto]; reflexivity]. cbv iota beta. cbn [fst].
  unfold read_entry. erewrite bind_val; [|erewrite bind_val; [|eapply node_deref; eauto]; reflexivity]. reflexivity.
Qed.

(** ** find *)
Lemma ok_find_hit w c x s a d b n k : at_ w c x s -> ws (c_rid x) s (a ++ d :: b) -> In (lm d, n) (s_map s) ->
  ok (find_hit E c k ((c_rid x, lm d), s_epoch s)) w (fun _ w' => exists s', goes w w' c x s' /\ s_map s' = s_map s /\ s_epoch s' = s_epoch s /\
    ws (c_rid x) s' (a ++ b ++ [d])).
Proof.
  intros A Hl I. unfold find_hit. eapply ok_step; [eapply node_deref_it; eauto|]. cbn [fst].
  eapply ok_seq; [apply calm_hit|]. intros [] w1 S1. pose proof (still_at S1 A) as A1.
  eapply ok_step; [eapply node_deref_it; eauto|].
  eapply ok_seq; [apply (ok_front A1 Hl I)|]. intros [] w2 (s' & -> & Q1 & Q2 & Hl').
  pose proof (at_setS s' A1) as A2. rewrite <- Q1 in I.
  eapply ok_step; [rewrite <- Q2; eapply node_deref_it; eauto|].
  eapply ok_val; [apply put_last_ev; apply A2|]. exists s'. split; auto.
  eapply goes_trans; [apply (goes_still A S1)|apply A1|]. eapply goes_trans; [apply (goes_setS s' A1)|apply A2|]. apply (goes_setC (y := MkCache _ _ _ _ _ _) A2); reflexivity.
Qed.
Lemma hit_shown w w' c x s s' a d b ca cl cb n k : W w -> at_ w c x s -> ws (c_rid x) s (a ++ d :: b) -> length (a ++ d :: b) <= c_cap x ->
  Forall2 (holds s) a ca -> Forall2 (holds s) b cb -> goes w w' c x s' -> ws (c_rid x) s' (a ++ b ++ [d]) ->
  s_map s' = s_map s -> holds s d cl -> key_equal E k (lk d) = true -> n_key n = lk d -> pair_of (cl_e cl) = (n_key n, n_val n) ->
  look E k (shown (ca ++ cl :: cb)) = Some (n_key n, n_val n) /\
  coherent E c w' (without E k (shown (ca ++ cl :: cb)) ++ [(n_key n, n_val n)]) (c_cap x) /\ keep c w w'.
Proof.
  intros HW A Hl L F1 F2 Go Hl' Qm Hd Hq Hk Hp.
  assert (H : Forall2 (holds s) (a ++ d :: b) (ca ++ cl :: cb)) by (apply Forall2_app; auto).
  pose proof (co_distinct (view G A Hl H L)) as D. rewrite shown_app in *. change (shown (cl :: cb)) with (pair_of (cl_e cl) :: shown cb) in *.
  rewrite Hp in *. destruct (look_at (k := k) D) as (L1 & L2 & _); [simpl; rewrite Hk; auto|]. split; auto. rewrite L2, <- app_assoc.
  replace (shown ca ++ shown cb ++ [(n_key n, n_val n)]) with (shown (ca ++ cb ++ [cl])) by (rewrite !shown_app; simpl; unfold shown at 3; simpl; rewrite Hp; auto).
  apply (shown_after (s' := s') (ls := a ++ b ++ [d]) HW (proj1 A) Go); auto.
  - apply (holds_map Qm). repeat (apply Forall2_app; auto).
  - rewrite !app_length in *. simpl in *. lia.
Qed.
Lemma ok_call o w r w' (Q : out K V -> world -> Prop) : ok (exec E o) w Q -> call E o w r w' -> exists y, r = Returned y /\ Q y w'.
Proof. unfold ok, call. destruct r; intros H C; rewrite C in H; [eauto|contradiction]. Qed.
Lemma ok_exec o w (Q : out K V -> world -> Prop) : well_formed w o = true -> ok (body E o) w Q -> ok (exec E o) w Q.
Proof. intros H. unfold ok, exec. rewrite H. auto. Qed.
Theorem any_find_present w c k p l n r w' : attained E w -> coherent E c w l n -> look E k l = Some p -> call E (Find c k) w r w' ->
  (r = Returned (ROpt (Some p)) /\ coherent E c w' (without E k l ++ [p]) n /\ keep c w w') \/
  ((exists d, ttl_of c w (Some d)) /\ r = Returned (ROpt None) /\ forall e le ne, coherent E e w le ne -> coherent E e w' le ne).
Proof.
  intros Hw Co Hk C. destruct (cells_of G Hw Co) as (x & s & ls & cs & HW & A & Hl & H & L & -> & ->). pose proof A as (Hx & Hs).
  assert (Hh : has E k (shown cs) = true) by (rewrite look_has, Hk; auto).
  destruct (key_found A Hl H Hh) as (a & d & b & ca & cl & cb & m & -> & -> & F1 & Hd & F2 & Nw & I & Hq & Hkey & Hp).
  assert (MF : forall z, at_ z c x s -> map_find E c k z = Val (Some ((c_rid x, lm d), s_epoch s)) z).
  { intros z Az. unfold map_find. erewrite bind_val; [|apply (own_ev Az)]. cbv iota beta. rewrite Nw. reflexivity. }
  set (POST := fun (y : out K V) w' => (y = ROpt (Some p) /\ coherent E c w' (without E k (shown (ca ++ cl :: cb)) ++ [p]) (c_cap x) /\ keep c w w') \/
    ((exists d, ttl_of c w (Some d)) /\ y = ROpt None /\ forall e le ne, coherent E e w le ne -> coherent E e w' le ne)).
  assert (HIT : forall z, still w z -> ok (find_hit E c k ((c_rid x, lm d), s_epoch s);;; ret (uiter_of c (Some ((c_rid x, lm d), s_epoch s)))) z
    (fun it w1 => ok (e <- denotes c it;; ret (ROpt e)) w1 POST)).
  { intros z Sz. pose proof (still_at Sz A) as Az. eapply ok_seq; [apply (ok_find_hit k Az Hl I)|]. intros [] w2 (s' & Go & Q1 & Q2 & Hl').
    eapply ok_val; [reflexivity|]. destruct (goes_at Go) as (y & Ay & R & P).
    assert (Go' : goes w w2 c x s') by (eapply goes_trans; [apply (goes_still A Sz)|apply Az|exact Go]).
    destruct (hit_shown (k := k) HW A Hl L F1 F2 Go' Hl' Q1 Hd Hq Hkey Hp) as (L1 & Cw & Kw). rewrite Hk in L1. injection L1 as ->.
    assert (I' : In (lm d, m) (s_map s')) by (rewrite Q1; exact I).
    eapply ok_step. { rewrite <- R, <- Q2. rewrite <- R in Hl'. apply (node_denotes Ay Hl' I'). }
    eapply ok_val; [reflexivity|]. left. auto. }
  destruct (@ok_call (Find c k) w r w' POST) as (y & -> & [(-> & C1 & K1)|(T & -> & K1)]); auto.
  apply ok_exec; [simpl; unfold alive; rewrite Hx; auto|]. cbn [body]. apply ok_bind. unfold find. eapply ok_step; [apply get_cache_ev; exact Hx|].
  destruct (c_ttl x) as [t|] eqn:Tt.
  - eapply ok_step; [apply MF; auto|]. cbv iota beta. eapply ok_step; [eapply node_deref_it; eauto|].
    assert (X : ok (has_expired_info E t m) w (fun _ w1 => still w w1)).
    { pose proof (@e_has_expired_info K V E t m w) as T. unfold ok. unfold has_expired_info, bind, now in *. simpl in *. split; apply T. }
    eapply ok_seq; [exact X|]. intros ex w1 S1. destruct ex.
    + eapply ok_seq; [apply calm_miss|]. intros [] w2 S2. pose proof (still_trans S1 S2) as S3. eapply ok_val; [reflexivity|].
      eapply ok_step. { unfold denotes. replace (u_eq (unordered_end c) (unordered_end c)) with true; [reflexivity|]. unfold u_eq. simpl. symmetry. apply Nat.eqb_refl. }
      eapply ok_val; [reflexivity|]. right. split; [exists t, x; auto|]. split; auto. intros e le ne Ce. destruct (coherent_alive Ce) as (v & Hv).
      destruct S3 as (S3 & S4). apply (same_seen_at G (d := e) (e := e) (x := v) (x' := v) Hw Ce); auto; congruence.
    + apply HIT; auto.
  - eapply ok_step; [apply MF; auto|]. cbv iota beta. apply HIT. apply still_refl.
Qed.

(** ** insert and emplace of a key that is there *)
Lemma ok_existing w c x s a d b n v : at_ w c x s -> ws (c_rid x) s (a ++ d :: b) -> In (lm d, n) (s_map s) ->
  let i := ((c_rid x, lm d), s_epoch s) in
  ok (move_to_front_value E c i v;;; deref_it i;;; set_last c (Some (fst i));;; ret (false, uiter_of c (Some i))) w
    (fun r w' => r = (false, uiter_of c (Some i)) /\ exists s', goes w w' c x s' /\ s_epoch s' = s_epoch s /\ ws (c_rid x) s' (a ++ b ++ [d]) /\
       s_map s' = alter (lm d) (fun n => MkNode (n_key n) v (n_ord n) (n_time n)) (s_map s)).
Proof.
  intros A Hl I i. unfold move_to_front_value. apply ok_bind.
  eapply ok_step; [eapply node_deref_it; eauto|]. eapply ok_seq; [apply (ok_front A Hl I)|]. intros [] w2 (s1 & -> & Q1 & Q2 & Hl1).
  pose proof (at_setS s1 A) as A1. eapply ok_seq; [apply calm_fallible|]. intros [] w3 S3. pose proof (still_at S3 A1) as A3.
  assert (U : update_node (fst i) (fun n => MkNode (n_key n) v (n_ord n) (n_time n)) w3 =
    Val tt (setS (c_rid x) (MkStore (alter (lm d) (fun n => MkNode (n_key n) v (n_ord n) (n_time n)) (s_map s)) (s_ord s1) (s_next s1) (s_epoch s1)) w3)).
  { unfold update_node. unfold i. cbn [fst snd]. erewrite bind_val; [|apply get_store_ev; apply A3]. rewrite Q1, (proj2 (ws_assoc _ _ Hl) I). apply put_store_ev. }
  eapply ok_val; [exact U|].
  set (s4 := MkStore (alter (lm d) (fun n => MkNode (n_key n) v (n_ord n) (n_time n)) (s_map s)) (s_ord s1) (s_next s1) (s_epoch s1)).
  assert (Hl4 : ws (c_rid x) s4 (a ++ b ++ [d])) by (unfold s4; rewrite <- Q1; apply ws_alter; auto).
  pose proof (at_setS s4 A3) as A4.
  assert (I4 : In (lm d, MkNode (n_key n) v (n_ord n) (n_time n)) (s_map s4)).
  { unfold s4. cbn [s_map]. unfold alter. apply in_map_iff. exists (lm d, n). simpl. rewrite Nat.eqb_refl. auto. }
  eapply ok_step. { unfold i. replace (s_epoch s) with (s_epoch s4) by (exact Q2). eapply node_deref_it; [exact A4|exact Hl4|exact I4]. }
  eapply ok_step; [apply put_last_ev; apply A4|]. eapply ok_val; [reflexivity|]. split; auto. exists s4. split; [|split; [exact Q2|auto]].
  eapply goes_trans; [apply (goes_setS s1 A)|apply A1|]. eapply goes_trans; [apply (goes_still A1 S3)|apply A3|].
  eapply goes_trans; [apply (goes_setS s4 A3)|apply A4|]. apply (goes_setC (y := MkCache _ _ _ _ _ _) A4); reflexivity.
Qed.
Lemma holds_alter s s' i f m ms : (forall e, In e m -> lm e <> i) -> s_map s' = alter i f (s_map s) -> Forall2 (holds s) m ms -> Forall2 (holds s') m ms.
Proof.
  intros N Q F. induction F as [|e cl m ms H F IH]; constructor; [|apply IH; intros; apply N; simpl; auto].
  destruct H as (B1 & B2 & B3 & n & B4 & B5). repeat split; auto. exists n. split; auto. rewrite Q. unfold alter. apply in_map_iff. exists (lm e, n).
  split; auto. simpl. destruct (Nat.eqb_spec i (lm e)); auto. exfalso. apply (N e); simpl; auto.
Qed.
Theorem any_put_present w c k v o p l n r w' : attained E w -> puts c k v o -> coherent E c w l n -> look E k l = Some p -> call E o w r w' ->
  r = Returned (RIns false (Some (fst p, v))) /\ coherent E c w' (without E k l ++ [(fst p, v)]) n /\ keep c w w'.
Proof.
  intros Hw Po Co Hk C. destruct (cells_of G Hw Co) as (x & s & ls & cs & HW & A & Hl & H & L & -> & ->). pose proof A as (Hx & Hs).
  assert (Hh : has E k (shown cs) = true) by (rewrite look_has, Hk; auto).
  destruct (key_found A Hl H Hh) as (a & d & b & ca & cl & cb & m & -> & -> & F1 & Hd & F2 & Nw & I & Hq & Hkey & Hp).
  assert (MF : forall z, at_ z c x s -> map_find E c k z = Val (Some ((c_rid x, lm d), s_epoch s)) z).
  { intros z Az. unfold map_find. erewrite bind_val; [|apply (own_ev Az)]. cbv iota beta. rewrite Nw. reflexivity. }
  assert (Z : Nat.eqb (c_cap x) 0 = false) by (apply Nat.eqb_neq; rewrite app_length in L; simpl in L; lia).
  set (i := ((c_rid x, lm d), s_epoch s)).
  set (POST := fun (y : out K V) w' => y = RIns false (Some (fst p, v)) /\ coherent E c w' (without E k (shown (ca ++ cl :: cb)) ++ [(fst p, v)]) (c_cap x) /\ keep c w w').
  assert (EX : forall z, still w z -> ok (move_to_front_value E c i v;;; deref_it i;;; set_last c (Some (fst i));;; ret (false, uiter_of c (Some i))) z
     (fun q w1 => ok (e <- denotes c (snd q);; ret (RIns (fst q) e)) w1 POST)).
  { intros z Sz. pose proof (still_at Sz A) as Az. eapply ok_weaken; [apply (ok_existing v Az Hl I)|]. intros q w2 (-> & s' & Go & Qe & Hl' & Qm).
    cbn [fst snd]. destruct (goes_at Go) as (y & Ay & R & P).
    assert (Go' : goes w w2 c x s') by (eapply goes_trans; [apply (goes_still A Sz)|apply Az|exact Go]).
    set (m' := MkNode (n_key m) v (n_ord m) (n_time m)).
    assert (I' : In (lm d, m') (s_map s')).
    { rewrite Qm. unfold alter. apply in_map_iff. exists (lm d, m). simpl. rewrite Nat.eqb_refl. auto. }
    pose proof (co_distinct (view G A Hl H L)) as D. rewrite shown_app in D. change (shown (cl :: cb)) with (pair_of (cl_e cl) :: shown cb) in D.
    rewrite Hp in D. destruct (look_at (k := k) D) as (L1 & L2 & _); [simpl; rewrite Hkey; auto|].
    assert (SH : shown (ca ++ cl :: cb) = shown ca ++ (n_key m, n_val m) :: shown cb) by (rewrite shown_app, <- Hp; reflexivity).
    rewrite SH, L1 in Hk. injection Hk as <-. unfold i. rewrite <- R, <- Qe. rewrite <- R in Hl'.
    eapply ok_step; [apply (node_denotes Ay Hl' I')|]. eapply ok_val; [reflexivity|]. rewrite R in Hl'. split; auto. cbn [fst]. rewrite SH, L2, <- app_assoc.
    set (cl' := Cell (cl_q cl) (cl_m cl) (Ent (n_key m) v (e_time (cl_e cl)))).
    replace (shown ca ++ shown cb ++ [(n_key m, v)]) with (shown (ca ++ cb ++ [cl'])) by (rewrite !shown_app; reflexivity).
    apply (shown_after (s' := s') (ls := a ++ b ++ [d]) HW Hx Go'); auto.
    - pose proof (ws_nm Hl) as NM. apply nd_mid in NM as (_ & NM).
      assert (N : forall e, In e (a ++ b) -> lm e <> lm d) by (intros e Ie Q; apply NM; rewrite <- Q; apply in_map; auto).
      apply Forall2_app; [apply (holds_alter (i := lm d) (f := fun n => MkNode (n_key n) v (n_ord n) (n_time n)) (s := s)); auto; intros; apply N, in_or_app; auto|].
      apply Forall2_app; [apply (holds_alter (i := lm d) (f := fun n => MkNode (n_key n) v (n_ord n) (n_time n)) (s := s)); auto; intros; apply N, in_or_app; auto|].
      constructor; [|constructor]. destruct Hd as (B1 & B2 & B3 & n2 & B4 & B5 & B6 & B7).
      assert (n2 = m) as -> by (pose proof (proj2 (ws_assoc _ _ Hl) I) as J1; pose proof (proj2 (ws_assoc _ _ Hl) B4) as J2; congruence).
      split; [exact B1|]. split; [exact B2|]. split; [exact Hkey|]. exists m'. simpl. auto.
    - rewrite !app_length in *. simpl in *. lia. }
  destruct (@ok_call o w r w' POST) as (y & -> & (-> & C1 & K1)); auto.
  apply ok_exec; [destruct Po; simpl; unfold alive; rewrite Hx; auto|]. destruct Po; cbn [body]; apply ok_bind; unfold insert, emplace.
  - eapply ok_step; [apply capacity_ev; exact Hx|]. rewrite Z. eapply ok_step; [apply MF; auto|]. cbv iota beta. apply EX. apply still_refl.
  - eapply ok_step; [apply capacity_ev; exact Hx|]. rewrite Z. eapply ok_seq; [apply calm_fallible|]. intros [] w1 S1.
    eapply ok_step; [apply MF; apply (still_at S1 A)|]. cbv iota beta. eapply ok_seq; [apply calm_fallible|]. intros [] w2 S2. apply EX. apply (still_trans S1 S2).
Qed.
End Hit.
