(** Calls by keys that were inserted into a cache itself are defined, in any world a
    program can reach. *)
From Coq Require Import List Arith ZArith Bool Permutation Lia.
Import ListNotations.
From Verif Require Import Monad Types Model Api Spec Ref Lists SimBase SimRel SimIter SimRun SimOps Effects SpecCopy CopyBlind CopyEval AnyWorld AnyKeep AnyInsert AnyRun AnyCopy AnyAll AnySee SpecAny AnyView AnyPut AnyMore AnyFill LruMore AnyHit AnyErase SpecOwn AnyOwn.
Set Implicit Arguments.
Unset Strict Implicit.
Local Open Scope cpp_scope.

Section OwnCalls.
Context {K V : Type}.
Variable E : env K V.
Hypothesis G : good E.

Notation world := (world K V).
Notation store := (store K V).
Notation mnode := (mnode K V).
Notation cell := (@cell K V).
Notation M := (M world).
Notation W := (W E).
Notation ws := (ws E).
Notation lc := (@lc K).
Notation still := (@still K V).
Notation keep := (keep E).
Notation mine := (mine E).
Notation owned := (owned E).
Implicit Types (w z : world) (s : store).

Definition kept r s s' : Prop := forall k, mine r s k -> mine r s' k.
(** What a call on cache [c] leaves of the ownership of keys. *)
Definition spares c w w' : Prop :=
  (forall js, owned w c js -> owned w' c js) /\ forall d js, d <> c -> owned w d js -> owned w' d js.

Lemma away w w' c x s' d js : W w -> slot (w_caches w) c = Some x -> goes w w' c x s' -> d <> c -> owned w d js -> owned w' d js.
Proof.
  intros HW Hx (_ & C & _ & S) N (y & s & (Hy & Hs) & P & Lo & F). exists y, s. split; [|auto]. split; [rewrite C; auto|]. rewrite S; auto.
  intros R. apply N. symmetry. apply (W_inj HW Hx Hy (eq_sym R)).
Qed.
Lemma lands_spares w w' c x s s' : W w -> at_ w c x s -> lands w w' c x s' -> kept (c_rid x) s s' -> spares c w w'.
Proof.
  intros HW A La Ke. split.
  - intros js (y & t & (Hy & Ht) & P & Lo & F). destruct A as (Hx & Hs). rewrite Hx in Hy. injection Hy as <-. rewrite Hs in Ht. injection Ht as <-.
    eapply owned_lands; [exact La|exact P|]. apply Forall_impl with (P := mine (c_rid x) s); auto.
  - intros d js N. destruct La as (Go & _). apply (away HW (proj1 A) Go N).
Qed.
Lemma val_exec o w (Q : out K V -> world -> Prop) : well_formed w o = true -> val (body E o) w Q -> val (exec E o) w Q.
Proof. intros H. unfold val, exec. rewrite H. auto. Qed.

(** ** Insertion of a new key *)
Lemma own_new w c k v o l n : attained E w -> puts c k v o -> coherent E c w l n -> 0 < n -> has E k l = false ->
  exists y w', exec E o w = Val y w' /\ owned w' c [k] /\ (forall js, owned w c js -> owned w' c (k :: js)) /\
    forall d js, d <> c -> owned w d js -> owned w' d js.
Proof.
  intros Hw Po Co P Hk. destruct (cells_of G Hw Co) as (x & s & ls & cs & HW & A & Hl & H & L & -> & ->). pose proof A as (Hx & Hs).
  assert (N : node_with E k (s_map s) = None).
  { destruct (node_with E k (s_map s)) as [[i m]|] eqn:F; auto. destruct (find_ws Hl F) as (_ & cl & Ic & _ & _ & Hq).
    apply has_false' in Hk. rewrite (shown_keys H), Forall_map, Forall_forall in Hk. specialize (Hk _ Ic). simpl in Hk. congruence. }
  destruct (put_ev G HW A Hl L P Po N) as (t & w' & Ex & (q & s' & w0 & y & T & Pl & Hy & Ry & Cy & Ty & Ly)).
  exists (RIns true (Some (k, v))), w'. split; auto.
  assert (SS : w_stores w' = upd (w_stores w) (c_rid x) (Some s')).
  { pose proof (pl_stores Pl) as Q1. simpl in Q1. destruct T as (_ & T). rewrite T in Q1. exact Q1. }
  assert (CC : forall d, d <> c -> slot (w_caches w') d = slot (w_caches w) d).
  { intros d Nd. pose proof (pl_caches Pl) as Q1. simpl in Q1. destruct T as (T & _). rewrite T in Q1.
    rewrite <- Q1. rewrite slot_upd_other; auto. }
  assert (Go : goes w w' c x s').
  { split; [exists y; auto|]. split; [exact CC|]. split; [rewrite SS; erewrite slot_upd_same; eauto|]. intros r Nr. rewrite SS, slot_upd_other; auto. }
  set (g := grown (c_cap x) ls (inherited (s_next s) (c_cap x) ls) (s_next s) k).
  assert (Hg : ws (c_rid x) s' g) by apply (pl_ws Pl).
  assert (Lo : last_ok y s').
  { intros p Hp. rewrite Ly in Hp. injection Hp as <-. rewrite (ws_ord Hg). unfold g, grown.
    destruct (Nat.ltb (length ls) (c_cap x)); rewrite map_app; simpl; eexists; eexists; reflexivity. }
  assert (SUB : forall i m, In (i, m) (s_map s') -> In (i, m) (s_map s) \/ exists q, n_ord m = Some (c_rid x, q)).
  { intros i m I. destruct (ws_cell Hg I) as (e & Ie & <- & _). pose proof (proj2 (ws_assoc _ _ Hg) I) as As.
    destruct (Nat.eq_dec (lm e) (s_next s)) as [Q|Q].
    - right. rewrite Q, (pl_new Pl) in As. injection As as <-. simpl. rewrite (pl_q Pl). eauto.
    - left. rewrite (pl_old Pl) in As; auto. apply (ws_assoc _ _ Hl); auto. }
  assert (NEW : mine (c_rid x) s' k).
  { apply (mine_part G (ls := ls) (ls' := g) Hl Hg SUB). intros i m X. rewrite N in X. discriminate X. }
  assert (OLD : forall k', mine (c_rid x) s k' -> mine (c_rid x) s' k') by (intros k'; apply (mine_part G Hl Hg SUB)).
  assert (Ld : lands w w' c x s') by (split; [exact Go|exists y; auto]).
  split; [|split].
  - apply (owned_lands Ld P). auto.
  - intros js (y' & t' & (Hy' & Ht') & P' & Lo' & F). rewrite Hx in Hy'. injection Hy' as <-. rewrite Hs in Ht'. injection Ht' as <-.
    apply (owned_lands Ld P). constructor; auto. apply Forall_impl with (P := mine (c_rid x) s); auto.
  - intros d js Nd. apply (away HW Hx Go Nd).
Qed.

(** ** find *)
Definition found w c (x : cache) s (ls : list lc) k (it : uiter) w' s' : Prop :=
  (it = unordered_end c /\ still w w' /\ s' = s /\ (c_ttl x = None -> node_with E k (s_map s) = None)) \/
  exists a d b n, ls = a ++ d :: b /\ it = uiter_of c (Some ((c_rid x, lm d), s_epoch s)) /\ node_with E k (s_map s) = Some (lm d, n) /\
    s_map s' = s_map s /\ s_epoch s' = s_epoch s /\ ws (c_rid x) s' (a ++ b ++ [d]).
Lemma v_find w c x s ls k : at_ w c x s -> stats_there w x -> ws (c_rid x) s ls -> last_ok x s -> mine (c_rid x) s k ->
  val (find E c k) w (fun it w' => exists s', lands w w' c x s' /\ kept (c_rid x) s s' /\ found w c x s ls k it w' s').
Proof.
  intros A St Hl Lo Mk. pose proof A as (Hx & Hs). unfold find. eapply val_step; [apply get_cache_ev; exact Hx|].
  assert (MF : forall z, at_ z c x s -> map_find E c k z = Val (match node_with E k (s_map s) with Some (i, _) => Some ((c_rid x, i), s_epoch s) | None => None end) z).
  { intros z Az. unfold map_find. erewrite bind_val; [|apply (own_ev Az)]. cbv iota beta. destruct (node_with E k (s_map s)) as [[i n]|]; reflexivity. }
  assert (HIT : forall i n z, node_with E k (s_map s) = Some (i, n) -> still w z -> w_stats z = w_stats w ->
    val (find_hit E c k ((c_rid x, i), s_epoch s);;; ret (uiter_of c (Some ((c_rid x, i), s_epoch s)))) z
      (fun it w' => exists s', lands w w' c x s' /\ kept (c_rid x) s s' /\ found w c x s ls k it w' s')).
  { intros i n z F Sz Tz. pose proof (still_at Sz A) as Az. destruct (find_ws Hl F) as (I & d & Id & <- & Hk & Hq). destruct (Mk _ _ F) as (q & O).
    apply in_split in Id as (a & b & ->). assert (St' : stats_there z x) by (unfold stats_there; rewrite Tz; exact St).
    eapply val_seq; [apply (v_find_hit G k Az St' Hl I O)|]. intros [] w2 (s' & (Go & y & Hy & T & L2) & Q1 & Q2 & Hl').
    eapply val_val; [reflexivity|]. exists s'. split.
    - split; [eapply goes_trans; [apply (goes_still A Sz)|apply Az|exact Go]|eauto].
    - split; [intros k'; apply (mine_map Q1)|]. right. exists a, d, b, n. auto 10. }
  assert (MISS : forall z, still w z -> w_stats z = w_stats w -> (c_ttl x = None -> node_with E k (s_map s) = None) ->
    val (register_miss E c k;;; ret (unordered_end c)) z (fun it w' => exists s', lands w w' c x s' /\ kept (c_rid x) s s' /\ found w c x s ls k it w' s')).
  { intros z Sz Tz Nn. pose proof (still_at Sz A) as Az. eapply val_step; [apply (register_miss_ev G); [apply Az|rewrite Tz; exact St]|].
    eapply val_val; [reflexivity|]. assert (S2 : still w (noted (c_stats x) (stats_register_miss E k) (miss_events (c_cbs x) k) z)) by (destruct Sz; split; auto).
    exists s. split; [apply (lands_still A Lo S2)|]. split; [intros k' X; exact X|]. left. auto. }
  destruct (c_ttl x) as [t|] eqn:Tt.
  - eapply val_step; [apply MF; exact A|]. destruct (node_with E k (s_map s)) as [[i n]|] eqn:F.
    + destruct (find_ws Hl F) as (I & _). eapply val_step; [eapply node_deref_it; eauto|]. unfold has_expired_info.
      eapply val_step. { unfold bind, now. reflexivity. }
      destruct (Z.ltb t _).
      * apply MISS; [split; reflexivity|reflexivity|discriminate].
      * eapply HIT; [reflexivity|split; reflexivity|reflexivity].
    + apply MISS; auto. apply still_refl.
  - eapply val_step; [apply MF; exact A|]. destruct (node_with E k (s_map s)) as [[i n]|] eqn:F.
    + eapply HIT; [reflexivity|apply still_refl|reflexivity].
    + apply MISS; auto. apply still_refl.
Qed.
Lemma end_eq c : u_eq (unordered_end c) (unordered_end c) = true.
Proof. unfold u_eq. simpl. apply Nat.eqb_refl. Qed.

(** ** The calls *)
Section Calls.
Variables (w : world) (c : nat) (x : cache) (s : store) (ls : list lc).
Hypotheses (Hw : attained E w) (HW : W w) (A : at_ w c x s) (Hl : ws (c_rid x) s ls) (Lo : last_ok x s) (P : 0 < c_cap x).

Lemma st_there : stats_there w x.
Proof. intros i. apply (attained_there G Hw (proj1 A)). Qed.
Lemma wf c' : c' = c -> alive w c' = true.
Proof. intros ->. unfold alive. rewrite (proj1 A). auto. Qed.

Lemma c_find k : mine (c_rid x) s k -> val (exec E (Find c k)) w (fun _ w' => spares c w w').
Proof.
  intros Mk. apply val_exec; [apply wf; auto|]. cbn [body]. eapply val_seq; [apply (v_find A st_there Hl Lo Mk)|].
  intros it w1 (s' & La & Ke & F). pose proof (lands_spares HW A La Ke) as Sp. destruct F as [(-> & _)|(a & d & b & n & _ & -> & F & Q1 & Q2 & Hl')].
  - eapply val_step. { unfold denotes. rewrite end_eq. reflexivity. } eapply val_val; [reflexivity|exact Sp].
  - destruct (find_ws Hl F) as (I & _). rewrite <- Q1 in I. destruct La as (Go & _). destruct (goes_at Go) as (y & Ay & R & _).
    eapply val_step. { rewrite <- R, <- Q2. rewrite <- R in Hl'. apply (node_denotes Ay Hl' I). } eapply val_val; [reflexivity|exact Sp].
Qed.
Lemma c_erase k : mine (c_rid x) s k -> val (exec E (Erase c k)) w (fun _ w' => spares c w w').
Proof.
  intros Mk. apply val_exec; [apply wf; auto|]. cbn [body]. eapply val_seq; [apply (v_erase G A Hl Lo Mk)|].
  intros b w1 (s' & La & Ke). eapply val_val; [reflexivity|]. apply (lands_spares HW A La Ke).
Qed.
Lemma c_put_present k v o i n : mine (c_rid x) s k -> puts c k v o -> node_with E k (s_map s) = Some (i, n) -> val (exec E o) w (fun _ w' => spares c w w').
Proof.
  intros Mk Po F. destruct (find_ws Hl F) as (I & d & Id & <- & Hk & Hq). destruct (Mk _ _ F) as (q & O).
  apply in_split in Id as (a & b & Q). subst ls.
  assert (MF : forall z, at_ z c x s -> map_find E c k z = Val (Some ((c_rid x, lm d), s_epoch s)) z).
  { intros z Az. unfold map_find. erewrite bind_val; [|apply (own_ev Az)]. cbv iota beta. rewrite F. reflexivity. }
  assert (Z : Nat.eqb (c_cap x) 0 = false) by (apply Nat.eqb_neq; lia).
  set (i := ((c_rid x, lm d), s_epoch s)).
  assert (EX : forall z, still w z -> val (q <- (move_to_front_value E c i v;;; deref_it i;;; set_last c (Some (fst i));;; ret (false, uiter_of c (Some i)));;
     e <- denotes c (snd q);; ret (RIns (fst q) e)) z (fun _ w' => spares c w w')).
  { intros z Sz. pose proof (still_at Sz A) as Az. eapply val_seq; [apply (v_existing G v Az Hl I O)|]. intros r w2 (-> & s' & La & Qe & Hl' & Qm).
    cbn [fst snd]. destruct La as (Go & y0 & Hy & T & L2). destruct (goes_at Go) as (y & Ay & R & _).
    assert (I' : In (lm d, MkNode (n_key n) v (n_ord n) (n_time n)) (s_map s')).
    { rewrite Qm. unfold alter. apply in_map_iff. exists (lm d, n). simpl. rewrite Nat.eqb_refl. auto. }
    assert (Ld : lands w w2 c x s') by (split; [eapply goes_trans; [apply (goes_still A Sz)|apply Az|exact Go]|eauto]).
    eapply val_step. { unfold i. rewrite <- R, <- Qe. rewrite <- R in Hl'. apply (node_denotes Ay Hl' I'). }
    eapply val_val; [reflexivity|]. apply (lands_spares HW A Ld). intros k'. apply (mine_alter (i := lm d) (f := fun n => MkNode (n_key n) v (n_ord n) (n_time n))); auto. }
  apply val_exec; [destruct Po; apply wf; auto|]. destruct Po; cbn [body]; unfold insert, emplace.
  - destruct (EX w (still_refl w)) as (r & w2 & X & Sp). exists r, w2. split; auto.
    unfold bind at 1 in X. unfold bind at 1. erewrite bind_val; [|apply capacity_ev; apply A]. rewrite Z. erewrite bind_val; [|apply MF; exact A]. cbv iota beta. exact X.
  - set (w1 := MkWorld (w_caches w) (w_stores w) (w_stats w) (w_log w) (w_reads w) (S (w_steps w))).
    set (w2 := MkWorld (w_caches w) (w_stores w) (w_stats w) (w_log w) (w_reads w) (S (S (w_steps w)))).
    assert (S2 : still w w2) by (split; reflexivity). assert (S1 : still w w1) by (split; reflexivity).
    destruct (EX w2 S2) as (r & w3 & X & Sp). exists r, w3. split; auto.
    unfold bind at 1 in X. unfold bind at 1. erewrite bind_val; [|apply capacity_ev; apply A]. rewrite Z.
    erewrite bind_val; [|apply (fallible_ev G)]. fold w1. erewrite bind_val; [|apply MF; apply (still_at S1 A)]. cbv iota beta.
    erewrite bind_val; [|apply (fallible_ev G)]. exact X.
Qed.

(** contains and lookup, without a time to live *)
Definition effect k w' : Prop := spares c w w' /\ forall cs, Forall2 (holds s) ls cs -> length ls <= c_cap x ->
  forall p, look E k (shown cs) = Some p -> coherent E c w' (without E k (shown cs) ++ [p]) (c_cap x) /\ keep c w w'.
Lemma hot_effect k a d n w' : ls = a ++ [d] -> In (lm d, n) (s_map s) -> n_key n = lk d -> key_equal E k (lk d) = true -> still w w' -> effect k w' /\
  forall cs p, Forall2 (holds s) ls cs -> length ls <= c_cap x -> look E k (shown cs) = Some p -> p = (n_key n, n_val n).
Proof.
  intros Q I Hk Hq S. assert (La : lands w w' c x s) by apply (lands_still A Lo S).
  assert (B : forall cs, Forall2 (holds s) ls cs -> length ls <= c_cap x -> look E k (shown cs) = Some (n_key n, n_val n) /\
    coherent E c w' (without E k (shown cs) ++ [(n_key n, n_val n)]) (c_cap x) /\ keep c w w').
  { intros cs F L. assert (Id : In d ls) by (rewrite Q; apply in_or_app; simpl; auto).
    destruct (holds_split F Id) as (a1 & b1 & ca & cl & cb & Q1 & -> & F1 & Hd & F2).
    assert (Hp : pair_of (cl_e cl) = (n_key n, n_val n)).
    { destruct Hd as (_ & _ & _ & n2 & I2 & K2 & V2 & _).
      assert (n2 = n) as -> by (pose proof (proj2 (ws_assoc _ _ Hl) I) as J1; pose proof (proj2 (ws_assoc _ _ Hl) I2) as J2; congruence).
      unfold pair_of. congruence. }
    assert (b1 = []) as ->.
    { destruct b1 as [|e b1]; auto. exfalso. destruct (exists_last (l := e :: b1)) as (b2 & e2 & Eb); [discriminate|]. rewrite Eb in Q1.
      pose proof (ws_nm Hl) as NM. rewrite Q1 in NM. apply nd_mid in NM as (_ & NM). apply NM.
      rewrite Q in Q1. change (a1 ++ d :: b2 ++ [e2]) with (a1 ++ (d :: b2) ++ [e2]) in Q1. rewrite app_assoc in Q1. apply app_inj_tail in Q1 as (_ & <-).
      rewrite !map_app. apply in_or_app. right. apply in_or_app. right. simpl. auto. }
    assert (Hl1 : ws (c_rid x) s (a1 ++ d :: [])) by (rewrite <- Q1; exact Hl). rewrite Q1 in L.
    apply (hit_shown (k := k) (s' := s) G HW A Hl1 L F1 F2 (proj1 La)); auto. }
  split; [split|].
  - apply (lands_spares HW A La). intros k' X. exact X.
  - intros cs F L p Lk. destruct (B cs F L) as (B1 & B2). rewrite B1 in Lk. injection Lk as <-. exact B2.
  - intros cs p F L Lk. destruct (B cs F L) as (B1 & _). congruence.
Qed.
Lemma cold_effect k it w' s' : c_ttl x = None -> lands w w' c x s' -> kept (c_rid x) s s' -> found w c x s ls k it w' s' -> effect k w'.
Proof.
  intros Tn La Ke F. split; [apply (lands_spares HW A La Ke)|]. intros cs H L p Lk.
  assert (Hh : has E k (shown cs) = true) by (rewrite look_has, Lk; auto).
  destruct (key_found A Hl H Hh) as (a & d & b & ca & cl & cb & m & Q & -> & F1 & Hd & F2 & Nw & I & Hq & Hkey & Hp).
  destruct F as [(_ & _ & _ & F)|(a1 & d1 & b1 & n1 & Q' & _ & F & Q1 & Q2 & Hl')]; [rewrite F in Nw by auto; discriminate Nw|].
  rewrite F in Nw. injection Nw as Hm ->.
  assert (Hl2 : ws (c_rid x) s (a ++ d :: b)) by (rewrite <- Q; exact Hl). assert (L2 : length (a ++ d :: b) <= c_cap x) by (rewrite <- Q; exact L).
  rewrite Q in Q'. clear Q.
  assert (d1 = d) as ->. { apply (nd_inj (f := @lm K) (l := a ++ d :: b)); auto; [apply (ws_nm Hl2)|rewrite Q'; apply in_or_app; simpl; auto|apply in_or_app; simpl; auto]. }
  assert (a1 = a /\ b1 = b) as (-> & ->).
  { clear - Q' Hl2. pose proof (ws_nm Hl2) as NM. apply nd_mid in NM as (_ & NM). revert a1 Q' NM. clear Hl2.
    induction a as [|e a IH]; intros [|e1 a1] Q NM; simpl in Q.
    - injection Q as <-. auto.
    - injection Q as -> ->. exfalso. apply NM. simpl. rewrite map_app. apply in_or_app. simpl. auto.
    - injection Q as -> _. exfalso. apply NM. simpl. auto.
    - injection Q as <- Q. destruct (IH a1 Q) as (-> & ->); auto. intros X. apply NM. simpl. auto. }
  destruct (hit_shown (k := k) G HW A Hl2 L2 F1 F2 (proj1 La) Hl' Q1 Hd Hq Hkey Hp) as (L1 & C1 & K1). rewrite Lk in L1. injection L1 as ->. auto.
Qed.
Lemma c_contains k : c_ttl x = None -> mine (c_rid x) s k ->
  val (exec E (Contains c k)) w (fun y w' => effect k w' /\ forall cs, Forall2 (holds s) ls cs -> has E k (shown cs) = true -> y = RBool true).
Proof.
  intros Tn Mk. apply val_exec; [apply wf; auto|]. cbn [body]. pose proof A as (Hx & Hs).
  assert (COLD : val (b <- (it <- find E c k;; ret (negb (u_eq it (unordered_end c))));; ret (RBool b)) w
    (fun (y : out K V) w' => effect k w' /\ forall cs, Forall2 (holds s) ls cs -> has E k (shown cs) = true -> y = RBool (K := K) (V := V) true)).
  { eapply val_seq with (R := fun b w' => effect k w' /\ forall cs, Forall2 (holds s) ls cs -> has E k (shown cs) = true -> b = true).
    - eapply val_seq; [apply (v_find A st_there Hl Lo Mk)|]. intros it w1 (s' & La & Ke & F). eapply val_val; [reflexivity|].
      split; [apply (cold_effect Tn La Ke F)|]. intros cs H Hh. destruct (key_found A Hl H Hh) as (_ & d & _ & _ & _ & _ & m & _ & _ & _ & _ & _ & Nw & _).
      destruct F as [(_ & _ & _ & F)|(a1 & d1 & b1 & n1 & _ & -> & _)]; [rewrite F in Nw by auto; discriminate Nw|reflexivity].
    - intros b w1 (X & Y). eapply val_val; [reflexivity|]. split; auto. intros cs H Hh. f_equal. eauto. }
  destruct (last_at A Hl Lo) as [La|(a0 & d0 & n0 & Q & La & I0 & Hk0)].
  - destruct COLD as (y & w1 & X & Y). exists y, w1. split; auto. rewrite <- X. unfold bind at 1. symmetry. unfold bind at 1. symmetry.
    unfold contains. erewrite bind_val; [|apply (last_is_none E k Hx La)]. reflexivity.
  - destruct (key_equal E k (lk d0)) eqn:Hq.
    + eapply val_seq with (R := fun b w' => b = true /\ still w w').
      * unfold contains. eapply val_step; [eapply last_is_some; eauto|]. rewrite Hq. eapply val_step.
        { unfold last_accessed_is_ok. erewrite bind_val; [|apply get_cache_ev; exact Hx]. rewrite Tn. reflexivity. }
        cbv iota. eapply val_step. { unfold last_ptr. erewrite bind_val; [|apply get_cache_ev; exact Hx]. rewrite La. reflexivity. }
        eapply val_seq; [eapply v_hit; eauto; [apply st_there|eapply node_deref; eauto]|]. intros [] w1 S1. eapply val_val; [reflexivity|auto].
      * intros b w1 (-> & S1). eapply val_val; [reflexivity|]. split; [apply (hot_effect (k := k) Q I0 Hk0 Hq S1)|auto].
    + destruct COLD as (y & w1 & X & Y). exists y, w1. split; auto. rewrite <- X. unfold bind at 1. symmetry. unfold bind at 1. symmetry.
      unfold contains. erewrite bind_val; [|eapply last_is_some; eauto]. rewrite Hq. reflexivity.
Qed.
Lemma c_lookup k : c_ttl x = None -> mine (c_rid x) s k ->
  exists r w', call E (Lookup c k) w r w' /\ effect k w' /\
    forall cs p, Forall2 (holds s) ls cs -> length ls <= c_cap x -> look E k (shown cs) = Some p -> r = Returned (RVal (snd p)).
Proof.
  intros Tn Mk. pose proof A as (Hx & Hs).
  assert (WF : exec E (Lookup c k) w = (p <- lookup E c k;; n <- deref p;; ret (RVal (n_val n))) w).
  { unfold exec. cbn [well_formed]. rewrite wf; auto. }
  assert (COLD : lookup E c k w = (it <- find E c k;; if u_eq it (unordered_end c) then throw KeyNotFound else u_entry E it) w ->
    exists r w', call E (Lookup c k) w r w' /\ effect k w' /\
    forall cs p, Forall2 (holds s) ls cs -> length ls <= c_cap x -> look E k (shown cs) = Some p -> r = Returned (RVal (snd p))).
  { intros Lk. destruct (v_find A st_there Hl Lo Mk) as (it & w1 & X & (s' & La & Ke & F)). unfold bind at 1 in Lk. rewrite X in Lk.
    pose proof (cold_effect Tn La Ke F) as Ef.
    destruct F as [(-> & _ & _ & F)|(a1 & d1 & b1 & n1 & Q & -> & F & Q1 & Q2 & Hl')].
    - exists (Threw KeyNotFound), w1. split; [|split; auto].
      + unfold call. rewrite WF. unfold bind. rewrite Lk, end_eq. reflexivity.
      + intros cs p H L Lp. exfalso. assert (Hh : has E k (shown cs) = true) by (rewrite look_has, Lp; auto).
        destruct (key_found A Hl H Hh) as (_ & d & _ & _ & _ & _ & m & _ & _ & _ & _ & _ & Nw & _). rewrite F in Nw by auto. discriminate Nw.
    - destruct (find_ws Hl F) as (I & _). assert (I' : In (lm d1, n1) (s_map s')) by (rewrite Q1; exact I).
      destruct La as (Go & y0 & Hy0 & Ty & _). destruct (goes_at Go) as (y & Ay & R & _). assert (y0 = y) as -> by (destruct Ay; congruence).
      exists (Returned (RVal (n_val n1))), w1. split; [|split; auto].
      + unfold call. rewrite WF. rewrite <- R, <- Q2 in Lk. rewrite <- R in Hl'. unfold bind at 1. rewrite Lk.
        change (u_eq (uiter_of c (Some ((c_rid y, lm d1), s_epoch s'))) (unordered_end c)) with false. cbv iota.
        unfold u_entry, uiter_of. cbn [ui_entry ui_pos ui_cache]. erewrite bind_val; [|eapply node_deref_it; eauto].
        erewrite bind_val; [|unfold throw_if_invalid_u; erewrite bind_val; [|apply get_cache_ev; apply Ay]; rewrite Ty, Tn; reflexivity].
        unfold ret at 1. cbn [fst]. erewrite bind_val; [|eapply node_deref; eauto]. reflexivity.
      + intros cs p H L Lp. assert (Hh : has E k (shown cs) = true) by (rewrite look_has, Lp; auto).
        destruct (key_found A Hl H Hh) as (a & d & b & ca & cl & cb & m & Q' & -> & F1 & Hd & F2 & Nw & I2 & Hq & Hkey & Hp).
        rewrite F in Nw. injection Nw as _ <-.
        pose proof (co_distinct (view G A Hl H L)) as D. rewrite shown_app in D, Lp. change (shown (cl :: cb)) with (pair_of (cl_e cl) :: shown cb) in D, Lp.
        rewrite Hp in D, Lp. destruct (look_at G (k := k) D) as (L1 & _); [simpl; rewrite Hkey; auto|]. rewrite L1 in Lp. injection Lp as <-. reflexivity. }
  destruct (last_at A Hl Lo) as [La|(a0 & d0 & n0 & Q & La & I0 & Hk0)].
  - apply COLD. unfold lookup. erewrite bind_val; [|apply (last_is_none E k Hx La)]. reflexivity.
  - destruct (key_equal E k (lk d0)) eqn:Hq.
    + destruct (v_hit G k (proj1 A) st_there (node_deref A Hl I0)) as ([] & w1 & X & S1).
      pose proof (hot_effect (k := k) Q I0 Hk0 Hq S1) as (Ef & Ep). exists (Returned (RVal (n_val n0))), w1. split; [|split; auto].
      * unfold call. rewrite WF. erewrite bind_val.
        2: { unfold lookup. erewrite bind_val; [|eapply last_is_some; eauto]. rewrite Hq. erewrite bind_val.
             2: { unfold value_for_last_accessed. erewrite bind_val; [|apply get_cache_ev; exact Hx].
                  erewrite bind_val; [|unfold last_ptr; erewrite bind_val; [|apply get_cache_ev; exact Hx]; rewrite La; reflexivity]. rewrite Tn. reflexivity. }
             erewrite bind_val; [|exact X]. reflexivity. }
        pose proof (still_at S1 A) as A1. erewrite bind_val; [|eapply (node_deref A1); eauto]. reflexivity.
      * intros cs p H L Lp. rewrite (Ep cs p H L Lp). reflexivity.
    + apply COLD. unfold lookup. erewrite bind_val; [|eapply last_is_some; eauto]. rewrite Hq. reflexivity.
Qed.
End Calls.

(** ** All together *)
Lemma owned_cells w c ks : attained E w -> owned w c ks -> exists x s ls, W w /\ at_ w c x s /\ ws (c_rid x) s ls /\ length ls <= c_cap x /\
  last_ok x s /\ 0 < c_cap x /\ Forall (mine (c_rid x) s) ks.
Proof.
  intros Hw (x & s & A & P & Lo & F). pose proof (attained_W G Hw) as HW. destruct (W_at HW (proj1 A)) as (s1 & ls & A1 & Hl & L).
  assert (s1 = s) as -> by (destruct A, A1; congruence). exists x, s, ls. auto 10.
Qed.
Lemma owned_tail w c k js : owned w c (k :: js) -> owned w c js.
Proof. intros (x & s & A & P & Lo & F). inversion F; subst. exists x, s. auto. Qed.
Theorem use_spares w c ks o : attained E w -> owned w c ks -> uses c ks w o -> exists r w', call E o w r w' /\ spares c w w'.
Proof.
  intros Hw Ow U. destruct (owned_cells Hw Ow) as (x & s & ls & HW & A & Hl & L & Lo & P & F). rewrite Forall_forall in F.
  destruct U as [k I|k I|k v o I Po|k I (y & Hy & T)|k I (y & Hy & T)]; try (assert (y = x) as -> by (destruct A; congruence)).
  - destruct (c_find Hw HW A Hl Lo (F k I)) as (r & w' & X & Sp). exists (Returned r), w'. auto.
  - destruct (c_erase HW A Hl Lo (F k I)) as (r & w' & X & Sp). exists (Returned r), w'. auto.
  - destruct (node_with E k (s_map s)) as [[i n]|] eqn:N.
    + destruct (c_put_present HW A Hl P (F k I) Po N) as (r & w' & X & Sp). exists (Returned r), w'. auto.
    + assert (Al : alive w c = true) by (unfold alive; rewrite (proj1 A); auto). destruct (any_coherent G Hw Al) as (l & n & Co).
      destruct (cells_of G Hw Co) as (x' & s' & ls' & cs & _ & A' & Hl' & H & L' & -> & ->).
      assert (x' = x) as -> by (destruct A, A'; congruence). assert (s' = s) as -> by (destruct A, A'; congruence).
      assert (Hk : has E k (shown cs) = false) by (apply has_false; rewrite (shown_keys H); apply (find_none_ws Hl' N)).
      destruct (own_new Hw Po Co P Hk) as (r & w' & X & _ & O2 & O3). exists (Returned r), w'. split; [exact X|]. split; [|exact O3].
      intros js Oj. apply (owned_tail (O2 _ Oj)).
  - destruct (c_contains Hw HW A Hl Lo T (F k I)) as (r & w' & X & (Sp & _) & _). exists (Returned r), w'. auto.
  - destruct (c_lookup Hw HW A Hl Lo T (F k I)) as (r & w' & X & (Sp & _) & _). exists r, w'. auto.
Qed.
Lemma call_same o w r w' r1 w1 : call E o w r w' -> call E o w r1 w1 -> w1 = w'.
Proof. unfold call. destruct r, r1; congruence. Qed.
(** ** Calls on whole caches *)
Lemma owned_same w w' c ks : (forall x s, slot (w_caches w) c = Some x -> slot (w_stores w) (c_rid x) = Some s -> slot (w_caches w') c = Some x /\ slot (w_stores w') (c_rid x) = Some s) ->
  owned w c ks -> owned w' c ks.
Proof. intros S (x & s & (Hx & Hs) & R). destruct (S x s Hx Hs) as (H1 & H2). exists x, s. split; [split; auto|exact R]. Qed.
Lemma clear_ev w c x s : at_ w c x s -> exec E (Clear c) w =
  Val RUnit (setC c (MkCache (c_rid x) None (c_cap x) (c_stats x) (c_cbs x) (c_ttl x)) (setS (c_rid x) (MkStore [] [] (s_next s) (s_epoch s)) w)).
Proof.
  intros A. pose proof A as (Hx & Hs). unfold exec. simpl. unfold alive. rewrite Hx. erewrite bind_val; [reflexivity|]. unfold clear.
  erewrite bind_val; [|apply (own_ev A)]. cbv iota beta.
  erewrite bind_val; [|apply put_store_ev]. erewrite bind_val; [|apply own_ev, (at_setS _ A)]. cbv iota beta.
  erewrite bind_val; [|apply put_store_ev]. rewrite setS_setS. cbn [s_map].
  unfold invalidate_last, set_last. erewrite bind_val; [|apply get_cache_ev; exact Hx]. reflexivity.
Qed.
Lemma alive_of w c : alive w c = true -> exists x, slot (w_caches w) c = Some x.
Proof. unfold alive. destruct (slot (w_caches w) c) as [x|]; [eauto|intros H; discriminate H]. Qed.
Lemma owned_empty w c x s ks : at_ w c x s -> s_map s = [] -> c_last x = None -> 0 < c_cap x -> owned w c ks.
Proof.
  intros A M La P. exists x, s. split; auto. split; auto. split; [intros p Q; congruence|].
  apply Forall_forall. intros k _ i n Q. rewrite M in Q. discriminate Q.
Qed.
Lemma own_clear w c ks n y w' : attained E w -> capacity_is E c w n -> 0 < n -> exec E (Clear c) w = Val y w' -> owned w' c ks.
Proof.
  intros Hw Cn P X. pose proof (attained_W G Hw) as HW. assert (Al : alive w c = true).
  { unfold capacity_is, exec in Cn. simpl in Cn. destruct (alive w c); [reflexivity|discriminate Cn]. }
  destruct (alive_of Al) as (x & Hx). destruct (W_at HW Hx) as (s & ls & A & Hl & L). rewrite (clear_ev A) in X. injection X as _ <-.
  assert (Q : n = c_cap x).
  { unfold capacity_is, exec in Cn. simpl in Cn. unfold alive in Cn. rewrite Hx in Cn. erewrite bind_val in Cn; [|apply capacity_ev; exact Hx]. injection Cn as <-. reflexivity. }
  subst n. apply owned_empty with (x := MkCache (c_rid x) None (c_cap x) (c_stats x) (c_cbs x) (c_ttl x)) (s := MkStore [] [] (s_next s) (s_epoch s)); [|reflexivity|reflexivity|exact P].
  destruct A as (_ & Hs). split; simpl; erewrite slot_upd_same; eauto.
Qed.
Lemma own_construct w c ks n t w' : 0 < n -> exec E (New n t) w = Val (RNat c) w' -> owned w' c ks.
Proof.
  intros P X. assert (Q : exec E (New n t) w = Val (RNat (length (w_caches w))) (with_caches (fun l => l ++ [Some (MkCache (length (w_stores w)) None n None no_callbacks t)]) (with_stores (fun l => l ++ [Some empty_store]) w))) by reflexivity.
  rewrite Q in X. injection X as <- <-. eapply owned_empty; [split; simpl; apply slot_app_new|reflexivity|reflexivity|exact P].
Qed.
Lemma own_else w c ks o y w' : attained E w -> owned w c ks -> elsewhere c o -> exec E o w = Val y w' -> owned w' c ks.
Proof.
  intros Hw Ow El X. pose proof (attained_W G Hw) as HW. destruct (well_formed w o) eqn:Wf.
  2: { unfold exec in X. rewrite Wf in X. injection X as _ <-. exact Ow. }
  revert Wf X. revert Ow. destruct El as [n t|d|d e N N'|d N|d N]; intros Ow Wf X; (eapply owned_same; [|exact Ow]); intros v sv Hv Hsv.
  - assert (Q : exec E (New n t) w = Val (RNat (length (w_caches w))) (with_caches (fun l => l ++ [Some (MkCache (length (w_stores w)) None n None no_callbacks t)]) (with_stores (fun l => l ++ [Some empty_store]) w))) by reflexivity.
    rewrite Q in X. injection X as _ <-. simpl. rewrite !slot_app_lt; auto; eapply slot_lt; eauto.
  - destruct (alive_of (Wf : alive w d = true)) as (x & Hx). destruct (W_at HW Hx) as (s & ls & A & Hl & L).
    assert (Q : exec E (Copy d) w = (r <- copy_new E d;; ret (RNat r)) w) by (unfold exec; simpl; unfold alive; rewrite Hx; reflexivity).
    erewrite bind_val in Q; [|apply (copy_any G A Hl)]. rewrite Q in X. injection X as _ <-. simpl. rewrite !slot_app_lt; auto; eapply slot_lt; eauto.
  - pose proof Wf as Sk. simpl in Sk. unfold same_kind in Sk. apply andb_prop in Sk as (Sk & _). apply andb_prop in Sk as (S1 & S2). destruct (alive_of S1) as (z & Hz).
    destruct (alive_of S2) as (x & Hx).
    destruct (W_at HW Hx) as (s & ls & A & Hl & L). destruct (W_at HW Hz) as (t & m & B & Hm & L').
    assert (NR : c_rid x <> c_rid z) by (intros Q; apply N'; symmetry; eapply (W_inj HW); eauto).
    assert (Q : exec E (CopyAssign d e) w = (copy_assign E d e;;; ret RUnit) w).
    { unfold exec. rewrite Wf. reflexivity. }
    erewrite bind_val in Q; [|apply (copy_assign_any G N' A B Hl NR)]. rewrite Q in X. injection X as _ <-. simpl.
    rewrite slot_upd_other by auto. rewrite slot_app_lt by (rewrite upd_length; eapply slot_lt; eauto). rewrite slot_upd_other; auto.
    intros R. apply N. symmetry. apply (W_inj HW Hv Hz). auto.
  - destruct (alive_of (Wf : alive w d = true)) as (x & Hx). destruct (W_at HW Hx) as (s & ls & A & Hl & L).
    rewrite (clear_ev A) in X. injection X as _ <-. simpl. rewrite !slot_upd_other; auto.
    intros R. apply N. symmetry. apply (W_inj HW Hv Hx). auto.
  - destruct (alive_of (Wf : alive w d = true)) as (x & Hx).
    assert (Q : exec E (Destroy d) w = Val RUnit (with_caches (fun l => upd l d None) (with_stores (fun l => upd l (c_rid x) None) w))).
    { unfold exec. simpl. unfold alive. rewrite Hx. erewrite bind_val; [reflexivity|]. unfold destroy. erewrite bind_val; [|apply get_cache_ev; exact Hx]. reflexivity. }
    rewrite Q in X. injection X as _ <-. simpl. rewrite !slot_upd_other; auto. intros R. apply N. symmetry. apply (W_inj HW Hv Hx). auto.
Qed.

Theorem since_owned c ks w : since E c ks w -> attained E w /\ owned w c ks.
Proof.
  assert (NEW : forall w c k o y w', attained E w -> adds E c k w o -> exec E o w = Val y w' -> attained E w' /\ owned w' c [k] /\
    (forall js, owned w c js -> owned w' c (k :: js)) /\ forall d js, d <> c -> owned w d js -> owned w' d js).
  { intros z d k o y z' Hz (v & l & n & Po & Hl & Hn & P & Hk) X. pose proof (coherent_of G Hz Hl Hn) as Co.
    destruct (own_new Hz Po Co P Hk) as (y1 & z1 & X1 & R). rewrite X in X1. injection X1 as <- <-. split; [exact (att_return _ Hz X)|exact R]. }
  intros Si. induction Si as [w c k o r w' Hw Ad X|w c ks k o r w' _ (Hw & Ow) Ad X|w c ks d k o r w' _ (Hw & Ow) N Ad X|w c ks d js o r w' _ (Hw & Ow) _ (_ & Od) U C|w c ks n r w' Hw Cn P X|w c ks n t w' Hw P X|w c ks o r w' _ (Hw & Ow) El X].
  - destruct (NEW _ _ _ _ _ _ Hw Ad X) as (H1 & H2 & _). auto.
  - destruct (NEW _ _ _ _ _ _ Hw Ad X) as (H1 & _ & H3 & _). auto.
  - destruct (NEW _ _ _ _ _ _ Hw Ad X) as (H1 & _ & _ & H4). auto.
  - destruct (use_spares Hw Od U) as (r1 & w1 & C1 & Sp1 & Sp2). rewrite (call_same C C1) in *. clear C1 w1.
    split; [destruct r; [exact (att_return _ Hw C)|exact (att_throw _ Hw C)]|]. destruct (Nat.eq_dec c d) as [->|N]; auto.
  - split; [exact (att_return _ Hw X)|exact (own_clear _ Hw Cn P X)].
  - split; [exact (att_return _ Hw X)|exact (own_construct _ P X)].
  - split; [exact (att_return _ Hw X)|exact (own_else Hw Ow El X)].
Qed.
Theorem own_defined w c ks o : since E c ks w -> uses c ks w o -> exists r w', call E o w r w'.
Proof. intros Si U. destruct (since_owned Si) as (Hw & Ow). destruct (use_spares Hw Ow U) as (r & w' & C & _). eauto. Qed.
Theorem own_find w c ks k p l n : since E c ks w -> In k ks -> ttl_of c w None -> coherent E c w l n -> look E k l = Some p ->
  exists w', exec E (Find c k) w = Val (ROpt (Some p)) w' /\ coherent E c w' (without E k l ++ [p]) n /\ keep c w w'.
Proof.
  intros Si I (x & Hx & T) Co Lk. destruct (own_defined Si (use_find c ks w k I)) as (r & w' & C). destruct (since_owned Si) as (Hw & _).
  destruct (any_find_present G Hw Co Lk C) as [(-> & R)|((d & x' & Hx' & T') & _)]; [eauto|congruence].
Qed.
Theorem own_put w c ks k v o p l n : since E c ks w -> In k ks -> puts c k v o -> coherent E c w l n -> look E k l = Some p ->
  exists w', exec E o w = Val (RIns false (Some (fst p, v))) w' /\ coherent E c w' (without E k l ++ [(fst p, v)]) n /\ keep c w w'.
Proof.
  intros Si I Po Co Lk. destruct (own_defined (o := o) Si) as (r & w' & C); [eapply use_put; eauto|]. destruct (since_owned Si) as (Hw & _).
  destruct (any_put_present G Hw Po Co Lk C) as (-> & R). eauto.
Qed.
Theorem own_erase w c ks k l n : since E c ks w -> In k ks -> coherent E c w l n ->
  exists w', exec E (Erase c k) w = Val (RBool (has E k l)) w' /\ coherent E c w' (without E k l) n /\ keep c w w'.
Proof.
  intros Si I Co. destruct (own_defined Si (use_erase c ks w k I)) as (r & w' & C). destruct (since_owned Si) as (Hw & _).
  destruct (any_erase G Hw Co C) as (-> & R). eauto.
Qed.
Lemma own_cells w c ks k l n : since E c ks w -> In k ks -> ttl_of c w None -> coherent E c w l n ->
  exists x s ls cs, attained E w /\ W w /\ at_ w c x s /\ ws (c_rid x) s ls /\ Forall2 (holds s) ls cs /\ length ls <= c_cap x /\ l = shown cs /\ n = c_cap x /\
    last_ok x s /\ c_ttl x = None /\ mine (c_rid x) s k.
Proof.
  intros Si I (y & Hy & T) Co. destruct (since_owned Si) as (Hw & Ow). destruct (owned_cells Hw Ow) as (x & s & ls & HW & A & Hl & L & Lo & P & F).
  rewrite Forall_forall in F. assert (y = x) as -> by (destruct A; congruence).
  destruct (cells_of G Hw Co) as (x' & s' & ls' & cs & _ & A' & Hl' & H & L' & -> & ->).
  assert (x' = x) as -> by (destruct A, A'; congruence). assert (s' = s) as -> by (destruct A, A'; congruence).
  exists x, s, ls', cs. auto 15.
Qed.
Theorem own_contains w c ks k p l n : since E c ks w -> In k ks -> ttl_of c w None -> coherent E c w l n -> look E k l = Some p ->
  exists w', exec E (Contains c k) w = Val (RBool true) w' /\ coherent E c w' (without E k l ++ [p]) n /\ keep c w w'.
Proof.
  intros Si I Tn Co Lk. destruct (own_cells Si I Tn Co) as (x & s & ls & cs & Hw & HW & A & Hl & H & L & -> & -> & Lo & T & Mk).
  destruct (c_contains Hw HW A Hl Lo T Mk) as (r & w' & X & (_ & Ef) & Tr). exists w'. split; [|apply (Ef cs H L p Lk)].
  rewrite X. f_equal. apply (Tr cs H). rewrite look_has, Lk. auto.
Qed.
Theorem own_lookup w c ks k p l n : since E c ks w -> In k ks -> ttl_of c w None -> coherent E c w l n -> look E k l = Some p ->
  exists w', exec E (Lookup c k) w = Val (RVal (snd p)) w' /\ coherent E c w' (without E k l ++ [p]) n /\ keep c w w'.
Proof.
  intros Si I Tn Co Lk. destruct (own_cells Si I Tn Co) as (x & s & ls & cs & Hw & HW & A & Hl & H & L & -> & -> & Lo & T & Mk).
  destruct (c_lookup Hw HW A Hl Lo T Mk) as (r & w' & X & (_ & Ef) & Tr). rewrite (Tr cs p H L Lk) in X. exists w'. split; [exact X|apply (Ef cs H L p Lk)].
Qed.
End OwnCalls.
