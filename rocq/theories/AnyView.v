(** The consequences of the invariant of [AnyKeep] that a client sees. *)
From Coq Require Import List Arith ZArith Bool Permutation Lia.
Import ListNotations.
From Verif Require Import Monad Types Model Api Spec Ref Lists SimBase SimRel SimIter SimRun SimOps Effects SpecCopy CopyBlind CopyEval AnyWorld AnyKeep AnyInsert AnyRun AnyCopy AnyAll AnySee SpecAny.
Set Implicit Arguments.
Unset Strict Implicit.
Local Open Scope cpp_scope.

Section View.
Context {K V : Type}.
Variable E : env K V.
Hypothesis G : good E.

Notation world := (world K V).
Notation store := (store K V).
Notation mnode := (mnode K V).
Notation cell := (@cell K V).
Notation M := (M world).
Notation W := (W E).
Notation ws := (ws E).
Notation kw := (kw E).
Notation lc := (@lc K).
Implicit Types (w z : world) (s : store).

Lemma attained_W w : attained E w -> W w.
Proof.
  induction 1 as [|w o r w' _ IH H|w o e w' _ IH H|w p v w' _ IH H].
  - apply W_init.
  - pose proof (k_exec G o w) as Q. rewrite H in Q. apply Q, IH.
  - pose proof (k_exec G o w) as Q. rewrite H in Q. apply Q, IH.
  - pose proof (@k_write K V E p v w) as Q. rewrite H in Q. apply Q, IH.
Qed.
Lemma attained_run ops : forall w outs w', attained E w -> run E ops w = Finished outs w' -> attained E w'.
Proof.
  induction ops as [|o t IH]; simpl; intros w outs w' Hw H; [injection H as _ <-; auto|].
  destruct (exec E o w) as [r w1|e w1|u|e] eqn:X; try discriminate;
    destruct (run E t w1) as [l w2|l u|l e2] eqn:R; simpl in H; try discriminate; injection H as _ <-; apply (IH w1 l w2); auto.
  - eapply att_return; eauto.
  - eapply att_throw; eauto.
Qed.

Lemma has_false k (l : list (K * V)) : Forall (fun k' => key_equal E k k' = false) (map fst l) -> has E k l = false.
Proof. induction l as [|p l IH]; simpl; auto. intros F. inversion F; subst. rewrite H1. auto. Qed.
Lemma has_false' k (l : list (K * V)) : has E k l = false -> Forall (fun k' => key_equal E k k' = false) (map fst l).
Proof. induction l as [|p l IH]; simpl; auto. intros F. apply orb_false_elim in F as (F1 & F2). constructor; auto. Qed.
Lemma shown_keys s l cs : Forall2 (holds s) l cs -> map fst (shown cs) = map (@lk K) l.
Proof. intros H. unfold shown, ents. rewrite !map_map. apply (cells_k H). Qed.
Lemma dk_distinct (l : list (K * V)) : dk E (map fst l) -> distinct E l.
Proof. induction l as [|p l IH]; simpl; auto. intros (F & D). split; auto. apply has_false; auto. Qed.
Lemma shown_length s l cs : Forall2 (holds s) l cs -> length (shown cs) = length l.
Proof. intros H. unfold shown, ents. rewrite !map_length. induction H; simpl; auto. Qed.

Lemma exec_seen o w (a : out K V) : well_formed w o = true -> body E o w = Val a w -> exec E o w = Val a w.
Proof. intros H Q. unfold exec. rewrite H. auto. Qed.

Lemma view w c x s l cs : at_ w c x s -> ws (c_rid x) s l -> Forall2 (holds s) l cs -> length l <= c_cap x ->
  coherent E c w (shown cs) (c_cap x).
Proof.
  intros A Hl H L. pose proof A as (Hx & Hs).
  assert (Al : alive w c = true) by (unfold alive; rewrite Hx; auto).
  assert (Sz : length (s_map s) = length (shown cs)) by (rewrite (shown_length H); apply (ws_size Hl)).
  assert (CB : forall ev w, cb E ev w = Val tt (with_log (fun l => l ++ [ev]) w)) by apply (good_cb G).
  assert (TO : forall A (m : M A) a, within eq m -> par c (c_rid x) m m eq ->
    (forall z t, at_ z c x t -> rep_store E (c_rid x) t cs -> m z = Val a z) -> m w = Val a w).
  { intros B m a Q P F. eapply (through A Hl H P Q F). }
  constructor.
  - apply exec_seen; auto. cbn [body]. erewrite bind_val; [reflexivity|].
    apply TO; [apply e_traverse_ordered|unfold traverse_ordered|intros; eapply traverse_ordered_ev; eauto].
    eapply p_bind; [apply p_size|]. intros ? ? <-. eapply p_bind; [apply p_obegin|]. intros ? ? <-. apply p_o_collect; auto.
  - apply exec_seen; auto. cbn [body]. erewrite bind_val; [reflexivity|].
    apply TO; [apply e_traverse_backward|unfold traverse_backward|intros; eapply traverse_backward_ev; eauto].
    eapply p_bind; [apply p_size|]. intros ? ? <-. apply p_o_back; auto.
  - exists (map (fun p => (n_key (snd p), n_val (snd p))) (s_map s)). split.
    + apply exec_seen; auto. cbn [body]. erewrite bind_val; [reflexivity|].
      unfold traverse_unordered. erewrite bind_val; [|apply (size_ev A)]. erewrite bind_val; [|apply (unordered_begin_ev A)].
      eapply (u_collect_ev (m1 := [])); eauto. eapply ws_nodup; eauto.
    + transitivity (map (fun p => (n_key (snd p), n_val (snd p))) (s_map (mended (c_rid x) s l))).
      * simpl. rewrite map_map. simpl. apply Permutation_refl.
      * rewrite (Permutation_map _ (rs_map (mended_rep Hl H))). unfold shown, ents. rewrite !map_map. simpl. apply Permutation_refl.
  - apply exec_seen; auto. cbn [body]. erewrite bind_val; [|apply (size_ev A)]. rewrite Sz. reflexivity.
  - apply exec_seen; auto. cbn [body]. erewrite bind_val; [|apply capacity_ev, A]. reflexivity.
  - rewrite (shown_length H). auto.
  - apply dk_distinct. rewrite (shown_keys H). apply (ws_keys Hl).
  - apply exec_seen; auto. cbn [body]. unfold is_empty. erewrite bind_val; [|erewrite bind_val; [|apply (size_ev A)]; reflexivity].
    rewrite Sz. reflexivity.
  - apply exec_seen; auto. cbn [body]. unfold is_full. erewrite bind_val; [|erewrite bind_val; [|apply (size_ev A)]; erewrite bind_val; [|apply capacity_ev, A]; reflexivity].
    rewrite Sz. reflexivity.
  - intros Hb. apply exec_seen; auto. cbn [body]. unfold space_left.
    erewrite bind_val; [|erewrite bind_val; [|apply capacity_ev, A]; erewrite bind_val; [|apply (size_ev A)]; reflexivity].
    rewrite Sz. unfold wrap64. rewrite Z.mod_small; [reflexivity|]. rewrite (shown_length H). lia.
  - intros Un p t Hp. apply exec_seen; [simpl; rewrite Al; unfold timed; destruct Un as (y & Hy & Ty); rewrite Hy, Ty; auto|]. cbn [body]. erewrite bind_val; [reflexivity|].
    apply TO; [apply e_front|apply p_front|]. intros z u A' R'.
    destruct cs as [|cl cs _] using rev_ind; [discriminate|].
    unfold shown, ents in Hp. rewrite !map_app, rev_app_distr in Hp. simpl in Hp. injection Hp as <- _.
    assert (EV : (e <- is_empty c;; (if e then throw EmptyCache else p <- list_back c;; n <- deref p;; ret (n_key n))) z = Val (e_key (cl_e cl)) z).
    { unfold is_empty. rewrite bind_assoc. erewrite bind_val; [|apply (size_ev A')]. rewrite bind_ret, (rep_size R').
    rewrite app_length; simpl length. rewrite Nat.add_1_r. cbn [Nat.eqb].
    unfold list_back. rewrite bind_assoc. erewrite bind_val; [|apply (own_ev A')]. cbv iota beta. rewrite (rs_ord R'), map_app, rev_app_distr.
    cbn [map rev app qrow]. rewrite bind_ret. erewrite bind_val; [|eapply deref_ev; [apply A'|exact R'|apply in_or_app; simpl; auto]]. auto. }
    unfold front, noexcept. rewrite EV. auto.
  - intros Un p t Hp. apply exec_seen; [simpl; rewrite Al; unfold timed; destruct Un as (y & Hy & Ty); rewrite Hy, Ty; auto|]. cbn [body]. erewrite bind_val; [reflexivity|].
    apply TO; [apply e_back|apply p_back|]. intros z u A' R'.
    destruct cs as [|cl cs]; [discriminate|].
    unfold shown, ents in Hp. simpl in Hp. injection Hp as <- _.
    assert (EV : (e <- is_empty c;; (if e then throw EmptyCache else p <- list_front c;; n <- deref p;; ret (n_key n))) z = Val (e_key (cl_e cl)) z).
    { unfold is_empty. rewrite bind_assoc. erewrite bind_val; [|apply (size_ev A')]. rewrite bind_ret, (rep_size R').
    cbn [length Nat.eqb].
    unfold list_front. rewrite bind_assoc. erewrite bind_val; [|apply (own_ev A')]. cbv iota beta. rewrite (rs_ord R').
    cbn [map qrow]. rewrite bind_ret. erewrite bind_val; [|eapply deref_ev; [apply A'|exact R'|simpl; auto]]. auto. }
    unfold back, noexcept. rewrite EV. auto.
Qed.

Theorem any_coherent w c : attained E w -> alive w c = true -> exists l n, coherent E c w l n.
Proof.
  intros Hw Al. apply attained_W in Hw. unfold alive in Al. destruct (slot (w_caches w) c) as [x|] eqn:Hx; [|discriminate].
  destruct (W_at Hw Hx) as (s & l & A & Hl & L). destruct (ws_cells Hl) as (cs & H).
  exists (shown cs), (c_cap x). eapply view; eauto.
Qed.
End View.
