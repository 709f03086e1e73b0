(** Wrapped functions: invariants of their caches. *)
From Coq Require Import List Arith ZArith Bool Permutation Lia.
Import ListNotations.
From Verif Require Import Monad Types Model Api Spec SpecStats SpecTimed Ref Lists SimBase SimRel SimOps SimIns SimErase SimIter SimNew SimObs SimExec RefEval SimRun LruProofs CallProofs LruMore Wrap SpecWrap.
Set Implicit Arguments.
Unset Strict Implicit.
Local Open Scope cpp_scope.

Lemma static_eqb_eq s t : static_eqb s t = true <-> s = t.
Proof.
  destruct s as (((a & b) & c) & d), t as (((a' & b') & c') & d'). simpl.
  rewrite !andb_true_iff, !Nat.eqb_eq, !Bool.eqb_true_iff. split.
  - intros (((? & ?) & ?) & ?); subst; auto.
  - intros H; inversion H; auto.
Qed.

Lemma find_static_cons s t c l : find_static s ((t, c) :: l) = if static_eqb s t then Some c else find_static s l.
Proof. reflexivity. Qed.

Section Wrapped.
Context {K V : Type}.
Variable E : env K V.
Hypothesis G : good E.
Variable F : nat -> nat -> K -> fbody K V.

Notation acache := (acache K V).
Notation aworld := (aworld K V).
Notation wworld := (wworld K V).
Notation entry := (entry K V).
Implicit Types (a : acache) (aw : aworld) (w : wworld) (o : wobj) (e : entry).

Record winv w aw : Prop := {
  wi_rel : rel E (ww_world w) aw;
  wi_alive : forall s c, find_static s (ww_statics w) = Some c -> exists a, slot (aw_caches aw) c = Some a;
  wi_inj : forall s t c, find_static s (ww_statics w) = Some c -> find_static t (ww_statics w) = Some c -> s = t
}.

(** *** The worlds between the steps *)
Definition asked s k w : wworld :=
  MkWW (ww_world w) (ww_statics w) (ww_objs w) (ww_vars w) ((s, k) :: ww_asked w) (ww_results w) (ww_calls w).
Definition counted_call w : wworld :=
  MkWW (ww_world w) (ww_statics w) (ww_objs w) (ww_vars w) (ww_asked w) (ww_results w) (S (ww_calls w)).
Definition resulted f k v w : wworld :=
  MkWW (ww_world w) (ww_statics w) (ww_objs w) (ww_vars w) (ww_asked w) ((f, k, v) :: ww_results w) (ww_calls w).
Definition with_static s c x w : wworld :=
  MkWW x ((s, c) :: ww_statics w) (ww_objs w) (ww_vars w) (ww_asked w) (ww_results w) (ww_calls w).

Lemma winv_same w aw w' : winv w aw -> ww_world w' = ww_world w -> ww_statics w' = ww_statics w -> winv w' aw.
Proof. intros [A B C] Q R. constructor; rewrite ?Q, ?R; auto. Qed.
Lemma winv_step w aw x aw' c a' : winv w aw -> rel E x aw' -> aw_caches aw' = upd (aw_caches aw) c (Some a') ->
  winv (set_world x w) aw'.
Proof.
  intros [A B C] R Q. constructor; auto.
  intros s d Hs. simpl in Hs. destruct (B s d Hs) as (b & Hb). rewrite Q.
  destruct (Nat.eq_dec c d) as [->|N].
  - rewrite (slot_upd_same _ _ _ Hb). eauto.
  - rewrite slot_upd_other by auto. eauto.
Qed.

(** *** The steps *)
Lemma lift_val A (m : Monad.M (world K V) A) w r x : m (ww_world w) = Val r x -> lift m w = Val r (set_world x w).
Proof. unfold lift. intros ->. auto. Qed.

Lemma upd_slot_same A (l : list (option A)) i y : slot l i = Some y -> upd l i (Some y) = l.
Proof. apply upd_slot. Qed.

Definition served_now a k (n : nat) : option entry :=
  match lookup_ent E k (a_ents a) with
  | Some e => if stale E (a_ttl a) e n then None else Some e
  | None => None
  end.

Lemma find_step w aw c a k : winv w aw -> slot (aw_caches aw) c = Some a ->
  exists it x aw', find E c k (ww_world w) = Val it x /\ rel E x aw' /\
  match served_now a k (aw_reads aw) with
  | Some e => aw_caches aw' = upd (aw_caches aw) c (Some (bump E k e a)) /\
              u_eq it (unordered_end c) = false /\
              ('(p, _) <- u_deref it;; n <- deref p;; ret (n_val n)) x = Val (e_val e) x
  | None => aw_caches aw' = aw_caches aw /\ u_eq it (unordered_end c) = true
  end /\ aw_reads aw <= aw_reads aw'.
Proof.
  intros I Ha. pose proof (find_sim G k (wi_rel I) Ha) as S.
  rewrite (a_find_ev E Ha (rel_st (wi_rel I) Ha)) in S.
  destruct (find E c k (ww_world w)) as [it x| | |]; simpl in S; try easy.
  destruct S as (R & U & _ & _). exists it, x, (snd (find_r E aw c a k)). split; auto. split; auto.
  assert (T : forall t, aw_reads aw <= aw_reads (tk t aw)) by (intros [|]; simpl; lia).
  split; [|unfold find_r; destruct (lookup_ent E k (a_ents a)) as [e|]; [destruct (stale E (a_ttl a) e (aw_reads aw))|];
           cbn [snd]; unfold missw, hitw, anoted, awith; simpl; auto].
  unfold served_now, find_r in *. destruct (lookup_ent E k (a_ents a)) as [e|].
  - destruct (stale E (a_ttl a) e (aw_reads aw)); cbn [fst snd] in *.
    + cbn [uit] in U. subst it. split; [simpl; apply tk_caches|]. unfold u_eq; simpl. rewrite Nat.eqb_refl. auto.
    + destruct U as (i & -> & B). split; [simpl; rewrite tk_caches; auto|].
      destruct (at_back_ev B) as (n & D & D' & N1 & N2 & N3). split.
      * unfold u_eq; simpl. destruct i as (q & ep). auto.
      * unfold u_deref; simpl. rewrite !bind_assoc. rewrite (bind_val _ _ _ D). rewrite bind_ret. cbv beta iota.
        rewrite (bind_val _ _ _ D'). unfold ret. congruence.
  - cbn [fst snd uit] in *. subst it. split; [simpl; auto|]. unfold u_eq; simpl. rewrite Nat.eqb_refl. auto.
Qed.

Lemma store_step w aw c a k v : winv w aw -> slot (aw_caches aw) c = Some a ->
  exists r x aw', emplace E c k v (ww_world w) = Val r x /\ rel E x aw' /\
  aw_caches aw' = upd (aw_caches aw) c (Some (snd (insert_c E k v (stamp E a aw) a))) /\ aw_reads aw <= aw_reads aw' /\
  aw_reads aw' = aw_reads (insert_tk E k a aw).
Proof.
  intros I Ha. pose proof (emplace_sim G k v (wi_rel I) Ha) as S.
  rewrite (a_insert_ev E Ha) in S.
  destruct (emplace E c k v (ww_world w)) as [r x| | |]; simpl in S; try easy.
  destruct S as (R & _). do 3 eexists. split; [reflexivity|]. split; [exact R|].
  simpl. rewrite insert_tk_caches. split; auto. split; auto.
  unfold insert_tk. destruct (Nat.eqb (a_cap a) 0), (lookup_ent E k (a_ents a)), (a_ttl a); simpl; lia.
Qed.

Lemma new_step w aw cap ttl : rel E (ww_world w) aw ->
  exists x aw', new_cache cap ttl (ww_world w) = Val (length (aw_caches aw)) x /\ rel E x aw' /\
  aw_caches aw' = aw_caches aw ++ [Some (fresh_a cap ttl)] /\ aw_reads aw' = aw_reads aw.
Proof.
  intros R. pose proof (exec_sim G (o := New cap ttl) R eq_refl) as S.
  unfold exec in S. simpl in S. destruct S as (ch & S).
  unfold aexec in S. simpl in S. unfold bind in S.
  destruct S as (R' & Q). unfold out_rel in Q. simpl in Q. inversion Q as [Q'].
  do 2 eexists. split; [unfold new_cache, alloc_store, alloc_cache, bind; cbn; rewrite Q'; reflexivity|]. split; [exact R'|]. split; reflexivity.
Qed.

Lemma the_cache_ev w aw o cat : winv w aw ->
  (exists c, find_static (static_of o cat) (ww_statics w) = Some c /\ the_cache o cat w = Val c w) \/
  (find_static (static_of o cat) (ww_statics w) = None /\ the_cache o cat w = Undef DanglingReference /\
   forall ttl cap, refers w (wo_ttl o) ttl -> refers w (wo_cap o) cap -> False) \/
  (find_static (static_of o cat) (ww_statics w) = None /\
   exists ttl cap x aw', refers w (wo_ttl o) ttl /\ refers w (wo_cap o) cap /\
     the_cache o cat w = Val (length (aw_caches aw)) (with_static (static_of o cat) (length (aw_caches aw)) x w) /\
     winv (with_static (static_of o cat) (length (aw_caches aw)) x w) aw' /\
     aw_caches aw' = aw_caches aw ++ [Some (fresh_a (capacity_arg cap) ttl)] /\ aw_reads aw' = aw_reads aw).
Proof.
  intros I.
  assert (D : the_cache o cat w =
    match find_static (static_of o cat) (ww_statics w) with
    | Some c => Val c w
    | None =>
        match wo_ttl o, match wo_ttl o with Some x => slot (ww_vars w) x | None => None end with
        | Some _, None => Undef DanglingReference
        | _, ttl =>
            match wo_cap o, match wo_cap o with Some x => slot (ww_vars w) x | None => None end with
            | Some _, None => Undef DanglingReference
            | _, cap => (c <- lift (new_cache (capacity_arg cap) ttl);; put_static (static_of o cat) c;;; ret c) w
            end
        end
    end).
  { unfold the_cache, get_static, gets, read_ref. unfold bind at 1.
    destruct (find_static (static_of o cat) (ww_statics w)); [reflexivity|].
    destruct (wo_ttl o) as [x|], (wo_cap o) as [y|]; unfold bind, ret;
      try destruct (slot (ww_vars w) x); try destruct (slot (ww_vars w) y); reflexivity. }
  rewrite D. clear D.
  destruct (find_static (static_of o cat) (ww_statics w)) as [c|] eqn:S; [left; eauto|right].
  assert (N : forall ttl cap,
    exists x aw',
     (c <- lift (new_cache (capacity_arg cap) ttl);; put_static (static_of o cat) c;;; ret c) w =
       Val (length (aw_caches aw)) (with_static (static_of o cat) (length (aw_caches aw)) x w) /\
     winv (with_static (static_of o cat) (length (aw_caches aw)) x w) aw' /\
     aw_caches aw' = aw_caches aw ++ [Some (fresh_a (capacity_arg cap) ttl)] /\ aw_reads aw' = aw_reads aw).
  { intros ttl cap. destruct (new_step (capacity_arg cap) ttl (wi_rel I)) as (x & aw' & Ev & R & Q & Rd).
    exists x, aw'. split; [|split]; auto.
    - unfold bind at 1. rewrite (lift_val Ev). reflexivity.
    - constructor; auto.
      + intros s d. simpl. rewrite Q. destruct (static_eqb s (static_of o cat)).
        * intros H; inversion H; subst. rewrite slot_app_new. eauto.
        * intros H. destruct (wi_alive I H) as (b & Hb). exists b.
          rewrite slot_app_lt; auto. eapply slot_lt; eauto.
      + intros s t d. simpl.
        destruct (static_eqb s (static_of o cat)) eqn:Es, (static_eqb t (static_of o cat)) eqn:Et.
        * apply static_eqb_eq in Es, Et. congruence.
        * intros H1 H2. inversion H1; subst. destruct (wi_alive I H2) as (b & Hb). apply slot_lt in Hb. lia.
        * intros H1 H2. inversion H2; subst. destruct (wi_alive I H1) as (b & Hb). apply slot_lt in Hb. lia.
        * apply (wi_inj I). }
  assert (D : forall ttl cap, refers w (wo_ttl o) ttl -> refers w (wo_cap o) cap ->
     exists ttl0 cap0 x aw', refers w (wo_ttl o) ttl0 /\ refers w (wo_cap o) cap0 /\
     (c <- lift (new_cache (capacity_arg cap) ttl);; put_static (static_of o cat) c;;; ret c) w =
        Val (length (aw_caches aw)) (with_static (static_of o cat) (length (aw_caches aw)) x w) /\
     winv (with_static (static_of o cat) (length (aw_caches aw)) x w) aw' /\
     aw_caches aw' = aw_caches aw ++ [Some (fresh_a (capacity_arg cap0) ttl0)] /\ aw_reads aw' = aw_reads aw).
  { intros ttl cap R1 R2. destruct (N ttl cap) as (x & aw' & A & B & C). exists ttl, cap, x, aw'. auto 10. }
  destruct (wo_ttl o) as [x|].
  - destruct (slot (ww_vars w) x) as [d|] eqn:Hd;
      [|left; split; [auto|split; [auto|intros [ttl|] cap R1 R2; simpl in R1; [congruence|auto]]]].
    destruct (wo_cap o) as [y|].
    + destruct (slot (ww_vars w) y) as [n|] eqn:Hn;
        [|left; split; [auto|split; [auto|intros ttl [cap|] R1 R2; simpl in R2; [congruence|auto]]]].
      right. split; [auto|apply D; auto].
    + right. split; [auto|apply D; simpl; auto].
  - destruct (wo_cap o) as [y|].
    + destruct (slot (ww_vars w) y) as [n|] eqn:Hn;
        [|left; split; [auto|split; [auto|intros ttl [cap|] R1 R2; simpl in R2; [congruence|auto]]]].
      right. split; [auto|apply D; simpl; auto].
    + right. split; [auto|apply D; simpl; auto].
Qed.

(** *** What a call can change *)
Record ext w w' : Prop := {
  ext_objs : ww_objs w' = ww_objs w;
  ext_vars : ww_vars w' = ww_vars w;
  ext_asked : exists l, ww_asked w' = l ++ ww_asked w;
  ext_results : exists l, ww_results w' = l ++ ww_results w;
  ext_static : forall s c, find_static s (ww_statics w) = Some c -> find_static s (ww_statics w') = Some c;
  ext_calls : ww_calls w <= ww_calls w'
}.
Lemma ext_refl w : ext w w.
Proof. constructor; auto; exists []; auto. Qed.
Lemma ext_trans w w1 w2 : ext w w1 -> ext w1 w2 -> ext w w2.
Proof.
  intros [A B (l & C) (m & D) S N] [A' B' (l' & C') (m' & D') S' N']. constructor; try congruence; auto.
  - exists (l' ++ l). rewrite <- app_assoc. congruence.
  - exists (m' ++ m). rewrite <- app_assoc. congruence.
  - lia.
Qed.

(** A body that does [r] if wrapped functions only do what [Q] allows. *)
Inductive may (Q : nat -> K -> answer V -> Prop) : fbody K V -> answer V -> Prop :=
| may_return v : may Q (Return v) (inl v)
| may_raise n : may Q (Raise n) (inr (UserExn n))
| may_ask i cat k go_on v r : Q i k (inl v) -> may Q (go_on v) r -> may Q (Ask i cat k go_on) r
| may_ask_raise i cat k go_on (x : exn) : Q i k (inr x) -> may Q (Ask i cat k go_on) (inr x).

(** Induction over the calls of wrapped functions. *)
Section Induction.
Variable P : wworld -> aworld -> Prop.
Variable Q : nat -> K -> answer V -> Prop.
Variable R : nat -> nat -> K -> V -> wworld -> aworld -> Prop.
Variable H : ub -> Prop.

Record steps : Prop := {
  H_fuel : H FuelExhausted;
  H_dead : forall w aw i, winv w aw -> P w aw -> nth_error (ww_objs w) i = None -> H DeadObject;
  H_dangling : forall w aw i o, winv w aw -> P w aw -> closure w i o ->
    (forall ttl cap, refers w (wo_ttl o) ttl -> refers w (wo_cap o) cap -> False) -> H DanglingReference;
  P_asked : forall w aw i o cat k, winv w aw -> P w aw -> closure w i o -> P (asked (static_of o cat) k w) aw;
  P_new : forall w aw o cat ttl cap x aw', winv w aw -> P w aw ->
    find_static (static_of o cat) (ww_statics w) = None -> refers w (wo_ttl o) ttl -> refers w (wo_cap o) cap ->
    winv (with_static (static_of o cat) (length (aw_caches aw)) x w) aw' ->
    aw_caches aw' = aw_caches aw ++ [Some (fresh_a (capacity_arg cap) ttl)] -> aw_reads aw' = aw_reads aw ->
    P (with_static (static_of o cat) (length (aw_caches aw)) x w) aw';
  P_hit : forall w aw i o cat k c a e x aw' l w0 aw0, winv w aw -> P w aw -> closure w i o ->
    P w0 aw0 -> ww_asked w = l ++ (static_of o cat, k) :: ww_asked w0 ->
    find_static (static_of o cat) (ww_statics w) = Some c -> slot (aw_caches aw) c = Some a ->
    served_now a k (aw_reads aw) = Some e -> winv (set_world x w) aw' ->
    aw_caches aw' = upd (aw_caches aw) c (Some (bump E k e a)) -> aw_reads aw <= aw_reads aw' ->
    P (set_world x w) aw' /\ Q i k (inl (e_val e)) /\ R i cat k (e_val e) (set_world x w) aw';
  P_miss : forall w aw o cat k c a x aw', winv w aw -> P w aw ->
    find_static (static_of o cat) (ww_statics w) = Some c -> slot (aw_caches aw) c = Some a ->
    served_now a k (aw_reads aw) = None -> winv (set_world x w) aw' -> aw_caches aw' = aw_caches aw ->
    aw_reads aw <= aw_reads aw' ->
    P (counted_call (set_world x w)) aw';
  P_store : forall w aw i o cat k c a n v x aw' l w0 aw0 w1 aw1 a1, winv w aw -> P w aw -> closure w i o ->
    P w0 aw0 -> winv w1 aw1 -> P w1 aw1 -> ww_asked w1 = (static_of o cat, k) :: ww_asked w0 ->
    find_static (static_of o cat) (ww_statics w1) = Some c -> slot (aw_caches aw1) c = Some a1 ->
    served_now a1 k (aw_reads aw1) = None -> aw_reads aw1 <= aw_reads aw ->
    ww_asked w = l ++ ww_asked w1 ->
    find_static (static_of o cat) (ww_statics w) = Some c -> slot (aw_caches aw) c = Some a ->
    may Q (F (wo_fun o) n k) (inl v) -> winv (set_world x (resulted (wo_fun o) k v w)) aw' ->
    aw_caches aw' = upd (aw_caches aw) c (Some (snd (insert_c E k v (stamp E a aw) a))) -> aw_reads aw <= aw_reads aw' ->
    aw_reads aw' = aw_reads (insert_tk E k a aw) ->
    P (set_world x (resulted (wo_fun o) k v w)) aw' /\ Q i k (inl v) /\
    R i cat k v (set_world x (resulted (wo_fun o) k v w)) aw';
  Q_raise : forall w i o k n x, closure w i o -> (exists aw, winv w aw /\ P w aw) ->
    may Q (F (wo_fun o) n k) (inr x) -> Q i k (inr x)
}.
Hypothesis St : steps.

Definition ends_well i cat k w aw (r : res wworld V) : Prop :=
  match r with
  | Val v w' => exists aw', winv w' aw' /\ P w' aw' /\ ext w w' /\ aw_reads aw <= aw_reads aw' /\ Q i k (inl v) /\ R i cat k v w' aw'
  | Exc x w' => exists aw', winv w' aw' /\ P w' aw' /\ ext w w' /\ aw_reads aw <= aw_reads aw' /\ Q i k (inr x)
  | Undef u => H u
  | Term _ => False
  end.

Lemma body_ind (call : nat -> nat -> K -> M wworld V) b :
  (forall i cat k w aw, winv w aw -> P w aw -> ends_well i cat k w aw (call i cat k w)) ->
  forall w aw, winv w aw -> P w aw ->
  match run_body call b w with
  | Val v w' => exists aw', winv w' aw' /\ P w' aw' /\ ext w w' /\ aw_reads aw <= aw_reads aw' /\ may Q b (inl v)
  | Exc x w' => exists aw', winv w' aw' /\ P w' aw' /\ ext w w' /\ aw_reads aw <= aw_reads aw' /\ may Q b (inr x)
  | Undef u => H u
  | Term _ => False
  end.
Proof.
  intros C. induction b as [v|n|i cat k go_on IH]; intros w aw I Hp; simpl.
  - exists aw. auto 7 using ext_refl, may_return, may_raise.
  - exists aw. auto 7 using ext_refl, may_return, may_raise.
  - unfold bind. specialize (C i cat k w aw I Hp). destruct (call i cat k w) as [v w1|x w1| |]; simpl in C; auto.
    + destruct C as (aw1 & I1 & P1 & X1 & N1 & Q1 & _). specialize (IH v w1 aw1 I1 P1).
      destruct (run_body call (go_on v) w1) as [v' w2|x w2| |]; auto.
      * destruct IH as (aw2 & I2 & P2 & X2 & N2 & M2). exists aw2.
        split; auto. split; auto. split; [eapply ext_trans; eauto|]. split; [lia|eapply may_ask; eauto].
      * destruct IH as (aw2 & I2 & P2 & X2 & N2 & M2). exists aw2.
        split; auto. split; auto. split; [eapply ext_trans; eauto|]. split; [lia|eapply may_ask; eauto].
    + destruct C as (aw1 & I1 & P1 & X1 & N1 & Q1). exists aw1. eauto 10 using may_ask_raise.
Qed.

Lemma call_ind depth : forall i cat k w aw, winv w aw -> P w aw ->
  ends_well i cat k w aw (call_wrapped E F depth i cat k w).
Proof.
  induction depth as [|depth IH]; intros i cat k w aw I Hp; simpl; [exact (H_fuel St)|].
  unfold bind at 1, get_obj. destruct (nth_error (ww_objs w) i) as [o|] eqn:Ho; [|exact (H_dead St I Hp Ho)].
  change (closure w i o) in Ho.
  unfold bind at 1, note_asked, modify.
  change (MkWW (ww_world w) (ww_statics w) (ww_objs w) (ww_vars w) ((static_of o cat, k) :: ww_asked w)
            (ww_results w) (ww_calls w)) with (asked (static_of o cat) k w).
  set (w1 := asked (static_of o cat) k w).
  assert (I1 : winv w1 aw) by (apply (winv_same I); auto).
  assert (P1 : P w1 aw) by (eapply (P_asked St); eauto).
  assert (X1 : ext w w1).
  { constructor; auto; [exists [(static_of o cat, k)]; auto|exists []; auto]. }
  assert (T : (the_cache o cat w1 = Undef DanglingReference /\ H DanglingReference) \/
    exists c w2 aw2 a, the_cache o cat w1 = Val c w2 /\ winv w2 aw2 /\ P w2 aw2 /\ ext w1 w2 /\ aw_reads aw2 = aw_reads aw /\
      ww_asked w2 = ww_asked w1 /\
      find_static (static_of o cat) (ww_statics w2) = Some c /\ slot (aw_caches aw2) c = Some a).
  { destruct (the_cache_ev o cat I1) as [(c & Sc & Ev)|[(Sn & Ev & Bad)|(Sn & ttl & cap & x & aw2 & R1 & R2 & Ev & I2 & Q2 & Rd2)]].
    - right. destruct (wi_alive I1 Sc) as (a & Ha). exists c, w1, aw, a. auto 10 using ext_refl.
    - left; split; auto. eapply (H_dangling St) with (w := w1); eauto.
    - right. exists (length (aw_caches aw)), (with_static (static_of o cat) (length (aw_caches aw)) x w1), aw2,
        (fresh_a (capacity_arg cap) ttl).
      split; auto. split; auto. split; [eapply (P_new St); eauto|].
      assert (SS : static_eqb (static_of o cat) (static_of o cat) = true) by (apply static_eqb_eq; auto).
      split; [|split; [auto|split; [auto|split]]].
      + constructor; auto; [exists []; auto|exists []; auto|].
        intros s c Hs. simpl. destruct (static_eqb s (static_of o cat)) eqn:Es; auto.
        apply static_eqb_eq in Es. subst s. congruence.
      + simpl ww_statics. rewrite find_static_cons, SS. auto.
      + rewrite Q2, slot_app_new. auto. }
  destruct T as [(T & HD)|(c & w2 & aw2 & a & T & I2 & P2 & X2 & Rd2 & A2 & S2 & Ha)].
  { unfold bind at 1. rewrite T. exact HD. }
  unfold bind at 1. rewrite T. clear T.
  assert (Ho2 : closure w2 i o) by (red; rewrite (ext_objs X2); exact Ho).
  destruct (find_step k I2 Ha) as (it & x & aw3 & Ev & R3 & D & Rd3).
  unfold bind at 1. rewrite (lift_val Ev).
  destruct (served_now a k (aw_reads aw2)) as [e|] eqn:SV.
  - destruct D as (C3 & U3 & D3). rewrite U3. cbn [negb].
    assert (I3 : winv (set_world x w2) aw3) by (eapply winv_step; eauto).
    rewrite (lift_val (w := set_world x w2) D3).
    assert (A3 : ww_asked w2 = [] ++ (static_of o cat, k) :: ww_asked w) by (rewrite A2; reflexivity).
    destruct (P_hit St I2 P2 Ho2 Hp A3 S2 Ha SV I3 C3 Rd3) as (P3 & Q3 & R3').
    exists aw3. split; [exact I3|]. split; [exact P3|]. split; [|split; [lia|split; auto]].
    apply (ext_trans X1). apply (ext_trans X2). destruct (ext_refl w2). constructor; auto.
  - destruct D as (C3 & U3). rewrite U3. cbn [negb].
    assert (I3 : winv (set_world x w2) aw3).
    { apply (winv_step (aw := aw2) (c := c) (a' := a)); auto. rewrite C3. symmetry. apply upd_slot. auto. }
    unfold bind at 1, count_call.
    change (MkWW (ww_world (set_world x w2)) (ww_statics (set_world x w2)) (ww_objs (set_world x w2)) (ww_vars (set_world x w2))
      (ww_asked (set_world x w2)) (ww_results (set_world x w2)) (S (ww_calls (set_world x w2))))
      with (counted_call (set_world x w2)).
    set (w3 := counted_call (set_world x w2)).
    assert (I3' : winv w3 aw3) by (apply (winv_same I3); auto).
    assert (P3 : P w3 aw3) by (eapply (P_miss St); eauto).
    assert (X3 : ext w2 w3) by (constructor; auto; [exists []; auto|exists []; auto|simpl; lia]).
    pose proof (body_ind (F (wo_fun o) (ww_calls (set_world x w2)) k) IH I3' P3) as B.
    unfold bind at 1.
    destruct (run_body (call_wrapped E F depth) (F (wo_fun o) (ww_calls (set_world x w2)) k) w3) as [v w4|y w4|u|] ; auto.
    + destruct B as (aw4 & I4 & P4 & X4 & Rd4 & M4).
      unfold bind at 1, note_result, modify.
      change (MkWW (ww_world w4) (ww_statics w4) (ww_objs w4) (ww_vars w4) (ww_asked w4)
        ((wo_fun o, k, v) :: ww_results w4) (ww_calls w4)) with (resulted (wo_fun o) k v w4).
      assert (S4 : find_static (static_of o cat) (ww_statics w4) = Some c) by (apply (ext_static X4); auto).
      destruct (wi_alive I4 S4) as (a4 & Ha4).
      assert (I4' : winv (resulted (wo_fun o) k v w4) aw4) by (apply (winv_same I4); auto).
      destruct (store_step k v I4' Ha4) as (r & x5 & aw5 & Ev5 & R5 & C5 & Rd5 & Rt5).
      unfold bind at 1. rewrite (lift_val Ev5).
      assert (I5 : winv (set_world x5 (resulted (wo_fun o) k v w4)) aw5) by (eapply winv_step; eauto).
      assert (Ho4 : closure w4 i o) by (red; rewrite (ext_objs X4); exact Ho2).
      assert (A4 : exists l, ww_asked w4 = l ++ ww_asked w2).
      { destruct (ext_asked X4) as (l & L). exists l. rewrite L. auto. }
      destruct A4 as (l & A4).
      destruct (P_store St I4 P4 Ho4 Hp I2 P2 A2 S2 Ha SV (Nat.le_trans _ _ _ Rd3 Rd4) A4 S4 Ha4 M4 I5 C5 Rd5 Rt5) as (P5 & Q5 & R5').
      simpl. exists aw5. split; [exact I5|]. split; [exact P5|]. split; [|split; [lia|split; auto]].
      apply (ext_trans X1). apply (ext_trans X2). apply (ext_trans X3). apply (ext_trans X4).
      constructor; auto; [exists []; auto|exists [(wo_fun o, k, v)]; auto].
    + destruct B as (aw4 & I4 & P4 & X4 & Rd4 & M4). simpl. exists aw4. split; auto. split; auto. split; [|split; [lia|]].
      * apply (ext_trans X1). apply (ext_trans X2). apply (ext_trans X3). exact X4.
      * eapply (Q_raise St); eauto.
Qed.

End Induction.

End Wrapped.
