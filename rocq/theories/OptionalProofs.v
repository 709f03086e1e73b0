(** Proofs about Optional.v: Optionals behave as optional values. *)
From Coq Require Import List Bool Arith Lia Permutation.
Import ListNotations.
From Verif Require Import Monad Types Model Lists Optional SpecOptional.
Set Implicit Arguments.

Section Proofs.
Context {T : Type}.
Variable E : oenv T.
Implicit Types (w : oworld T) (a : ovalues T).

(** Every Optional that holds an element owns a live cell of its own, and there are
    no other live cells. *)
Record oinv w a : Prop := MkOinv {
  oi_len : length (ow_vars w) = length a;
  oi_rel : forall i, match slot (ow_vars w) i with
                     | None => slot a i = None
                     | Some None => slot a i = Some None
                     | Some (Some p) => exists x, slot (ow_heap w) p = Some x /\ slot a i = Some (Some x)
                     end;
  oi_inj : forall i j p, slot (ow_vars w) i = Some (Some p) -> slot (ow_vars w) j = Some (Some p) -> i = j;
  oi_own : forall p x, slot (ow_heap w) p = Some x -> exists i, slot (ow_vars w) i = Some (Some p)
}.

Definition bump w : oworld T := MkOworld (ow_heap w) (ow_vars w) (S (ow_steps w)).

Lemma oinv_bump w a : oinv w a -> oinv (bump w) a.
Proof. intros [A B C D]; constructor; auto. Qed.

Lemma oinv_init : oinv ow_init [].
Proof.
  constructor; cbn; auto.
  - intros i. unfold slot. destruct i; reflexivity.
  - intros i j p H. unfold slot in H. destruct i; discriminate H.
  - intros p x H. unfold slot in H. destruct p; discriminate H.
Qed.

Lemma var_of w a i v : oinv w a -> slot a i = Some v -> exists p, slot (ow_vars w) i = Some p /\
  match p with None => v = None | Some q => exists x, slot (ow_heap w) q = Some x /\ v = Some x end.
Proof.
  intros I H. pose proof (oi_rel I i) as R. destruct (slot (ow_vars w) i) as [[q|]|]; rewrite H in R.
  - destruct R as [x [A B]]. exists (Some q); split; auto. exists x; split; congruence.
  - exists None; split; congruence.
  - discriminate R.
Qed.
Lemma novar w a i : oinv w a -> slot a i = None -> slot (ow_vars w) i = None.
Proof.
  intros I H. pose proof (oi_rel I i) as R. destruct (slot (ow_vars w) i) as [[q|]|]; rewrite H in R; auto; try discriminate R.
  destruct R as [x [A B]]; discriminate B.
Qed.

(** *** Primitive steps *)
Lemma slot_app_last {A} (l : list (option A)) x : slot (l ++ [x]) (length l) = x.
Proof. unfold slot. rewrite app_nth2, Nat.sub_diag; auto. Qed.

Lemma new_ok w a : oinv w a -> exists w', o_new w = Val (length a) w' /\ oinv w' (a ++ [Some None]).
Proof.
  intros [A B C D]. eexists. unfold o_new. rewrite A. split; [reflexivity|].
  constructor; cbn [ow_vars ow_heap].
  - rewrite !app_length, A; reflexivity.
  - intros i. destruct (Nat.lt_ge_cases i (length a)) as [L|L].
    + rewrite !slot_app_lt by lia. apply B.
    + destruct (Nat.eq_dec i (length a)) as [->|N].
      * pose proof (slot_app_last (ow_vars w) (Some None)) as L1. rewrite A in L1. rewrite L1. apply slot_app_last.
      * rewrite !slot_overflow; auto; rewrite app_length; cbn; lia.
  - intros i j p H H'.
    assert (L : forall k, slot (ow_vars w ++ [Some None]) k = Some (Some p) -> slot (ow_vars w) k = Some (Some p)).
    { intros k Hk. destruct (Nat.lt_ge_cases k (length (ow_vars w))) as [L|L].
      - now rewrite slot_app_lt in Hk by lia.
      - destruct (Nat.eq_dec k (length (ow_vars w))) as [->|N].
        + rewrite slot_app_last in Hk; discriminate Hk.
        + rewrite slot_overflow in Hk; [discriminate Hk|rewrite app_length; cbn; lia]. }
    eapply C; apply L; eauto.
  - intros p x H. destruct (D p x H) as [i Hi]. exists i. rewrite slot_app_lt; auto. eapply slot_lt; eauto.
Qed.

Lemma has_ok w a i v : oinv w a -> slot a i = Some v ->
  o_has i w = Val (match v with Some _ => true | None => false end) w.
Proof.
  intros I H. destruct (var_of _ I H) as [p [P Q]]. unfold o_has, bind, o_get. rewrite P.
  destruct p as [q|]; [destruct Q as [x [_ ->]]|subst v]; reflexivity.
Qed.
Lemma star_ok w a i x : oinv w a -> slot a i = Some (Some x) -> o_star i w = Val x w.
Proof.
  intros I H. destruct (var_of _ I H) as [p [P Q]]. unfold o_star, o_addr, bind, o_get. rewrite P.
  destruct p as [q|]; [destruct Q as [y [Y Q]]|discriminate Q]. cbn. unfold o_load. rewrite Y. congruence.
Qed.
Lemma star_empty w a i : oinv w a -> slot a i = Some None -> o_star i w = Undef NullPointer.
Proof.
  intros I H. destruct (var_of _ I H) as [p [P Q]]. unfold o_star, o_addr, bind, o_get. rewrite P.
  destruct p as [q|]; [destruct Q as [y [Y Q]]; discriminate Q|]. reflexivity.
Qed.

(** Replacing what variable [i] owns by a fresh cell. *)
Lemma emplace_ok w a i u x : oinv w a -> slot a i = Some u ->
  exists r, o_emplace E i (ret x) w = r /\
  ((exists w', r = Val tt w' /\ oinv w' (upd a i (Some (Some x)))) \/
   (oe_fails E (ow_steps w) = true /\ r = Exc BadAlloc (bump w))).
Proof.
  intros I H. eexists; split; [reflexivity|].
  destruct (var_of _ I H) as [p [P Q]]. destruct I as [A B C D].
  assert (G0 : o_get i w = Val p w) by (unfold o_get; now rewrite P).
  unfold o_emplace, bind, ret, make_unique, bind, o_fallible, bump. rewrite G0.
  destruct (oe_fails E (ow_steps w)); [right|]. { split; reflexivity. } left.
  unfold ptr_assign, bind, o_get. cbn [ow_vars]. rewrite P.
  assert (Li : i < length (ow_vars w)) by (eapply slot_lt; eauto).
  set (h := ow_heap w ++ [Some x]).
  assert (Hn : slot h (length (ow_heap w)) = Some x) by apply slot_app_last.
  assert (Ho : forall q, q < length (ow_heap w) -> slot h q = slot (ow_heap w) q) by (intros; apply slot_app_lt; auto).
  (* the state before the old element is deleted *)
  assert (Hex : exists w', match p with
     | None => Val tt (MkOworld h (upd (ow_vars w) i (Some (Some (length (ow_heap w))))) (S (ow_steps w)))
     | Some q => Val tt (MkOworld (upd h q None) (upd (ow_vars w) i (Some (Some (length (ow_heap w))))) (S (ow_steps w)))
     end = Val tt w' /\ oinv w' (upd a i (Some (Some x)))).
  { assert (Hlow : forall j q, j <> i -> slot (ow_vars w) j = Some (Some q) ->
      q < length (ow_heap w) /\ p <> Some q).
    { intros j q Nj Hj. split.
      - pose proof (B j) as R. rewrite Hj in R. destruct R as [y [Y _]]. eapply slot_lt; eauto.
      - intros ->. apply Nj. eapply C; eauto. }
    set (h' := match p with None => h | Some q => upd h q None end).
    assert (Hh' : slot h' (length (ow_heap w)) = Some x).
    { unfold h'. destruct p as [q|]; auto. destruct Q as [y [Y _]]. rewrite slot_upd_other; auto.
      pose proof (slot_lt _ _ Y); lia. }
    assert (Hk : forall j q, j <> i -> slot (ow_vars w) j = Some (Some q) -> slot h' q = slot (ow_heap w) q).
    { intros j q Nj Hj. destruct (Hlow j q Nj Hj) as [L N]. unfold h'. destruct p as [q'|].
      - rewrite slot_upd_other by congruence. apply Ho; auto.
      - apply Ho; auto. }
    eexists. split.
    { instantiate (1 := MkOworld h' (upd (ow_vars w) i (Some (Some (length (ow_heap w))))) (S (ow_steps w))).
      unfold h'. destruct p; reflexivity. }
    constructor; cbn [ow_vars ow_heap].
    - rewrite !upd_length; auto.
    - intros j. destruct (Nat.eq_dec j i) as [->|Nj].
      + rewrite slot_upd_lt by auto. exists x. split; auto. apply slot_upd_lt. lia.
      + rewrite slot_upd_other by auto. pose proof (B j) as R.
        destruct (slot (ow_vars w) j) as [[q|]|] eqn:Hj.
        * destruct R as [y [Y R]]. exists y. rewrite (Hk j q Nj Hj). rewrite slot_upd_other by auto. auto.
        * rewrite slot_upd_other by auto. auto.
        * rewrite slot_upd_other by auto. auto.
    - intros j k q Hj Hk0. destruct (Nat.eq_dec j i) as [->|Nj]; destruct (Nat.eq_dec k i) as [->|Nk]; auto.
      + rewrite slot_upd_lt in Hj by auto. rewrite slot_upd_other in Hk0 by auto. inversion Hj; subst q.
        destruct (Hlow k _ Nk Hk0); lia.
      + rewrite slot_upd_lt in Hk0 by auto. rewrite slot_upd_other in Hj by auto. inversion Hk0; subst q.
        destruct (Hlow j _ Nj Hj); lia.
      + rewrite slot_upd_other in Hj by auto. rewrite slot_upd_other in Hk0 by auto. eapply C; eauto.
    - intros q y Hq. destruct (Nat.eq_dec q (length (ow_heap w))) as [->|Nq].
      + exists i. apply slot_upd_lt; auto.
      + assert (Hw : slot (ow_heap w) q = Some y /\ p <> Some q).
        { unfold h' in Hq. destruct p as [q'|].
          - destruct Q as [z [Z _]]. destruct (Nat.eq_dec q q') as [->|Nqq].
            + rewrite slot_upd_lt in Hq; [discriminate Hq|]. unfold h; rewrite app_length; cbn.
              pose proof (slot_lt _ _ Z); lia.
            + rewrite slot_upd_other in Hq by auto. split; [|congruence].
              pose proof (slot_lt _ _ Hq) as Lq. unfold h in Lq; rewrite app_length in Lq; cbn in Lq.
              rewrite Ho in Hq by lia. auto.
          - split; [|discriminate]. pose proof (slot_lt _ _ Hq) as Lq. unfold h in Lq; rewrite app_length in Lq; cbn in Lq.
            rewrite Ho in Hq by lia. auto. }
        destruct Hw as [Hw Np]. destruct (D q y Hw) as [j Hj]. exists j. rewrite slot_upd_other; auto.
        intros ->. congruence. }
  destruct Hex as [w' [Ex Iw]]. exists w'. split; auto. rewrite <- Ex.
  unfold o_put, modify, o_delete. cbn [ow_vars ow_heap ow_steps]. fold h. destruct p as [q|]; [|reflexivity].
  destruct Q as [y [Y _]]. unfold bind, o_load. cbn [ow_heap]. fold h. rewrite Ho by (eapply slot_lt; eauto). rewrite Y. reflexivity.
Qed.

(** Emptying variable [i]. *)
Lemma clear_ok w a i u d : oinv w a -> slot a i = Some u -> d = Some None \/ d = None ->
  exists w', bind (o_get i) (fun old => bind (o_put i (match d with None => None | Some _ => Some None end))
               (fun _ => o_delete old)) w = Val tt w' /\
    oinv w' (upd a i d) /\ length (ow_vars w') = length (ow_vars w).
Proof.
  intros I H Hd. destruct (var_of _ I H) as [p [P Q]]. destruct I as [A B C D].
  assert (Li : i < length (ow_vars w)) by (eapply slot_lt; eauto).
  set (d' := match d with None => None | Some _ => Some None end : option (option nat)).
  set (h' := match p with None => ow_heap w | Some q => upd (ow_heap w) q None end).
  exists (MkOworld h' (upd (ow_vars w) i d') (ow_steps w)). split; [|split].
  - unfold bind, o_get. rewrite P. unfold o_put, modify, o_delete, h'. destruct p as [q|]; [|reflexivity].
    destruct Q as [y [Y _]]. unfold bind, o_load. cbn [ow_heap]. rewrite Y. reflexivity.
  - assert (Hp : forall j q, j <> i -> slot (ow_vars w) j = Some (Some q) -> slot h' q = slot (ow_heap w) q).
    { intros j q Nj Hj. unfold h'. destruct p as [q'|]; auto. rewrite slot_upd_other; auto. intros ->. apply Nj. eapply C; eauto. }
    assert (Hnew : slot (upd (ow_vars w) i d') i = d') by (apply slot_upd_lt; auto).
    assert (Hanew : slot (upd a i d) i = d) by (apply slot_upd_lt; lia).
    constructor; cbn [ow_vars ow_heap].
    + rewrite !upd_length; auto.
    + intros j. destruct (Nat.eq_dec j i) as [->|Nj].
      * rewrite Hnew, Hanew. unfold d'. destruct Hd as [->| ->]; reflexivity.
      * rewrite slot_upd_other by auto. pose proof (B j) as R. destruct (slot (ow_vars w) j) as [[q|]|] eqn:Hj.
        -- destruct R as [y [Y R]]. exists y. rewrite (Hp j q Nj Hj), slot_upd_other by auto. auto.
        -- rewrite slot_upd_other by auto. auto.
        -- rewrite slot_upd_other by auto. auto.
    + intros j k q Hj Hk.
      assert (Nd : forall m, slot (upd (ow_vars w) i d') m = Some (Some q) -> m <> i /\ slot (ow_vars w) m = Some (Some q)).
      { intros m Hm. destruct (Nat.eq_dec m i) as [->|Nm].
        - rewrite Hnew in Hm. unfold d' in Hm. destruct Hd as [->| ->]; discriminate Hm.
        - rewrite slot_upd_other in Hm by auto. auto. }
      destruct (Nd _ Hj), (Nd _ Hk). eapply C; eauto.
    + intros q y Hq.
      assert (Hw : slot (ow_heap w) q = Some y /\ p <> Some q).
      { unfold h' in Hq. destruct p as [q'|]; [|split; [auto|discriminate]].
        destruct (Nat.eq_dec q q') as [->|Nq].
        - destruct Q as [z [Z _]]. erewrite slot_upd_same in Hq by eassumption. discriminate Hq.
        - rewrite slot_upd_other in Hq by auto. split; congruence. }
      destruct Hw as [Hw Np]. destruct (D _ _ Hw) as [j Hj]. exists j. rewrite slot_upd_other; auto. intros ->. congruence.
  - cbn. apply upd_length.
Qed.

Lemma reset_ok w a i u : oinv w a -> slot a i = Some u ->
  exists w', o_reset i w = Val tt w' /\ oinv w' (upd a i (Some None)).
Proof.
  intros I H. destruct (clear_ok _ I H (or_introl eq_refl)) as [w' [Ex [I' _]]]. exists w'. split; auto.
  unfold o_reset, noexcept, ptr_assign. cbn in Ex. rewrite Ex. reflexivity.
Qed.
Lemma destroy_ok w a i u : oinv w a -> slot a i = Some u ->
  exists w', o_destroy i w = Val tt w' /\ oinv w' (upd a i None).
Proof.
  intros I H. destruct (clear_ok _ I H (or_intror eq_refl)) as [w' [Ex [I' _]]]. exists w'. split; auto.
Qed.

(** Dropping the last variable once it owns nothing. *)
Lemma upd_app_last {A} (l : list A) x y : upd (l ++ [x]) (length l) y = l ++ [y].
Proof. induction l; cbn; congruence. Qed.

Lemma oinv_drop h vs n a : oinv (MkOworld h (vs ++ [None]) n) (a ++ [None]) -> oinv (MkOworld h vs n) a.
Proof.
  intros [A B C D]. cbn [ow_vars ow_heap] in *. rewrite !app_length in A; cbn in A.
  assert (S1 : forall (X : Type) (l : list (option X)) i, slot (l ++ [None]) i = slot l i).
  { intros X l i. destruct (Nat.lt_ge_cases i (length l)) as [L|L].
    - apply slot_app_lt; auto.
    - rewrite (slot_overflow l) by auto. destruct (Nat.eq_dec i (length l)) as [->|N].
      + apply slot_app_last.
      + apply slot_overflow. rewrite app_length; cbn; lia. }
  constructor; cbn [ow_vars ow_heap].
  - lia.
  - intros i. pose proof (B i) as R. rewrite !S1 in R. destruct (slot vs i) as [[q|]|]; auto.
  - intros i j p Hi Hj. apply (C i j p); rewrite S1; auto.
  - intros p x H. destruct (D p x H) as [i Hi]. rewrite S1 in Hi. eauto.
Qed.

Lemma pop_ok w a u : oinv w (a ++ [Some u]) -> exists w', o_pop w = Val tt w' /\ oinv w' a.
Proof.
  intros I. assert (H : slot (a ++ [Some u]) (length a) = Some u) by apply slot_app_last.
  destruct (clear_ok _ I H (or_intror eq_refl)) as [w' [Ex [I' _]]]. rewrite upd_app_last in I'.
  pose proof (oi_len I) as Le. rewrite app_length in Le; cbn in Le.
  destruct (var_of _ I H) as [p [P _]].
  destruct w as [h vs n]. cbn [ow_vars ow_heap ow_steps] in *.
  assert (Lv : vs <> []) by (intros ->; cbn in Le; lia).
  destruct (exists_last Lv) as [vs' [z ->]]. rewrite app_length in Le; cbn in Le.
  assert (Lz : length a = length vs') by lia. rewrite Lz in P, Ex. rewrite slot_app_last in P. subst z.
  unfold o_pop. cbn [ow_vars ow_heap ow_steps]. rewrite app_length. cbn [length]. replace (length vs' + 1 - 1) with (length vs') by lia.
  rewrite slot_app_last, removelast_last.
  unfold bind, o_get in Ex. cbn [ow_vars] in Ex. rewrite slot_app_last in Ex. unfold o_put, modify in Ex. cbn [ow_vars ow_heap ow_steps] in Ex.
  rewrite upd_app_last in Ex. unfold o_delete in *. destruct p as [q|].
  - unfold bind, o_load in *. cbn [ow_heap] in *. destruct (slot h q); [|discriminate Ex].
    unfold o_store, modify in *. cbn [ow_heap ow_vars ow_steps] in *. inversion Ex; subst w'.
    eexists; split; [reflexivity|]. apply oinv_drop; auto.
  - inversion Ex; subst w'. eexists; split; [reflexivity|]. apply oinv_drop; auto.
Qed.

(** Swapping. *)
Lemma slot_upd2 {A} (l : list (option A)) i j u v k : slot l i = Some u -> slot l j = Some v ->
  slot (upd (upd l i (Some v)) j (Some u)) k = slot l (if Nat.eqb k i then j else if Nat.eqb k j then i else k).
Proof.
  intros Hi Hj. pose proof (slot_lt _ _ Hi). pose proof (slot_lt _ _ Hj).
  destruct (Nat.eqb_spec k i) as [->|Ni].
  - destruct (Nat.eq_dec i j) as [->|N].
    + rewrite slot_upd_lt by (rewrite upd_length; auto). congruence.
    + rewrite slot_upd_other by auto. rewrite slot_upd_lt by auto. auto.
  - destruct (Nat.eqb_spec k j) as [->|Nj].
    + rewrite slot_upd_lt by (rewrite upd_length; auto). auto.
    + rewrite !slot_upd_other by auto. auto.
Qed.

Lemma swap_ok w a i j u v : oinv w a -> slot a i = Some u -> slot a j = Some v ->
  exists w', o_swap i j w = Val tt w' /\ oinv w' (upd (upd a i (Some v)) j (Some u)).
Proof.
  intros I Hi Hj. destruct (var_of _ I Hi) as [p [P _]]. destruct (var_of _ I Hj) as [q [Q _]].
  eexists. split.
  { unfold o_swap, bind, o_get. rewrite P, Q. unfold o_put, modify. cbn [ow_heap ow_vars ow_steps]. reflexivity. }
  destruct I as [A B C D]. set (f := fun k => if Nat.eqb k i then j else if Nat.eqb k j then i else k).
  assert (Hf : forall k, f (f k) = k).
  { intros k. unfold f. destruct (Nat.eqb_spec k i) as [->|]; [|destruct (Nat.eqb_spec k j) as [->|]].
    - destruct (Nat.eqb_spec j i); [congruence|]. rewrite Nat.eqb_refl; auto.
    - rewrite Nat.eqb_refl; auto.
    - destruct (Nat.eqb_spec k i); [congruence|]. destruct (Nat.eqb_spec k j); congruence. }
  constructor; cbn [ow_vars ow_heap].
  - rewrite !upd_length; auto.
  - intros k. rewrite (slot_upd2 _ _ _ k P Q), (slot_upd2 _ _ _ k Hi Hj). fold (f k). apply B.
  - intros k l r. rewrite (slot_upd2 _ _ _ k P Q), (slot_upd2 _ _ _ l P Q). fold (f k) (f l). intros X Y.
    rewrite <- (Hf k), <- (Hf l). f_equal. eapply C; eauto.
  - intros r x X. destruct (D r x X) as [k K]. exists (f k). rewrite (slot_upd2 _ _ _ (f k) P Q). fold (f (f k)). rewrite Hf. auto.
Qed.

(** Overwriting an element in place. *)
Lemma store_ok w a i x y : oinv w a -> slot a i = Some (Some x) ->
  exists p, o_addr i w = Val p w /\ o_load p w = Val x w /\
    (exists w', o_store p (Some y) w = Val tt w' /\ oinv w' (upd a i (Some (Some y)))).
Proof.
  intros I Hi. destruct (var_of _ I Hi) as [p [P R]]. destruct p as [p|]; [|discriminate R].
  destruct R as [x' [X R]]. injection R as <-. exists p. split; [|split].
  - unfold o_addr, bind, o_get. rewrite P. reflexivity.
  - unfold o_load. rewrite X. reflexivity.
  - eexists. split; [reflexivity|]. destruct I as [A B C D]. constructor; cbn [ow_heap ow_vars].
    + rewrite upd_length; auto.
    + intros k. destruct (Nat.eq_dec k i) as [->|N].
      * rewrite P. exists y. split; [eapply slot_upd_same; eauto|]. eapply slot_upd_same; eauto.
      * assert (Hak : slot (upd a i (Some (Some y))) k = slot a k) by (apply slot_upd_other; auto). rewrite Hak. pose proof (B k) as R. destruct (slot (ow_vars w) k) as [[q|]|] eqn:K; auto.
        destruct R as [z [Z R]]. exists z. rewrite slot_upd_other; auto. intros ->. apply N. eapply C; eauto.
    + auto.
    + intros q z Z. destruct (Nat.eq_dec q p) as [->|N]; [eauto|]. rewrite slot_upd_other in Z by auto. eauto.
Qed.

(** *** Constructors and assignments *)
Lemma slot_app_old a v i u : slot a i = Some u -> slot (a ++ [v]) i = Some u.
Proof. intros H. rewrite slot_app_lt; auto. eapply slot_lt; eauto. Qed.
Lemma upd_app_old {A} (l : list A) v i x : i < length l -> upd (l ++ [v]) i x = upd l i x ++ [v].
Proof. revert i. induction l as [|y l IH]; intros [|i] H; cbn in *; try lia; auto. rewrite IH by lia. auto. Qed.

(** The two ways an operation with effect [a'] can end: done, or out of memory. *)
Definition ends {A} (x : A) a a' (r : res (oworld T) A) : Prop :=
  (exists w', r = Val x w' /\ oinv w' a') \/
  ((exists n, oe_fails E n = true) /\ exists w', r = Exc BadAlloc w' /\ oinv w' a).

Lemma ends_bind {A B} (m : M (oworld T) A) (k : A -> M (oworld T) B) x y a a' a'' w :
  ends x a a' (m w) -> (forall w', oinv w' a' -> exists w'', k x w' = Val y w'' /\ oinv w'' a'') ->
  ends y a a'' (bind m k w).
Proof.
  intros [[w' [Em I]]|[F [w' [Em I]]]] Hk; unfold bind; rewrite Em.
  - destruct (Hk w' I) as [w'' [-> I']]. left; eauto.
  - right; eauto.
Qed.

Lemma emplace_ends w a i u x (arg : M (oworld T) T) : oinv w a -> slot a i = Some u -> arg w = Val x w ->
  ends tt a (upd a i (Some (Some x))) (o_emplace E i arg w).
Proof.
  intros I H Ha. destruct (emplace_ok i x I H) as [r [Er Hr]].
  assert (Eq : o_emplace E i arg w = r) by (rewrite <- Er; unfold o_emplace, bind, ret; destruct (o_get i w) eqn:G; auto; assert (s = w) as -> by (unfold o_get in G; destruct (slot (ow_vars w) i); congruence); rewrite Ha; reflexivity).
  rewrite Eq. destruct Hr as [[w' [-> I']]|[F ->]].
  - left; eauto.
  - right. split; eauto. eexists; split; [reflexivity|]. apply oinv_bump; auto.
Qed.

Lemma constructing_ends w a a' v body : oinv w a ->
  (forall w', oinv w' (a ++ [Some None]) -> ends tt (a ++ [Some None]) (a' ++ [Some v]) (body (length a) w')) ->
  ends (length a) a (a' ++ [Some v]) (constructing body w).
Proof.
  intros I H. destruct (new_ok I) as [w1 [N I1]]. unfold constructing, bind at 1. rewrite N.
  destruct (H w1 I1) as [[w' [-> I']]|[F [w' [-> I']]]].
  - left; eauto.
  - right; split; auto. destruct (pop_ok _ _ I') as [w2 [P I2]]. exists w2. unfold bind. rewrite P. auto.
Qed.

Lemma get_ok w a i u {A} (k : option nat -> M (oworld T) A) : oinv w a -> slot a i = Some u ->
  exists p, bind (o_get i) k w = k p w.
Proof. intros I H. destruct (var_of _ I H) as [p [P _]]. exists p. unfold bind, o_get. now rewrite P. Qed.
Lemma copy_ends w a j v : oinv w a -> slot a j = Some v -> ends (length a) a (a ++ [Some v]) (o_copy E j w).
Proof.
  intros I H. unfold o_copy. match goal with |- context [bind (o_get j) ?k w] => destruct (get_ok _ k I H) as [p0 G0] end. rewrite G0. clear p0 G0. apply constructing_ends; auto. intros w' I'. unfold bind. pose proof (slot_app_old _ (Some None) _ H) as H'.
  rewrite (has_ok _ I' H'). destruct v as [x|].
  - pose proof (emplace_ends (length a) (o_star j) I' (slot_app_last _ _) (star_ok _ I' H')) as R. rewrite upd_app_last in R. exact R.
  - left. eexists; split; [reflexivity|auto].
Qed.
Lemma convert_ends w a j v : oinv w a -> slot a j = Some v ->
  ends (length a) a (a ++ [Some (option_map (oe_conv E) v)]) (o_convert E j w).
Proof.
  intros I H. unfold o_convert. match goal with |- context [bind (o_get j) ?k w] => destruct (get_ok _ k I H) as [p0 G0] end. rewrite G0. clear p0 G0. apply constructing_ends; auto. intros w' I'. unfold bind at 1. pose proof (slot_app_old _ (Some None) _ H) as H'.
  rewrite (has_ok _ I' H'). destruct v as [x|].
  - assert (Ha : (bind (o_star j) (fun x => ret (oe_conv E x))) w' = Val (oe_conv E x) w').
    { unfold bind. rewrite (star_ok _ I' H'). reflexivity. }
    pose proof (emplace_ends (length a) _ I' (slot_app_last _ _) Ha) as R. rewrite upd_app_last in R. exact R.
  - left. eexists; split; [reflexivity|auto].
Qed.
Lemma move_ok w a j v : oinv w a -> slot a j = Some v ->
  exists w', o_move j w = Val (length a) w' /\ oinv w' (upd a j (Some None) ++ [Some v]).
Proof.
  intros I H. destruct (new_ok I) as [w1 [N I1]].
  destruct (swap_ok (length a) j I1 (slot_app_last _ _) (slot_app_old _ (Some None) _ H)) as [w2 [S I2]].
  exists w2. unfold o_move. match goal with |- context [bind (o_get j) ?k w] => destruct (get_ok _ k I H) as [p0 G0] end. rewrite G0. clear p0 G0. unfold noexcept, constructing. unfold bind at 1. rewrite N, S. split; auto.
  rewrite upd_app_last, upd_app_old in I2 by (eapply slot_lt; eauto). auto.
Qed.

(** The converting move constructor: done, or the program ends. *)
Definition ends_hard {A} (x : A) a' (r : res (oworld T) A) : Prop :=
  (exists w', r = Val x w' /\ oinv w' a') \/ ((exists n, oe_fails E n = true) /\ r = Term BadAlloc).

Lemma convert_move_ends w a j v : oinv w a -> slot a j = Some v ->
  ends_hard (length a) (upd a j (Some (option_map (oe_moved E) v)) ++ [Some (option_map (oe_conv E) v)])
    (o_convert_move E j w).
Proof.
  intros I H. destruct (new_ok I) as [w1 [N I1]]. pose proof (slot_app_old _ (Some None) _ H) as H1.
  unfold o_convert_move. match goal with |- context [bind (o_get j) ?k w] => destruct (get_ok _ k I H) as [p0 G0] end. rewrite G0. clear p0 G0. unfold noexcept, constructing. unfold bind at 1. rewrite N. unfold bind at 1.
  rewrite (has_ok _ I1 H1). destruct v as [x|].
  2: { left. eexists. split; [reflexivity|]. cbn [option_map]. rewrite (upd_slot _ _ H). auto. }
  destruct (store_ok j x I1 H1) as [p [Pa [Pl _]]]. unfold bind at 1. rewrite Pa. unfold bind at 1. rewrite Pl.
  cbn [option_map].
  destruct (emplace_ok (length a) (oe_conv E x) I1 (slot_app_last _ _)) as [r [Er Hr]].
  unfold o_emplace, bind, ret in Er. unfold bind. destruct (var_of _ I1 (slot_app_last _ _ : slot (a ++ [Some None]) (length a) = _)) as [p0 [P0 _]].
  assert (G0 : o_get (length a) w1 = Val p0 w1) by (unfold o_get; now rewrite P0). rewrite G0 in Er.
  destruct (make_unique E (oe_conv E x) w1) as [q w2|e w2|u|e] eqn:Em.
  - destruct Hr as [[w3 [-> I3]]|[F ->]].
    + (* both orders of the two writes give the same world *)
      rewrite upd_app_last in I3.
      assert (Hj : slot (a ++ [Some (Some (oe_conv E x))]) j = Some (Some x)) by (apply slot_app_old; auto).
      destruct (store_ok j (oe_moved E x) I3 Hj) as [p' [Pa' [_ [w4 [S4 I4]]]]].
      rewrite upd_app_old in I4 by (eapply slot_lt; eauto).
      left. exists w4. split; auto.
      assert (Pp : p' = p /\ o_store p (Some (oe_moved E x)) w3 =
                   bind (o_store p (Some (oe_moved E x))) (fun _ => ptr_assign (length a) (Some q)) w2).
      { assert (Hv : slot (ow_vars w1) (length a) = Some None).
        { pose proof (oi_rel I1 (length a)) as R. destruct (slot (ow_vars w1) (length a)) as [[z|]|]; auto.
          - destruct R as [z' [_ R]]. rewrite slot_app_last in R. discriminate R.
          - rewrite slot_app_last in R. discriminate R. }
        unfold make_unique, bind, o_fallible in Em. destruct (oe_fails E (ow_steps w1)); [discriminate Em|].
        inversion Em; subst q w2.
        unfold ptr_assign, bind, o_get, o_put, modify in Er. cbn [ow_vars ow_heap ow_steps] in Er. rewrite Hv in Er.
        cbn [o_delete ret] in Er. unfold ret in Er. inversion Er; subst w3. cbn [ow_vars ow_heap ow_steps] in *.
        split.
        - unfold o_addr, bind, o_get in Pa, Pa'. cbn [ow_vars] in Pa'. assert (Nj : j <> length a) by (pose proof (slot_lt _ _ H); lia).
          rewrite slot_upd_other in Pa' by auto. destruct (slot (ow_vars w1) j) as [[z|]|]; inversion Pa; inversion Pa'; congruence.
        - unfold bind, o_store, modify, ptr_assign, bind, o_get, o_put, modify. cbn [ow_vars ow_heap ow_steps]. rewrite Hv. reflexivity. }
      destruct Pp as [-> Pp]. rewrite Pp in S4. unfold bind in S4. rewrite S4. reflexivity.
    + unfold make_unique, bind, o_fallible in Em. rewrite F in Em. discriminate Em.
  - unfold make_unique, bind, o_fallible in Em. destruct (oe_fails E (ow_steps w1)) eqn:F; [|discriminate Em].
    inversion Em; subst e w2. destruct (pop_ok _ _ (oinv_bump I1)) as [w3 [P3 _]]. unfold bump in P3. rewrite P3.
    right; split; eauto.
  - unfold make_unique, bind, o_fallible in Em. destruct (oe_fails E (ow_steps w1)); discriminate Em.
  - unfold make_unique, bind, o_fallible in Em. destruct (oe_fails E (ow_steps w1)); discriminate Em.
Qed.

(** The tail of an assignment: swap with the parameter, then destroy it. *)
Lemma assign_tail w a i u v : oinv w (a ++ [Some v]) -> slot a i = Some u ->
  exists w', bind (noexcept (o_swap i (length a))) (fun _ => o_pop) w = Val tt w' /\ oinv w' (upd a i (Some v)).
Proof.
  intros I H. destruct (swap_ok i (length a) I (slot_app_old _ (Some v) _ H) (slot_app_last _ _)) as [w1 [S I1]].
  rewrite upd_app_old in I1 by (eapply slot_lt; eauto). rewrite <- (upd_length a i (Some v)) in I1. rewrite upd_app_last in I1.
  destruct (pop_ok _ _ I1) as [w2 [P I2]]. exists w2. split; auto. unfold bind, noexcept. rewrite S. auto.
Qed.
Lemma assign_ends w a a' i u0 u v mk : oinv w a -> slot a i = Some u0 -> slot a' i = Some u -> length a' = length a ->
  ends (length a) a (a' ++ [Some v]) (mk w) -> ends tt a (upd a' i (Some v)) (o_assign i mk w).
Proof.
  intros I0 H0 H L [[w' [Em I]]|[F [w' [Em I]]]]; unfold o_assign; destruct (get_ok i (fun _ => bind mk (fun t => bind (noexcept (o_swap i t)) (fun _ => o_pop))) I0 H0) as [p0 ->]; unfold bind at 1; rewrite Em.
  - left. rewrite <- L. eapply assign_tail; eauto.
  - right; eauto.
Qed.
Lemma assign_ends_hard w a a' i u0 u v mk : oinv w a -> slot a i = Some u0 -> slot a' i = Some u -> length a' = length a ->
  ends_hard (length a) (a' ++ [Some v]) (mk w) -> ends_hard tt (upd a' i (Some v)) (o_assign i mk w).
Proof.
  intros I0 H0 H L [[w' [Em I]]|[F Em]]; unfold o_assign; destruct (get_ok i (fun _ => bind mk (fun t => bind (noexcept (o_swap i t)) (fun _ => o_pop))) I0 H0) as [p0 ->]; unfold bind at 1; rewrite Em.
  - left. rewrite <- L. eapply assign_tail; eauto.
  - right; eauto.
Qed.

(** *** Calls *)
Lemma dead_get w a i : oinv w a -> slot a i = None -> o_get i w = Undef DeadObject.
Proof. intros I H. unfold o_get. rewrite (novar _ I H). reflexivity. Qed.

Definition answers (o : oop T) w a (r : res (oworld T) (oret T)) : Prop :=
  match o_spec E o a with
  | Gives v a' => (exists w', r = Val v w' /\ oinv w' a') \/
      ((exists n, oe_fails E n = true) /\ o_cheap o = false /\
       if converting_move o then r = Term BadAlloc else exists w', r = Exc BadAlloc w' /\ oinv w' a)
  | Raises e => r = Exc e w
  | Wrong => exists u, r = Undef u
  end.

Lemma ends_ret {A} (x : A) (y : oret T) a a' (m : M (oworld T) A) f o w : f x = y -> o_spec E o a = Gives y a' ->
  converting_move o = false -> o_cheap o = false -> ends x a a' (m w) -> answers o w a (bind m (fun x => ret (f x)) w).
Proof.
  intros F S C D [[w' [Em I]]|[Fa [w' [Em I]]]]; unfold answers, bind; rewrite S, C, Em; [left|right]; eauto.
  exists w'. unfold ret. rewrite F. auto.
Qed.
Lemma ends_hard_ret {A} (x : A) (y : oret T) a a' (m : M (oworld T) A) f o w : f x = y -> o_spec E o a = Gives y a' ->
  converting_move o = true -> o_cheap o = false -> ends_hard x a' (m w) -> answers o w a (bind m (fun x => ret (f x)) w).
Proof.
  intros F S C D [[w' [Em I]]|[Fa Em]]; unfold answers, bind; rewrite S, C, Em; [left|right]; eauto.
  exists w'. unfold ret. rewrite F. auto.
Qed.
Lemma ok_ret {A} (x : A) (y : oret T) a a' (m : M (oworld T) A) f o w : f x = y -> o_spec E o a = Gives y a' ->
  (exists w', m w = Val x w' /\ oinv w' a') -> answers o w a (bind m (fun x => ret (f x)) w).
Proof.
  intros F S [w' [Em I]]; unfold answers, bind; rewrite S, Em; left.
  exists w'. unfold ret. rewrite F. auto.
Qed.
Lemma undef_ret {A} (m : M (oworld T) A) f o w a u : o_spec E o a = Wrong -> m w = Undef u ->
  answers o w a (bind m (fun x => ret (f x)) w).
Proof. intros S Em. unfold answers, bind. rewrite S, Em. eauto. Qed.

Lemma fallible_cases w : o_fallible E w = Val tt (bump w) \/
  (oe_fails E (ow_steps w) = true /\ o_fallible E w = Exc BadAlloc (bump w)).
Proof. unfold o_fallible, bump. destruct (oe_fails E (ow_steps w)); auto. Qed.

Lemma dead_has w a i : oinv w a -> slot a i = None -> o_has i w = Undef DeadObject.
Proof. intros I H. unfold o_has, bind. now rewrite (dead_get _ I H). Qed.
Lemma dead_star w a i : oinv w a -> slot a i = None -> o_star i w = Undef DeadObject.
Proof. intros I H. unfold o_star, o_addr, bind. now rewrite (dead_get _ I H). Qed.
Lemma slot_app_none a i : slot a i = None -> i <> length a -> slot (a ++ [Some None]) i = None.
Proof.
  intros H N. destruct (Nat.lt_ge_cases i (length a)); [rewrite slot_app_lt; auto|].
  apply slot_overflow. rewrite app_length; cbn; lia.
Qed.
Lemma with_value_some a i v k : slot a i = Some v -> with_value a i k = k v.
Proof. intros H. unfold with_value. change (nth i a None) with (slot a i). now rewrite H. Qed.
Lemma with_value_none a i k : slot a i = None -> with_value a i k = Wrong.
Proof. intros H. unfold with_value. change (nth i a None) with (slot a i). now rewrite H. Qed.

Lemma dead_bind {A} w a i (k : option nat -> M (oworld T) A) : oinv w a -> slot a i = None ->
  bind (o_get i) k w = Undef DeadObject.
Proof. intros I H. unfold bind. now rewrite (dead_get _ I H). Qed.
Lemma dead_mk {A} w a j (mk : M (oworld T) A) : oinv w a -> slot a j = None ->
  (exists k, mk = bind (o_get j) k) -> mk w = Undef DeadObject.
Proof. intros I H [k ->]. eapply dead_bind; eauto. Qed.
Lemma dead_assign w a i j mk : oinv w a -> slot a i = None \/ slot a j = None ->
  (exists k, mk = bind (o_get j) k) -> o_assign i mk w = Undef DeadObject.
Proof.
  intros I H K. unfold o_assign. destruct (slot a i) as [u|] eqn:Hi.
  - destruct H as [H|H]; [discriminate H|].
    destruct (get_ok i (fun _ => bind mk (fun t => bind (noexcept (o_swap i t)) (fun _ => o_pop))) I Hi) as [p0 ->].
    unfold bind at 1. now rewrite (dead_mk I H K).
  - eapply dead_bind; eauto.
Qed.

Lemma exec_answers o w a : oinv w a -> answers o w a (o_exec E o w).
Proof.
  intros I.
  assert (V : forall i, (exists v, slot a i = Some v) \/ slot a i = None) by (intros i; destruct (slot a i); eauto).
  destruct o as [|j|j|j|j|i j|i j|i j|i j|i j|i|i|i x|i|i x|i|i x|i j|i]; unfold o_exec.
  - destruct (new_ok I) as [w' [N I']]. eapply ok_ret with (f := fun i => OVar i); [reflexivity|reflexivity|eauto].
  - destruct (V j) as [[v H]|H].
    + eapply ends_ret with (f := fun i => OVar i); eauto using copy_ends. cbn. now rewrite (with_value_some _ _ _ H).
    + eapply undef_ret; [cbn; now rewrite with_value_none|]. eapply dead_mk; eauto. eexists; reflexivity.
  - destruct (V j) as [[v H]|H].
    + eapply ends_ret with (f := fun i => OVar i); eauto using convert_ends. cbn. now rewrite (with_value_some _ _ _ H).
    + eapply undef_ret; [cbn; now rewrite with_value_none|]. eapply dead_mk; eauto. eexists; reflexivity.
  - destruct (V j) as [[v H]|H].
    + eapply ok_ret with (f := fun i => OVar i); [reflexivity| |eapply move_ok; eauto].
      cbn. rewrite (with_value_some _ _ _ H), upd_length. reflexivity.
    + eapply undef_ret; [cbn; now rewrite with_value_none|]. eapply dead_mk; eauto. eexists; reflexivity.
  - destruct (V j) as [[v H]|H].
    + eapply ends_hard_ret with (f := fun i => OVar i); eauto using convert_move_ends. cbn. rewrite (with_value_some _ _ _ H), upd_length. reflexivity.
    + eapply undef_ret; [cbn; now rewrite with_value_none|]. eapply dead_mk; eauto. eexists; reflexivity.
  - destruct (V i) as [[u Hi]|Hi]; [destruct (V j) as [[v H]|H]|].
    + eapply ends_ret with (f := fun _ => OUnit); eauto; [|eapply assign_ends; eauto using copy_ends].
      cbn. rewrite (with_value_some _ _ _ Hi), (with_value_some _ _ _ H). reflexivity.
    + eapply undef_ret; [cbn; rewrite (with_value_some _ _ _ Hi); now rewrite with_value_none|]. eapply dead_assign; eauto. eexists; reflexivity.
    + eapply undef_ret; [cbn; now rewrite with_value_none|]. eapply dead_assign with (j := j); eauto. eexists; reflexivity.
  - destruct (V i) as [[u Hi]|Hi]; [destruct (V j) as [[v H]|H]|].
    + destruct (move_ok _ I H) as [w1 [Em I1]].
      assert (Hi' : exists u', slot (upd a j (Some None)) i = Some u').
      { destruct (Nat.eq_dec i j) as [->|N]; [erewrite slot_upd_same by eassumption; eauto|rewrite slot_upd_other by auto; eauto]. }
      destruct Hi' as [u' Hi']. destruct (assign_tail _ i _ I1 Hi') as [w2 [Et I2]]. rewrite upd_length in Et.
      eapply ok_ret with (f := fun _ => OUnit); [reflexivity| |].
      * cbn. rewrite (with_value_some _ _ _ Hi), (with_value_some _ _ _ H). reflexivity.
      * exists w2. split; eauto. unfold o_assign. destruct (get_ok i (fun _ => bind (o_move j) (fun t => bind (noexcept (o_swap i t)) (fun _ => o_pop))) I Hi) as [p0 ->].
        unfold bind at 1. rewrite Em. exact Et.
    + eapply undef_ret; [cbn; rewrite (with_value_some _ _ _ Hi); now rewrite with_value_none|]. eapply dead_assign; eauto. eexists; reflexivity.
    + eapply undef_ret; [cbn; now rewrite with_value_none|]. eapply dead_assign with (j := j); eauto. eexists; reflexivity.
  - destruct (V i) as [[u Hi]|Hi]; [destruct (V j) as [[v H]|H]|].
    + eapply ends_ret with (f := fun _ => OUnit); eauto; [|eapply assign_ends; eauto using convert_ends].
      cbn. rewrite (with_value_some _ _ _ Hi), (with_value_some _ _ _ H). reflexivity.
    + eapply undef_ret; [cbn; rewrite (with_value_some _ _ _ Hi); now rewrite with_value_none|]. eapply dead_assign; eauto. eexists; reflexivity.
    + eapply undef_ret; [cbn; now rewrite with_value_none|]. eapply dead_assign with (j := j); eauto. eexists; reflexivity.
  - destruct (V i) as [[u Hi]|Hi]; [destruct (V j) as [[v H]|H]|].
    + assert (Hi' : exists u', slot (upd a j (Some (option_map (oe_moved E) v))) i = Some u').
      { destruct (Nat.eq_dec i j) as [->|N]; [erewrite slot_upd_same by eassumption; eauto|rewrite slot_upd_other by auto; eauto]. }
      destruct Hi' as [u' Hi'].
      eapply ends_hard_ret with (f := fun _ => OUnit); eauto; [|eapply assign_ends_hard; eauto using convert_move_ends; apply upd_length].
      cbn. rewrite (with_value_some _ _ _ Hi), (with_value_some _ _ _ H). reflexivity.
    + eapply undef_ret; [cbn; rewrite (with_value_some _ _ _ Hi); now rewrite with_value_none|]. eapply dead_assign; eauto. eexists; reflexivity.
    + eapply undef_ret; [cbn; now rewrite with_value_none|]. eapply dead_assign with (j := j); eauto. eexists; reflexivity.
  - destruct (V i) as [[u Hi]|Hi]; [destruct (V j) as [[v H]|H]|].
    + eapply ok_ret with (f := fun _ => OUnit); [reflexivity| |eapply swap_ok; eauto].
      cbn. rewrite (with_value_some _ _ _ Hi), (with_value_some _ _ _ H). reflexivity.
    + eapply undef_ret; [cbn; rewrite (with_value_some _ _ _ Hi); now rewrite with_value_none|].
      unfold o_swap. destruct (get_ok i (fun p => bind (o_get j) (fun q => bind (o_put i (Some q)) (fun _ => o_put j (Some p)))) I Hi) as [p0 ->]. eapply dead_bind; eauto.
    + eapply undef_ret; [cbn; now rewrite with_value_none|]. eapply dead_bind; eauto.
  - destruct (V i) as [[u Hi]|Hi].
    + eapply ok_ret with (f := fun b => OBool b); [reflexivity| |eexists; split; [eapply has_ok; eauto|eauto]].
      cbn. rewrite (with_value_some _ _ _ Hi). reflexivity.
    + eapply undef_ret; [cbn; now rewrite with_value_none|]. eapply dead_has; eauto.
  - destruct (V i) as [[u Hi]|Hi].
    + destruct u as [x|].
      * eapply ok_ret with (f := fun b => OElem b); [reflexivity| |eexists; split; [eapply star_ok; eauto|eauto]].
        cbn. rewrite (with_value_some _ _ _ Hi). reflexivity.
      * eapply undef_ret; [cbn; now rewrite (with_value_some _ _ _ Hi)|]. eapply star_empty; eauto.
    + eapply undef_ret; [cbn; now rewrite with_value_none|]. eapply dead_star; eauto.
  - destruct (V i) as [[u Hi]|Hi].
    + destruct u as [y|].
      * pose proof (oinv_bump I) as Ib. destruct (store_ok i x I Hi) as [p [Pa [Pl _]]]. destruct (store_ok i x Ib Hi) as [p' [Pa' [_ [w2 [S2 I2]]]]].
        assert (p' = p). { unfold o_addr, bind, o_get in Pa, Pa'. cbn [bump ow_vars] in Pa'. destruct (slot (ow_vars w) i) as [[z|]|]; inversion Pa; inversion Pa'; congruence. } subst p'.
        eapply ends_ret with (x := tt) (f := fun _ => OUnit); [reflexivity| | | |].
        { cbn. rewrite (with_value_some _ _ _ Hi). reflexivity. } all: try reflexivity.
        unfold o_write, bind. rewrite Pa, Pl. destruct (fallible_cases w) as [->|[F ->]]; [left; eauto|right; split; eauto].
      * eapply undef_ret; [cbn; now rewrite (with_value_some _ _ _ Hi)|]. pose proof (star_empty _ I Hi) as Q. unfold o_write, o_star, bind in *.
        destruct (o_addr i w) as [q s|e s|z|e] eqn:G; try discriminate Q.
        { unfold o_load in Q. destruct (slot (ow_heap s) q); discriminate Q. } { inversion Q; subst z. reflexivity. }
    + eapply undef_ret; [cbn; now rewrite with_value_none|]. unfold o_write, o_addr, bind. rewrite (dead_get _ I Hi). reflexivity.
  - destruct (V i) as [[u Hi]|Hi].
    + destruct u as [x|].
      * eapply ok_ret with (f := fun b => OElem b); [reflexivity| |].
        { cbn. rewrite (with_value_some _ _ _ Hi). reflexivity. }
        exists w. split; auto. unfold o_value, bind. rewrite (has_ok _ I Hi). eapply star_ok; eauto.
      * unfold answers. cbn. rewrite (with_value_some _ _ _ Hi). unfold o_value, bind. rewrite (has_ok _ I Hi). reflexivity.
    + eapply undef_ret; [cbn; now rewrite with_value_none|]. unfold o_value, bind. now rewrite (dead_has _ I Hi).
  - destruct (V i) as [[u Hi]|Hi].
    + eapply ends_ret with (f := fun b => OElem b); [reflexivity| | | |].
      { cbn. rewrite (with_value_some _ _ _ Hi). reflexivity. } all: try reflexivity.
      unfold o_value_or, bind. rewrite (has_ok _ I Hi). pose proof (oinv_bump I) as Ib.
      destruct u as [y|]; [rewrite (star_ok _ I Hi)|]; (destruct (fallible_cases w) as [->|[F ->]]; [left; eexists; split; [reflexivity|auto]|right; split; eauto]).
    + eapply undef_ret; [cbn; now rewrite with_value_none|]. unfold o_value_or, bind. now rewrite (dead_has _ I Hi).
  - destruct (V i) as [[u Hi]|Hi].
    + eapply ok_ret with (f := fun _ => OUnit); [reflexivity| |eapply reset_ok; eauto]. cbn. rewrite (with_value_some _ _ _ Hi). reflexivity.
    + eapply undef_ret; [cbn; now rewrite with_value_none|]. unfold o_reset, noexcept, ptr_assign. erewrite dead_bind; eauto.
  - destruct (V i) as [[u Hi]|Hi].
    + eapply ends_ret with (f := fun _ => OUnit); eauto; [|eapply emplace_ends; eauto; reflexivity].
      cbn. rewrite (with_value_some _ _ _ Hi). reflexivity.
    + eapply undef_ret; [cbn; now rewrite with_value_none|]. eapply dead_bind; eauto.
  - destruct (V i) as [[u Hi]|Hi]; [destruct (V j) as [[v H]|H]|].
    + destruct v as [y|].
      * eapply ends_ret with (f := fun _ => OUnit); eauto; [|eapply emplace_ends; eauto; eapply star_ok; eauto].
        cbn. rewrite (with_value_some _ _ _ Hi), (with_value_some _ _ _ H). reflexivity.
      * eapply undef_ret; [cbn; rewrite (with_value_some _ _ _ Hi); now rewrite (with_value_some _ _ _ H)|].
        unfold o_emplace. destruct (get_ok i (fun _ => bind (o_star j) (fun x => bind (make_unique E x) (fun q => ptr_assign i (Some q)))) I Hi) as [p0 ->].
        unfold bind at 1. now rewrite (star_empty _ I H).
    + eapply undef_ret; [cbn; rewrite (with_value_some _ _ _ Hi); now rewrite with_value_none|].
      unfold o_emplace. destruct (get_ok i (fun _ => bind (o_star j) (fun x => bind (make_unique E x) (fun q => ptr_assign i (Some q)))) I Hi) as [p0 ->].
      unfold bind at 1. now rewrite (dead_star _ I H).
    + eapply undef_ret; [cbn; now rewrite with_value_none|]. eapply dead_bind; eauto.
  - destruct (V i) as [[u Hi]|Hi].
    + eapply ok_ret with (f := fun _ => OUnit); [reflexivity| |eapply destroy_ok; eauto]. cbn. rewrite (with_value_some _ _ _ Hi). reflexivity.
    + eapply undef_ret; [cbn; now rewrite with_value_none|]. eapply dead_bind; eauto.
Qed.

(** *** Histories *)
Lemma inv_sees w a : oinv w a -> o_sees E w a.
Proof.
  intros I. split; [apply (oi_len I)|]. intros i. change (nth i a None) with (slot a i).
  destruct (slot a i) as [[x|]|] eqn:H.
  - unfold o_exec, bind. rewrite (has_ok _ I H), (star_ok _ I H). auto.
  - unfold o_exec, bind. rewrite (has_ok _ I H). auto.
  - apply (novar _ I H).
Qed.
Lemma sees_inv w a b : oinv w a -> o_sees E w b -> a = b.
Proof.
  intros I [L H]. pose proof (oi_len I) as La.
  apply nth_ext with (d := None) (d' := None); [lia|]. intros n _. specialize (H n).
  change (nth n a None) with (slot a n). pose proof (oi_rel I n) as R.
  destruct (nth n b None) as [[x|]|].
  - destruct H as [Hh Hd]. destruct (slot a n) as [[y|]|] eqn:S.
    + unfold o_exec, bind in Hd. rewrite (star_ok _ I S) in Hd. unfold ret in Hd. congruence.
    + unfold o_exec, bind in Hh. rewrite (has_ok _ I S) in Hh. discriminate Hh.
    + unfold o_exec, bind in Hh. rewrite (dead_has _ I S) in Hh. discriminate Hh.
  - destruct (slot a n) as [[y|]|] eqn:S; auto; unfold o_exec, bind in H.
    + rewrite (has_ok _ I S) in H. discriminate H.
    + rewrite (dead_has _ I S) in H. discriminate H.
  - change (nth n (ow_vars w) None) with (slot (ow_vars w) n) in H. rewrite H in R. auto.
Qed.

Lemma run_inv l : forall w a w', oinv w a -> o_run E l w = Some w' -> exists a', oinv w' a'.
Proof.
  induction l as [|o l IH]; intros w a w' I R; cbn in R.
  - inversion R; subst; eauto.
  - pose proof (exec_answers o I) as A. unfold answers in A. destruct (o_spec E o a) as [v a'|e|].
    + destruct A as [[w1 [Ex I1]]|[_ [_ A]]].
      * rewrite Ex in R. eauto.
      * destruct (converting_move o); [rewrite A in R; discriminate R|]. destruct A as [w1 [Ex I1]]. rewrite Ex in R. eauto.
    + rewrite A in R. eauto.
    + destruct A as [u Ex]. rewrite Ex in R. discriminate R.
Qed.
Lemma reach_inv l w : o_run E l ow_init = Some w -> exists a, oinv w a.
Proof. apply run_inv with (a := []). apply oinv_init. Qed.

Lemma call_answers l w a o : o_run E l ow_init = Some w -> o_sees E w a ->
  match o_spec E o a with
  | Gives v a' => (exists w', o_exec E o w = Val v w' /\ o_sees E w' a') \/
      ((exists n, oe_fails E n = true) /\ o_cheap o = false /\
       if converting_move o then o_exec E o w = Term BadAlloc
       else exists w', o_exec E o w = Exc BadAlloc w' /\ o_sees E w' a)
  | Raises e => o_exec E o w = Exc e w
  | Wrong => exists u, o_exec E o w = Undef u
  end.
Proof.
  intros R S. destruct (reach_inv _ R) as [b I]. pose proof (sees_inv I S); subst b.
  pose proof (exec_answers o I) as A. unfold answers in A. destruct (o_spec E o a) as [v a'|e|]; auto.
  destruct A as [[w1 [Ex I1]]|[F [C A]]].
  - left; eauto using inv_sees.
  - right. split; auto. split; auto. destruct (converting_move o); auto. destruct A as [w1 [Ex I1]]. eauto using inv_sees.
Qed.

Lemma run_values (N : forall n, oe_fails E n = false) l : forall w a, oinv w a ->
  match o_values E l a with
  | Some a' => exists w', o_run E l w = Some w' /\ oinv w' a'
  | None => o_run E l w = None
  end.
Proof.
  induction l as [|o l IH]; intros w a I; cbn; eauto.
  pose proof (exec_answers o I) as A. unfold answers in A. destruct (o_spec E o a) as [v a'|e|].
  - destruct A as [[w1 [Ex I1]]|[[n F] _]].
    + rewrite Ex. apply IH; auto.
    + rewrite N in F; discriminate F.
  - rewrite A. apply IH; auto.
  - destruct A as [u Ex]. now rewrite Ex.
Qed.
Lemma program_values (N : forall n, oe_fails E n = false) l :
  match o_values E l [] with
  | Some a => exists w, o_run E l ow_init = Some w /\ o_sees E w a
  | None => o_run E l ow_init = None
  end.
Proof.
  pose proof (run_values N l oinv_init) as H. destruct (o_values E l []) as [a|]; auto.
  destruct H as [w [R I]]. eauto using inv_sees.
Qed.

(** *** Counting *)
Definition is_some {A} (x : option A) : bool := match x with Some _ => true | None => false end.
Fixpoint ids {A} (f : A -> bool) (l : list A) (n : nat) : list nat :=
  match l with
  | [] => []
  | x :: t => if f x then n :: ids f t (S n) else ids f t (S n)
  end.
Lemma ids_length {A} (f : A -> bool) l : forall n, length (ids f l n) = length (filter f l).
Proof. induction l as [|x l IH]; intros n; cbn; auto. destruct (f x); cbn; auto. Qed.
Lemma ids_in {A} (f : A -> bool) d l : forall n p, In p (ids f l n) <-> (n <= p /\ p - n < length l /\ f (nth (p - n) l d) = true).
Proof.
  induction l as [|x l IH]; intros n p; cbn [ids length nth]; [split; [intros []|lia]|].
  assert (Hs : forall q, S n <= q -> q - n = S (q - S n)) by (intros; lia).
  destruct (f x) eqn:F; cbn [In]; rewrite IH; (split; [intros H|intros (A' & B & C)]).
  - destruct H as [->|(A' & B & C)]; [rewrite Nat.sub_diag; repeat split; auto; lia|].
    rewrite Hs by auto. repeat split; auto; lia.
  - destruct (Nat.eq_dec n p) as [->|N]; auto. right. rewrite Hs in B, C by lia. repeat split; auto; lia.
  - destruct H as (A' & B & C). rewrite Hs by auto. repeat split; auto; lia.
  - destruct (Nat.eq_dec n p) as [->|N]; [rewrite Nat.sub_diag in C; congruence|]. rewrite Hs in B, C by lia. repeat split; auto; lia.
Qed.
Lemma ids_nodup {A} (f : A -> bool) l : forall n, NoDup (ids f l n).
Proof.
  induction l as [|x l IH]; intros n; cbn; [constructor|]. destruct (f x); auto. constructor; auto.
  rewrite (ids_in f x). lia.
Qed.

Lemma inv_count w a : oinv w a -> allocated w = engaged a.
Proof.
  intros I. unfold allocated, engaged. rewrite <- (ids_length _ (ow_heap w) 0), <- (ids_length _ a 0).
  set (g := fun i => match slot (ow_vars w) i with Some (Some p) => p | _ => 0 end).
  symmetry. rewrite <- (map_length g). apply Permutation_length. apply NoDup_Permutation.
  - assert (Hi : forall l, NoDup l -> (forall i, In i l -> In i (ids (fun x : option (option T) => match x with Some (Some _) => true | _ => false end) a 0)) -> NoDup (map g l)).
    { intros l N. induction N as [|i l Ni N IH]; intros Hl; cbn; constructor.
      - intros Hm. apply in_map_iff in Hm. destruct Hm as [j [Ej Hj]].
        assert (Hp : forall k, In k (i :: l) -> slot (ow_vars w) k = Some (Some (g k))).
        { intros k Hk. apply Hl in Hk. apply (ids_in _ None) in Hk. rewrite Nat.sub_0_r in Hk. destruct Hk as (_ & _ & Hk).
          change (nth k a None) with (slot a k) in Hk. pose proof (oi_rel I k) as R. unfold g. destruct (slot (ow_vars w) k) as [[p|]|]; auto; rewrite R in Hk; discriminate Hk. }
        apply Ni. assert (i = j) as ->; auto. eapply (oi_inj I); [apply Hp; left; auto|]. rewrite <- Ej. apply Hp; right; auto.
      - apply IH. intros k Hk. apply Hl; right; auto. }
    apply Hi; auto. apply ids_nodup.
  - apply ids_nodup.
  - intros p. rewrite (ids_in _ None), Nat.sub_0_r, in_map_iff. change (nth p (ow_heap w) None) with (slot (ow_heap w) p). split.
    + intros [i [Eg Hi]]. apply (ids_in _ None) in Hi. rewrite Nat.sub_0_r in Hi. destruct Hi as (_ & _ & Hi).
      change (nth i a None) with (slot a i) in Hi. pose proof (oi_rel I i) as R. unfold g in Eg.
      destruct (slot (ow_vars w) i) as [[q|]|]; try (rewrite R in Hi; discriminate Hi). subst q.
      destruct R as [x [X _]]. rewrite X. split; [lia|]. split; auto. eapply slot_lt; eauto.
    + intros (_ & _ & Hp). destruct (slot (ow_heap w) p) as [x|] eqn:X; [|discriminate Hp].
      destruct (oi_own I _ X) as [i Hi]. exists i. split; [unfold g; now rewrite Hi|].
      apply (ids_in _ None). rewrite Nat.sub_0_r. change (nth i a None) with (slot a i).
      pose proof (oi_rel I i) as R. rewrite Hi in R. destruct R as [y [_ R]]. rewrite R. split; [lia|]. split; auto. eapply slot_lt; eauto.
Qed.

Lemma no_leaks l w a : o_run E l ow_init = Some w -> o_sees E w a -> allocated w = engaged a.
Proof. intros R S. destruct (reach_inv _ R) as [b I]. rewrite <- (sees_inv I S). apply inv_count; auto. Qed.
Lemma world_seen l w : o_run E l ow_init = Some w -> exists a, o_sees E w a.
Proof. intros R. destruct (reach_inv _ R) as [b I]. eauto using inv_sees. Qed.

Lemma all_freed l w : o_run E l ow_init = Some w -> (forall i, nth i (ow_vars w) None = None) -> forall p, nth p (ow_heap w) None = None.
Proof.
  intros R H p. destruct (reach_inv _ R) as [b I]. destruct (nth p (ow_heap w) None) as [x|] eqn:X; auto.
  destruct (oi_own I p X) as [i Hi]. unfold slot in Hi. rewrite H in Hi. discriminate Hi.
Qed.

Lemma spec_raises o a e : o_spec E o a = Raises e -> e = NoValue.
Proof.
  destruct o as [|j|j|j|j|i j|i j|i j|i j|i j|i|i|i x|i|i x|i|i x|i j|i]; cbn; unfold with_value;
    repeat match goal with |- context [match ?m with _ => _ end] => destruct m end; congruence.
Qed.
Lemma failure_keeps l w a o : converting_move o = false -> o_run E l ow_init = Some w -> o_sees E w a ->
  forall e w', o_exec E o w = Exc e w' -> o_sees E w' a.
Proof.
  intros C R S e w' X. pose proof (call_answers _ o R S) as A. destruct (o_spec E o a) as [v a'|e'|].
  - destruct A as [[w1 [Ex _]]|[_ [_ A]]]; [congruence|]. rewrite C in A. destruct A as [w1 [Ex S1]]. congruence.
  - congruence.
  - destruct A as [u Ex]; congruence.
Qed.
Lemma cheap_throws l w a o : o_cheap o = true -> o_run E l ow_init = Some w -> o_sees E w a ->
  forall e w', o_exec E o w = Exc e w' -> e = NoValue /\ o_spec E o a = Raises NoValue.
Proof.
  intros C R S e w' X. pose proof (call_answers _ o R S) as A. destruct (o_spec E o a) as [v a'|e'|] eqn:Es.
  - destruct A as [[w1 [Ex _]]|[_ [Cf _]]]; congruence.
  - pose proof (spec_raises _ _ Es); subst e'. assert (e = NoValue) by congruence. auto.
  - destruct A as [u Ex]; congruence.
Qed.

End Proofs.
