(** Proofs about LastAccessed objects: the state after a program is the one the client
    works out from its steps. *)
From Coq Require Import List Arith Bool Lia.
Import ListNotations.
From Verif Require Import Monad LastObj SpecLast.
Set Implicit Arguments.

Lemma put_length {A} (l : list A) : forall n a, length (put l n a) = length l.
Proof. induction l; destruct n; simpl; intros; auto. Qed.
Lemma nth_put {A} (l : list A) : forall n a m d, n < length l ->
  nth m (put l n a) d = if Nat.eqb m n then a else nth m l d.
Proof.
  induction l as [|b l IH]; intros [|n] a [|m] d H; simpl in *; try lia; auto.
  apply IH. lia.
Qed.
Lemma nth_error_put {A} (l : list A) : forall n a m, n < length l ->
  nth_error (put l n a) m = if Nat.eqb m n then Some a else nth_error l m.
Proof.
  induction l as [|b l IH]; intros [|n] a [|m] H; simpl in *; try lia; auto.
  apply IH. lia.
Qed.
Lemma nth_snoc {A} (l : list A) a m d :
  nth m (l ++ [a]) d = if Nat.eqb m (length l) then a else nth m l d.
Proof.
  destruct (Nat.eqb_spec m (length l)) as [->|N].
  - rewrite app_nth2, Nat.sub_diag by lia. reflexivity.
  - destruct (Nat.lt_ge_cases m (length l)); [apply app_nth1; auto|].
    rewrite nth_overflow, nth_overflow; auto; rewrite ?app_length; simpl; lia.
Qed.
Lemma nth_error_snoc {A} (l : list A) a m :
  nth_error (l ++ [a]) m = if Nat.eqb m (length l) then Some a else nth_error l m.
Proof.
  destruct (Nat.eqb_spec m (length l)) as [->|N].
  - rewrite nth_error_app2, Nat.sub_diag by lia. reflexivity.
  - destruct (Nat.lt_ge_cases m (length l)); [apply nth_error_app1; auto|].
    rewrite (proj2 (nth_error_None _ _)), (proj2 (nth_error_None _ _)); auto; rewrite ?app_length; simpl; lia.
Qed.
Lemma nth_some {A} (l : list (option A)) n v : nth n l None = Some v -> n < length l.
Proof. intros H. destruct (Nat.lt_ge_cases n (length l)); auto. rewrite nth_overflow in H by auto. discriminate. Qed.

Section LastProofs.
Context {K I : Type}.
Variable equal : nat -> K -> K -> option bool.
Notation lop := (lop K I).
Notation lstate := (lstate K I).

Definition shape (g : option (nat * nat)) (e : nat) : last_accessed :=
  MkLast (option_map fst g) (option_map snd g) (is g) e.

Record told (h : list lop) (st : lstate) : Prop := {
  td_keys : length (l_keys st) = keys_made h;
  td_infos : length (l_infos st) = infos_made h;
  td_objs : length (l_objs st) = objs_made h;
  td_key : forall a, nth a (l_keys st) None = key_now h a;
  td_info : forall b, nth b (l_infos st) None = info_now h b;
  td_obj : forall x, x < objs_made h -> nth_error (l_objs st) x = Some (shape (given h x) (compares_with h x));
  td_none : forall x, objs_made h <= x -> given h x = None
}.

Lemma told_obj h st x : told h st ->
  nth_error (l_objs st) x = if exist_obj h x then Some (shape (given h x) (compares_with h x)) else None.
Proof.
  intros T. unfold exist_obj. destruct (Nat.ltb_spec x (objs_made h)) as [H|H].
  - apply (td_obj T); auto.
  - apply nth_error_None. rewrite (td_objs T). auto.
Qed.
Lemma given_exists h st x p : told h st -> given h x = Some p -> exist_obj h x = true.
Proof.
  intros T H. unfold exist_obj. apply Nat.ltb_lt. destruct (Nat.lt_ge_cases x (objs_made h)) as [L|L]; auto.
  rewrite (td_none T) in H by auto. discriminate.
Qed.

Ltac cmp := repeat match goal with
  | |- context [Nat.eqb ?a ?b] => destruct (Nat.eqb_spec a b); subst
  | H : context [Nat.eqb ?a ?b] |- _ => destruct (Nat.eqb_spec a b); subst
  end.

(** One step of each kind of change. *)
Definition quiet (q : lop) : bool :=
  match q with
  | LReadKey _ | LReadInfo _ | LValid _ | LKey _ | LInfo _ | LEq _ _ | LNe _ _ | LEqIt _ _ | LNeIt _ _ => true
  | _ => false
  end.
Lemma told_quiet h st q : told h st -> quiet q = true -> told (q :: h) st.
Proof. intros [] Q. destruct q; try discriminate Q; constructor; auto. Qed.

Lemma told_new h st q g e : told h st ->
  (forall x, given (q :: h) x = if Nat.eqb x (objs_made h) then g else given h x) ->
  (forall x, compares_with (q :: h) x = if Nat.eqb x (objs_made h) then e else compares_with h x) ->
  keys_made (q :: h) = keys_made h -> infos_made (q :: h) = infos_made h -> objs_made (q :: h) = S (objs_made h) ->
  (forall a, key_now (q :: h) a = key_now h a) -> (forall b, info_now (q :: h) b = info_now h b) ->
  told (q :: h) (MkLst (l_keys st) (l_infos st) (l_objs st ++ [shape g e])).
Proof.
  intros T G C K1 I1 O1 KN IN. constructor; simpl l_keys; simpl l_infos; simpl l_objs.
  - rewrite K1. apply (td_keys T).
  - rewrite I1. apply (td_infos T).
  - rewrite app_length, O1, (td_objs T). simpl. lia.
  - intros a. rewrite KN. apply (td_key T).
  - intros b. rewrite IN. apply (td_info T).
  - intros x Hx. rewrite O1 in Hx. rewrite nth_error_snoc, (td_objs T), G, C. cmp; auto. apply (td_obj T). lia.
  - intros x Hx. rewrite O1 in Hx. rewrite G. cmp; [lia|]. apply (td_none T). lia.
Qed.

Lemma told_put h st q y g e : told h st -> y < objs_made h ->
  (forall x, given (q :: h) x = if Nat.eqb x y then g else given h x) ->
  (forall x, compares_with (q :: h) x = if Nat.eqb x y then e else compares_with h x) ->
  keys_made (q :: h) = keys_made h -> infos_made (q :: h) = infos_made h -> objs_made (q :: h) = objs_made h ->
  (forall a, key_now (q :: h) a = key_now h a) -> (forall b, info_now (q :: h) b = info_now h b) ->
  told (q :: h) (MkLst (l_keys st) (l_infos st) (put (l_objs st) y (shape g e))).
Proof.
  intros T Hy G C K1 I1 O1 KN IN. constructor; simpl l_keys; simpl l_infos; simpl l_objs.
  - rewrite K1. apply (td_keys T).
  - rewrite I1. apply (td_infos T).
  - rewrite put_length, O1. apply (td_objs T).
  - intros a. rewrite KN. apply (td_key T).
  - intros b. rewrite IN. apply (td_info T).
  - intros x Hx. rewrite O1 in Hx. rewrite nth_error_put, G, C by (rewrite (td_objs T); auto).
    cmp; auto. apply (td_obj T). auto.
  - intros x Hx. rewrite O1 in Hx. rewrite G. cmp; [lia|]. apply (td_none T). auto.
Qed.

Lemma told_key h st q a v : told h st -> a < keys_made h ->
  (forall x, given (q :: h) x = given h x) -> (forall x, compares_with (q :: h) x = compares_with h x) ->
  keys_made (q :: h) = keys_made h -> infos_made (q :: h) = infos_made h -> objs_made (q :: h) = objs_made h ->
  (forall a', key_now (q :: h) a' = if Nat.eqb a' a then v else key_now h a') -> (forall b, info_now (q :: h) b = info_now h b) ->
  told (q :: h) (MkLst (put (l_keys st) a v) (l_infos st) (l_objs st)).
Proof.
  intros T Ha G C K1 I1 O1 KN IN. constructor; simpl l_keys; simpl l_infos; simpl l_objs.
  - rewrite put_length, K1. apply (td_keys T).
  - rewrite I1. apply (td_infos T).
  - rewrite O1. apply (td_objs T).
  - intros a'. rewrite KN, nth_put by (rewrite (td_keys T); auto). rewrite (td_key T). reflexivity.
  - intros b. rewrite IN. apply (td_info T).
  - intros x Hx. rewrite O1 in Hx. rewrite G, C. apply (td_obj T). auto.
  - intros x Hx. rewrite O1 in Hx. rewrite G. apply (td_none T). auto.
Qed.
Lemma told_info h st q b v : told h st -> b < infos_made h ->
  (forall x, given (q :: h) x = given h x) -> (forall x, compares_with (q :: h) x = compares_with h x) ->
  keys_made (q :: h) = keys_made h -> infos_made (q :: h) = infos_made h -> objs_made (q :: h) = objs_made h ->
  (forall a, key_now (q :: h) a = key_now h a) -> (forall b', info_now (q :: h) b' = if Nat.eqb b' b then v else info_now h b') ->
  told (q :: h) (MkLst (l_keys st) (put (l_infos st) b v) (l_objs st)).
Proof.
  intros T Hb G C K1 I1 O1 KN IN. constructor; simpl l_keys; simpl l_infos; simpl l_objs.
  - rewrite K1. apply (td_keys T).
  - rewrite put_length, I1. apply (td_infos T).
  - rewrite O1. apply (td_objs T).
  - intros a. rewrite KN. apply (td_key T).
  - intros b'. rewrite IN, nth_put by (rewrite (td_infos T); auto). rewrite (td_info T). reflexivity.
  - intros x Hx. rewrite O1 in Hx. rewrite G, C. apply (td_obj T). auto.
  - intros x Hx. rewrite O1 in Hx. rewrite G. apply (td_none T). auto.
Qed.

Lemma key_made h st a v : told h st -> key_now h a = Some v -> a < keys_made h.
Proof. intros T H. rewrite <- (td_key T) in H. apply nth_some in H. rewrite (td_keys T) in H. auto. Qed.
Lemma info_made h st b v : told h st -> info_now h b = Some v -> b < infos_made h.
Proof. intros T H. rewrite <- (td_info T) in H. apply nth_some in H. rewrite (td_infos T) in H. auto. Qed.
Lemma obj_made h x : exist_obj h x = true -> x < objs_made (K := K) (I := I) h.
Proof. apply Nat.ltb_lt. Qed.

(** The effect of a step. *)
Definition step_ok h q st : Prop :=
  match lexec equal q st with
  | Val r st' => foretold equal h q = Tells r /\ told (q :: h) st'
  | Exc _ _ => False
  | x => foretold equal h q = ends x
  end.

Ltac open_all := unfold step_ok, lexec, unit_of, bool_of, la_eq_it, la_ne, la_ne_it, la_eq, la_the_key, la_the_info, la_give,
  la_from, la_copy, la_assign, la_swap, la_invalidate, la_is_valid, la_default, la_construct, target, write_info, write_key,
  read_key, read_info, put_key, put_info, get_obj, put_obj, new_obj, LastObj.deref, noexcept, bind, ret, modify, undef, throw.
Ltac known T := repeat (rewrite ?(td_key T), ?(td_info T), ?(told_obj _ T); simpl).


Lemma get_val h st x : told h st ->
  get_obj x st = if exist_obj h x then Val (shape (given h x) (compares_with h x)) st else Undef DeadObject.
Proof. intros T. unfold get_obj. rewrite (told_obj _ T). destruct (exist_obj h x); reflexivity. Qed.
Lemma key_val h st a : told h st ->
  read_key a st = match key_now h a with Some (k, _) => Val k st | None => Undef DanglingReference end.
Proof. intros T. unfold read_key. rewrite (td_key T). reflexivity. Qed.
Lemma info_val h st b : told h st ->
  read_info b st = match info_now h b with Some i => Val i st | None => Undef DanglingReference end.
Proof. intros T. unfold read_info. rewrite (td_info T). reflexivity. Qed.
Lemma the_key_val h st x : told h st ->
  la_the_key x st = match given h x with
                    | Some (a, _) => Val a st
                    | None => if exist_obj h x then Undef AssertFailed else Undef DeadObject
                    end.
Proof.
  intros T. unfold la_the_key, bind. rewrite (get_val _ T). destruct (given h x) as [(a, b)|] eqn:G.
  - rewrite (given_exists _ T G). reflexivity.
  - destruct (exist_obj h x); reflexivity.
Qed.
Lemma the_info_val h st x : told h st ->
  la_the_info x st = match given h x with
                    | Some (_, b) => Val b st
                    | None => if exist_obj h x then Undef AssertFailed else Undef DeadObject
                    end.
Proof.
  intros T. unfold la_the_info, bind. rewrite (get_val _ T). destruct (given h x) as [(a, b)|] eqn:G.
  - rewrite (given_exists _ T G). reflexivity.
  - destruct (exist_obj h x); reflexivity.
Qed.
Lemma eq_val h st x k : told h st ->
  la_eq equal x k st =
    if exist_obj h x then
      match given h x with
      | None => Val false st
      | Some (a, _) =>
          match key_now h a with
          | Some (k', _) => match equal (compares_with h x) k k' with Some b => Val b st | None => Term (UserExn 0) end
          | None => Undef DanglingReference
          end
      end
    else Undef DeadObject.
Proof.
  intros T. unfold la_eq, noexcept, bind. rewrite (get_val _ T).
  destruct (exist_obj h x) eqn:X; [|reflexivity].
  destruct (given h x) as [(a, b)|] eqn:G; simpl; [|reflexivity].
  rewrite (the_key_val _ T), G, (key_val _ T). destruct (key_now h a) as [(k', c)|]; [|reflexivity].
  destruct (equal (compares_with h x) k k'); reflexivity.
Qed.
Lemma eq_it_val h st x it : told h st ->
  la_eq_it equal x it st =
    if exist_obj h x then
      match it with
      | IEnd => Undef PastTheEnd
      | IAt a _ => match key_now h a with Some (k, _) => la_eq equal x k st | None => Undef DanglingReference end
      end
    else Undef DeadObject.
Proof.
  intros T. unfold la_eq_it, noexcept, bind. rewrite (get_val _ T).
  destruct (exist_obj h x) eqn:X; [|reflexivity]. destruct it as [|a b]; [reflexivity|].
  rewrite (key_val _ T). destruct (key_now h a) as [(k, c)|]; [|reflexivity].
  rewrite (eq_val _ _ T), X. destruct (given h x) as [(a', b')|]; [|reflexivity].
  destruct (key_now h a') as [(k', c')|]; [|reflexivity]. destruct (equal (compares_with h x) k k'); reflexivity.
Qed.
Lemma target_val h st it : told h st ->
  match target it st with
  | Val p st' => st' = st /\ good_iter h it = true /\ it = IAt (fst p) (snd p)
  | Undef _ => good_iter h it = false
  | _ => False
  end.
Proof.
  intros T. unfold target, bind. destruct it as [|a b]; simpl; [reflexivity|].
  rewrite (key_val _ T). unfold exist_key, exist_info. destruct (key_now h a) as [(k, c)|]; simpl; [|reflexivity].
  rewrite (info_val _ T). destruct (info_now h b); simpl; auto.
Qed.

Lemma step_quiet h q st : told h st -> quiet q = true -> step_ok h q st.
Proof.
  intros T Q. pose proof (told_quiet _ T Q) as T'. unfold step_ok.
  destruct q as [| | | |a|b| | | | | | | | | |x|x|x| | |x k|x k|x it|x it]; try discriminate Q; clear Q; simpl.
  - unfold bind. rewrite (key_val _ T). destruct (key_now h a) as [(k, c)|]; simpl; auto.
  - unfold bind. rewrite (info_val _ T). destruct (info_now h b) as [i|]; simpl; auto.
  - unfold bool_of, la_is_valid, bind. rewrite (get_val _ T). destruct (exist_obj h x); simpl; auto.
  - unfold bind. rewrite (the_key_val _ T). destruct (given h x) as [(a, b)|] eqn:G; simpl.
    + rewrite (key_val _ T). destruct (key_now h a) as [(k, c)|]; simpl; auto.
    + destruct (exist_obj h x); simpl; auto.
  - unfold bind. rewrite (the_info_val _ T). destruct (given h x) as [(a, b)|] eqn:G; simpl.
    + rewrite (info_val _ T). destruct (info_now h b) as [i|]; simpl; auto.
    + destruct (exist_obj h x); simpl; auto.
  - unfold bool_of, bind, versus. rewrite (eq_val _ _ T). destruct (exist_obj h x); simpl; auto.
    destruct (given h x) as [(a, b)|]; simpl; auto. destruct (key_now h a) as [(k', c)|]; simpl; auto.
    destruct (equal (compares_with h x) k k') as [[]|]; simpl; auto.
  - unfold bool_of, la_ne, noexcept, bind, versus. rewrite (eq_val _ _ T). destruct (exist_obj h x); simpl; auto.
    destruct (given h x) as [(a, b)|]; simpl; auto. destruct (key_now h a) as [(k', c)|]; simpl; auto.
    destruct (equal (compares_with h x) k k') as [[]|]; simpl; auto.
  - unfold bool_of, bind, versus_iter, versus. rewrite (eq_it_val _ _ T). destruct (exist_obj h x) eqn:X; simpl; auto.
    destruct it as [|a0 b0]; simpl; auto. destruct (key_now h a0) as [(k, c0)|]; simpl; auto. rewrite (eq_val _ _ T), X.
    destruct (given h x) as [(a, b)|]; simpl; auto. destruct (key_now h a) as [(k', c)|]; simpl; auto.
    destruct (equal (compares_with h x) k k') as [[]|]; simpl; auto.
  - unfold bool_of, la_ne_it, noexcept, bind, versus_iter, versus. rewrite (eq_it_val _ _ T). destruct (exist_obj h x) eqn:X; simpl; auto.
    destruct it as [|a0 b0]; simpl; auto. destruct (key_now h a0) as [(k, c0)|]; simpl; auto. rewrite (eq_val _ _ T), X.
    destruct (given h x) as [(a, b)|]; simpl; auto. destruct (key_now h a) as [(k', c)|]; simpl; auto.
    destruct (equal (compares_with h x) k k') as [[]|]; simpl; auto.
Qed.

Ltac facts := try reflexivity; try (intros ?; simpl; repeat match goal with |- context [Nat.eqb ?a ?b] => destruct (Nat.eqb_spec a b); subst end; auto; fail).
Ltac num := match goal with T : told ?h ?st |- _ = Tells (LNum (length _)) => rewrite ?(td_objs T), ?(td_keys T), ?(td_infos T); reflexivity end.

Lemma told_new_key h st k c : told h st ->
  told (LNewKey k c :: h) (MkLst (l_keys st ++ [Some (k, c)]) (l_infos st) (l_objs st)).
Proof.
  intros T. constructor; simpl.
  - rewrite app_length, (td_keys T). unfold keys_made, counts. simpl. lia.
  - apply (td_infos T).
  - apply (td_objs T).
  - intros a. rewrite nth_snoc, (td_keys T), (td_key T). reflexivity.
  - apply (td_info T).
  - apply (td_obj T).
  - apply (td_none T).
Qed.
Lemma told_new_info h st i : told h st ->
  told (LNewInfo i :: h) (MkLst (l_keys st) (l_infos st ++ [Some i]) (l_objs st)).
Proof.
  intros T. constructor; simpl.
  - apply (td_keys T).
  - rewrite app_length, (td_infos T). unfold infos_made, counts. simpl. lia.
  - apply (td_objs T).
  - apply (td_key T).
  - intros a. rewrite nth_snoc, (td_infos T), (td_info T). reflexivity.
  - apply (td_obj T).
  - apply (td_none T).
Qed.
Lemma told_swap h st x y : told h st -> x < objs_made h -> y < objs_made h ->
  told (LSwap x y :: h) (MkLst (l_keys st) (l_infos st)
    (put (put (l_objs st) x (shape (given h y) (compares_with h y))) y (shape (given h x) (compares_with h x)))).
Proof.
  intros T Hx Hy. constructor; simpl.
  - apply (td_keys T).
  - apply (td_infos T).
  - rewrite !put_length. apply (td_objs T).
  - apply (td_key T).
  - apply (td_info T).
  - change (objs_made (LSwap x y :: h)) with (objs_made h). intros z Hz.
    rewrite nth_error_put, nth_error_put by (rewrite ?put_length, (td_objs T); auto).
    cmp; auto. apply (td_obj T). auto.
  - change (objs_made (LSwap x y :: h)) with (objs_made h). intros z Hz. cmp; try lia. apply (td_none T). auto.
Qed.

Lemma step_true h q st : told h st -> step_ok h q st.
Proof.
  intros T. destruct (quiet q) eqn:Q; [apply step_quiet; auto|]. unfold step_ok.
  destruct q as [k c|i|a|b| | |b i|e|a b e|it e|x|x y|x it|x y|x| | | |x k|x i| | | |]; try discriminate Q; clear Q; simpl.
  - split; [num|apply told_new_key; auto].
  - split; [num|apply told_new_info; auto].
  - unfold unit_of, bind. rewrite (key_val _ T). unfold exist_key. destruct (key_now h a) as [(k, c)|] eqn:A; simpl; auto.
    split; auto. apply (@told_key h st _ _ _ T); facts. apply (key_made _ T A).
  - unfold unit_of, bind. rewrite (info_val _ T). unfold exist_info. destruct (info_now h b) as [i|] eqn:A; simpl; auto.
    split; auto. apply (@told_info h st _ _ _ T); facts. apply (info_made _ T A).
  - unfold unit_of, write_info, bind. rewrite (info_val _ T). unfold exist_info. destruct (info_now h b) as [j|] eqn:A; simpl; auto.
    split; auto. apply (@told_info h st _ _ _ T); facts. apply (info_made _ T A).
  - split; [num|]. apply (@told_new h st (LNew e) None e T); facts. intros x. simpl. cmp; auto. apply (td_none T). auto.
  - unfold bind. rewrite (key_val _ T). unfold exist_key, exist_info. destruct (key_now h a) as [(k, c)|] eqn:A; simpl; auto.
    rewrite (info_val _ T). destruct (info_now h b) as [j|] eqn:B; simpl; auto.
    split; [num|]. apply (@told_new h st (LOf a b e) (Some (a, b)) e T); facts.
  - unfold la_from, bind. pose proof (target_val it T) as X. destruct (target it st) as [(a, b) st'| |u|]; try contradiction.
    + destruct X as (-> & G & ->). rewrite G. simpl.
      split; [num|]. apply (@told_new h st (LFrom (IAt a b) e) (Some (a, b)) e T); facts.
    + rewrite X. reflexivity.
  - unfold la_copy, bind. rewrite (get_val _ T). destruct (exist_obj h x) eqn:X; simpl; auto.
    split; [num|]. apply (@told_new h st (LCopy x) (given h x) (compares_with h x) T); facts.
  - unfold unit_of, la_assign, bind. rewrite (get_val _ T). destruct (exist_obj h x) eqn:X; simpl; auto.
    rewrite (get_val _ T). destruct (exist_obj h y) eqn:Y; simpl; auto.
    split; auto. apply (@told_put h st (LAssign x y) x (given h y) (compares_with h y) T); facts. apply obj_made; auto.
  - unfold unit_of, la_give, bind. rewrite (get_val _ T). destruct (exist_obj h x) eqn:X; simpl; auto.
    pose proof (target_val it T) as Y. destruct (target it st) as [(a, b) st'| |u|]; try contradiction.
    + destruct Y as (-> & G & ->). rewrite G. simpl.
      split; auto. apply (@told_put h st (LGive x (IAt a b)) x (Some (a, b)) (compares_with h x) T); facts. apply obj_made; auto.
    + rewrite Y. reflexivity.
  - unfold unit_of, la_swap, bind. rewrite (get_val _ T). destruct (exist_obj h x) eqn:X; simpl; auto.
    rewrite (get_val _ T). destruct (exist_obj h y) eqn:Y; simpl; auto.
    split; auto. apply told_swap; auto; apply obj_made; auto.
  - unfold unit_of, la_invalidate, bind. rewrite (get_val _ T). destruct (exist_obj h x) eqn:X; simpl; auto.
    split; auto. apply (@told_put h st (LInvalidate x) x None (compares_with h x) T); facts. apply obj_made; auto.
  - unfold unit_of, bind. rewrite (the_key_val _ T). destruct (given h x) as [(a, b)|] eqn:G; simpl.
    + unfold write_key. rewrite (td_key T). destruct (key_now h a) as [(k', [])|] eqn:A; simpl; auto.
      split; auto. apply (@told_key h st _ _ _ T); facts. { apply (key_made _ T A). } intros a'. simpl. rewrite G. reflexivity.
    + destruct (exist_obj h x); reflexivity.
  - unfold unit_of, bind. rewrite (the_info_val _ T). destruct (given h x) as [(a, b)|] eqn:G; simpl.
    + unfold write_info, bind. rewrite (info_val _ T). unfold exist_info. destruct (info_now h b) as [j|] eqn:A; simpl; auto.
      split; auto. apply (@told_info h st _ _ _ T); facts. { apply (info_made _ T A). } intros b'. simpl. rewrite G. reflexivity.
    + destruct (exist_obj h x); reflexivity.
Qed.

Lemma told_init : told [] (@init_lstate K I).
Proof.
  constructor; auto; try (intros []; reflexivity). intros x H. unfold objs_made, counts in H. simpl in H. lia.
Qed.
Lemma told_run l : forall h st outs st', told h st -> lrun equal l st = Some (outs, st') -> told (rev l ++ h) st'.
Proof.
  induction l as [|q l IH]; simpl; intros h st outs st' T H; [injection H as _ <-; auto|].
  pose proof (step_true q T) as S. unfold step_ok in S. destruct (lexec equal q st) as [r st1| | |]; try discriminate.
  destruct (lrun equal l st1) as [(o, s2)|] eqn:R; [|discriminate]. simpl in H. injection H as _ <-.
  rewrite <- app_assoc. simpl. eapply IH; [apply S|eauto].
Qed.
Lemma told_after l outs st : lrun equal l (@init_lstate K I) = Some (outs, st) -> told (rev l) st.
Proof. intros H. pose proof (told_run l told_init H) as T. rewrite app_nil_r in T. auto. Qed.

Theorem last_foretold l outs st q : lrun equal l (@init_lstate K I) = Some (outs, st) ->
  ends (lexec equal q st) = foretold equal (rev l) q.
Proof.
  intros H. pose proof (step_true q (told_after _ H)) as S. unfold step_ok in S.
  destruct (lexec equal q st); simpl in *; auto; try contradiction. symmetry. apply S.
Qed.
End LastProofs.
