(** What is left of a vector whose elements were moved into a cache (C77). *)
From Coq Require Import List Arith ZArith Bool Lia.
Import ListNotations.
From Verif Require Import Monad Types Model Api Spec Lists Effects Settings Refs SpecRefs FillMore.
Set Implicit Arguments.
Unset Strict Implicit.
Local Open Scope cpp_scope.

Section VecProofs.
Context {K V : Type}.
Variable E : env K V.
Variables (husk : V -> V) (khusk : K -> K).
Notation world := (world K V).
Notation rexec := (rexec E husk khusk).
Notation moved := (fun p : K * V => (khusk (fst p), husk (snd p))).

Lemma insert_vec_eq c n l : forall x w cnt acc, slot (w_caches w) c = Some x -> c_cap x = n ->
  foldM (fun acc p =>
    cap <- capacity c;;
    r <- emplace E c (fst p) (snd p);;
    ret (if fst r then S (fst acc) else fst acc,
         snd acc ++ [if Nat.eqb cap 0 then p else (khusk (fst p), husk (snd p))])) l (cnt, acc) w =
  giving (fun m => (m, acc ++ if Nat.eqb n 0 then l else map moved l))
    (foldM (fun cnt p => r <- emplace E c (fst p) (snd p);; ret (if fst r then S cnt else cnt)) l cnt w).
Proof.
  induction l as [|p l IH]; intros x w cnt acc Hx Hn; cbn [foldM].
  - simpl. destruct (n =? 0); rewrite app_nil_r; reflexivity.
  - pose proof (k_emplace E (fun n _ _ _ => n) (fun _ => false) c (fst p) (snd p) w) as X.
    assert (L : forall m : nat * list (K * V), (cap <- capacity c;;
        r <- emplace E c (fst p) (snd p);;
        ret (if fst r then S (fst m) else fst m, snd m ++ [if Nat.eqb cap 0 then p else moved p])) w =
        giving (fun r : bool * uiter => (if fst r then S (fst m) else fst m, snd m ++ [if Nat.eqb n 0 then p else moved p]))
          (emplace E c (fst p) (snd p) w)).
    { intros m. unfold capacity, bind, get_cache. rewrite Hx. simpl. rewrite Hn.
      destruct (emplace E c (fst p) (snd p) w); auto. }
    assert (B : forall A A' (m : M world A) (f : A -> M world A'), bind m f w =
      match m w with Val a w1 => f a w1 | Exc e w1 => Exc e w1 | Undef u => Undef u | Term e => Term e end) by auto.
    rewrite (B _ _ (cap <- capacity c;; _)), L.
    rewrite (B _ _ (r <- emplace E c (fst p) (snd p);; ret (if fst r then S cnt else cnt))).
    rewrite (B _ _ (emplace E c (fst p) (snd p))).
    destruct (emplace E c (fst p) (snd p) w) as [r w1| | |]; auto.
    destruct (X c x Hx eq_refl) as (y & Hy & Q). unfold setting in Q. cbn [giving].
    rewrite (IH y w1 _ _ Hy) by congruence. change (ret (S := world) (if fst r then S cnt else cnt) w1) with (Val (S := world) (if fst r then S cnt else cnt) w1).
    cbn [fst snd]. set (q := foldM _ _ _ _). destruct q; auto. simpl. rewrite <- app_assoc.
    destruct (n =? 0); auto.
Qed.

Theorem insert_vec_result w c l n : capacity_is E c w n ->
  rexec (PInsertVec c l) w =
  giving (fun _ => REnts (if Nat.eqb n 0 then l else map moved l)) (exec E (InsertMove c l) w).
Proof.
  unfold capacity_is, exec, Refs.rexec. cbn [rwell_formed well_formed]. unfold alive.
  destruct (slot (w_caches w) c) as [x|] eqn:Hx; [|discriminate]. cbn [body rbody].
  unfold capacity, bind at 1 2, get_cache at 1. rewrite Hx. intros Q. inversion Q; subst n. clear Q.
  unfold bind, insert_vec, insert_move. rewrite (insert_vec_eq l 0 [] Hx eq_refl).
  destruct (foldM _ l 0 w); auto.
Qed.

Theorem assign_vec_result w c l : alive w c = true ->
  rexec (PAssignVec c l) w = giving (fun _ => REnts (map moved l)) (exec E (AssignMove c l) w).
Proof.
  intros A. unfold exec, Refs.rexec. cbn [rwell_formed well_formed rbody body]. rewrite A.
  unfold bind at 1 2. unfold assign_vec, assign_move. unfold bind at 1 2 3.
  destruct (clear_and_increase_capacity c (length l) w) as [u w1| | |] eqn:X; auto.
  destruct (clear_inc_cap X) as (y & Hy & Ly).
  unfold bind at 1. unfold insert_vec, insert_move. rewrite (insert_vec_eq l 0 [] Hy eq_refl).
  destruct (foldM _ l 0 w1); auto. simpl.
  destruct (Nat.eqb_spec (c_cap y) 0) as [Z|Z]; auto. destruct l; auto. simpl in Ly. lia.
Qed.
End VecProofs.
