(** Searches made through iterators: proofs. *)
From Coq Require Import List Arith ZArith Bool Permutation Lia.
Import ListNotations.
From Verif Require Import Monad Types Model Api IterObj Spec SpecTimed Ref Lists SimBase SimRel SimOps SimIns SimErase SimIter SimNew SimObs SimExec RefEval SimRun LruProofs CallProofs LruMore Flat Global Safe Frame SpecStats StatProofs TimedTrack NodeTrack SpecIter IterProofs SpecCursor CursorProofs CursorRun IterSearches SpecIterSearches.
Set Implicit Arguments.
Unset Strict Implicit.
Local Open Scope cpp_scope.

Section IterSearchProofs.
Context {K V : Type}.
Variable E : env K V.
Hypothesis G : good E.
Notation world := (world K V).
Notation aworld := (aworld K V).
Notation cell := (@cell K V).
Notation cursor := (@cursor K).
Notation istate := (istate K V).
Notation stands := (stands E).
Notation tracked := (tracked E).
Implicit Types (w : world) (aw : aworld) (cl : cell) (cu : cursor) (cs : list cursor) (st : istate) (en : option mptr).

(** ** Which iterators hold an entry *)
Definition warm (v : ivar) : bool :=
  match v with
  | VU it => match ui_entry it with Some _ => true | None => false end
  | VO it => match oi_entry it with Some _ => true | None => false end
  | VNull _ => false
  end.
Notation warms := (map warm).

Lemma warm_bare v : warm (bare v) = false.
Proof. destruct v; auto. Qed.
Lemma nth_warm vs i v : nth_error vs i = Some v -> nth i (warms vs) false = warm v.
Proof. revert i. induction vs as [|x l IH]; intros [|i]; simpl; try discriminate; [congruence|auto]. Qed.
Lemma warm_set vs i v : warms (set_nth i v vs) = set_nth i (warm v) (warms vs).
Proof. revert i. induction vs as [|x l IH]; intros [|i]; simpl; auto. rewrite IH; auto. Qed.
Lemma warm_next v w v' w' : i_next v w = Val v' w' -> warm v' = false.
Proof.
  destruct v as [it|it|b]; simpl; unfold bind.
  - destruct (u_next it w) as [it' w1|? ?|?|?] eqn:X; try discriminate. intros H; inversion H; subst. simpl.
    unfold u_next, bind, ret, undef in X. destruct (ui_pos it) as [?|i]; try discriminate.
    destruct (deref_it i w); try discriminate. destruct (get_store _ _); try discriminate.
    destruct (next_after _ _); inversion X; subst; auto.
  - destruct (o_next it w) as [it' w1|? ?|?|?] eqn:X; try discriminate. intros H; inversion H; subst. simpl.
    unfold o_next, bind, ret, undef in X. destruct (oi_pos it) as [?|q]; try discriminate.
    destruct (list_deref q w); try discriminate. destruct (get_store _ _); try discriminate.
    destruct (next_after _ _); inversion X; subst; auto.
  - discriminate.
Qed.
Lemma warm_prev v w v' w' : i_prev v w = Val v' w' -> warm v' = false.
Proof.
  destruct v as [it|it|b]; simpl; unfold bind; try discriminate.
  destruct (o_prev it w) as [it' w1|? ?|?|?] eqn:X; try discriminate. intros H; inversion H; subst. simpl.
  unfold o_prev, bind, ret, undef in X. destruct (oi_pos it) as [?|q].
  - destruct (own c w) as [[] ?|? ?|?|?]; try discriminate. destruct (rev _) as [|[]]; inversion X; subst; auto.
  - destruct (list_deref q w); try discriminate. destruct (get_store _ _); try discriminate.
    destruct (next_after _ _); inversion X; subst; auto.
Qed.
Lemma set_nth_same {A} (l : list A) i a : nth_error l i = Some a -> set_nth i a l = l.
Proof. revert i. induction l as [|x l IH]; intros [|i]; simpl; try discriminate; intros H; [congruence|]. rewrite IH; auto. Qed.
Lemma warm_same vs i v b : nth_error vs i = Some v -> warm v = b -> set_nth i b (warms vs) = warms vs.
Proof. intros N <-. rewrite <- warm_set. rewrite (set_nth_same N). reflexivity. Qed.

(** Evaluate a step whose variable is known. *)
Ltac steps D := unfold idone, iexec, with_var, with_alive, bind, lift, new_var, put_var, modify, ret, throw, undef in D; cbn [i_vars i_world] in D.
Ltac cut D := repeat match type of D with
  | context [match ?x with _ => _ end] => let Q := fresh "Q" in destruct x eqn:Q; cbn [i_vars i_world] in *; try discriminate D
  end.
Ltac fin D := inversion D; subst; clear D; cbn [i_vars]; rewrite ?map_app, ?warm_set; cbn [map]; rewrite ?warm_bare.

Lemma from_move it w o w' : o_from_u_move it w = Val o w' -> warm (VO o) = warm (VU it).
Proof.
  unfold o_from_u_move, bind. destruct (o_from_u it w); try discriminate. intros H; inversion H; subst. reflexivity.
Qed.
Lemma warm_u_deref it w p it' w' : u_deref it w = Val (p, it') w' -> warm (VU it') = true.
Proof.
  unfold u_deref, bind, ret, undef. destruct (ui_entry it) eqn:Q.
  - intros H; inversion H; subst. simpl. rewrite Q. auto.
  - destruct (ui_pos it); try discriminate. destruct (deref_it i w); try discriminate. intros H; inversion H; subst. auto.
Qed.
Lemma warm_o_deref it w p it' w' : o_deref E it w = Val (p, it') w' -> warm (VO it') = true.
Proof.
  unfold o_deref, bind, ret, undef. destruct (oi_entry it) eqn:Q.
  - intros H; inversion H; subst. simpl. rewrite Q. auto.
  - destruct (oi_pos it); try discriminate. destruct (list_deref q w); try discriminate.
    destruct (deref _ _); try discriminate. destruct (map_find _ _ _ _) as [[]| | |]; try discriminate.
    intros H; inversion H; subst. auto.
Qed.
Lemma warm_i_deref i v st p st' : i_deref E i v st = Val p st' ->
  warms (i_vars st') = set_nth i true (warms (i_vars st)).
Proof.
  unfold i_deref, bind, lift, put_var, modify, ret. destruct v as [it|it|b]; try discriminate.
  - destruct (u_deref it (i_world st)) as [[p0 it'] w'|? ?|?|?] eqn:X; try discriminate.
    intros H; inversion H; subst. simpl. rewrite warm_set, (warm_u_deref X). auto.
  - destruct (o_deref E it (i_world st)) as [[p0 it'] w'|? ?|?|?] eqn:X; try discriminate.
    intros H; inversion H; subst. simpl. rewrite warm_set, (warm_o_deref X). auto.
Qed.

(** New iterators hold no entry. *)
Ltac uit_cut := repeat match goal with
  | H : Val _ _ = Val _ _ |- _ => inversion H; subst; clear H
  | H : match ?x with _ => _ end = Val _ _ |- _ => destruct x; try discriminate H
  | H : (match ?x with _ => _ end) _ = Val _ _ |- _ => destruct x; try discriminate H
  | H : (if ?x then _ else _) _ = Val _ _ |- _ => destruct x; try discriminate H
  | H : context [let '(_, _) := ?x in _] |- _ => destruct x
  end; try reflexivity.
Lemma warm_find c k w it w' : find E c k w = Val it w' -> warm (VU it) = false.
Proof. unfold find, bind, ret, uiter_of, unordered_end. intros H. uit_cut. Qed.
Lemma warm_insert c k v w b it w' : insert E c k v w = Val (b, it) w' -> warm (VU it) = false.
Proof. unfold insert, bind, ret, undef, uiter_of, unordered_end. intros H. uit_cut. Qed.
Lemma warm_emplace c k v w b it w' : emplace E c k v w = Val (b, it) w' -> warm (VU it) = false.
Proof. unfold emplace, bind, ret, undef, uiter_of, unordered_end. intros H. uit_cut. Qed.

(** Past a function on the world: the variables stay. *)
Lemma lift_vars {A} (m : M world A) st : match lift m st with
  | Val _ st' | Exc _ st' => i_vars st' = i_vars st | _ => True end.
Proof. unfold lift. destruct (m (i_world st)); auto. Qed.

Lemma entry_warm i vs cs w aw v cu : rel E w aw -> Forall2 (stands w) vs cs -> nth_error cs i = Some cu ->
  nth_error vs i = Some v -> stands w v cu -> stays cu ->
  match i_entry E i v (MkI w vs) with
  | Val _ st' => warms (i_vars st') = match cu_mark cu with AtKey _ => set_nth i true (warms vs) | _ => warms vs end
  | Exc _ st' => warms (i_vars st') = match cu_mark cu with
      | AtKey _ => if cu_ord cu then warms vs else set_nth i true (warms vs) | _ => warms vs end
  | _ => True
  end.
Proof.
  intros R F N NV S T. destruct S as [v b c H|c H|c H|k c r s cl en L H|k c r s cl en L H]; [now elim T| | | |];
    cbn [cu_mark cu_ord].
  - unfold i_entry, bind, lift. cbn [i_world i_vars oi_cache oi_pos ordered_end]. unfold throw_if_invalid_o, bind.
    destruct (get_cache c w); simpl; auto. unfold o_eq. simpl. rewrite Nat.eqb_refl. reflexivity.
  - unfold i_entry. simpl. pose proof (lift_vars (u_entry E (unordered_end c)) (MkI w vs)) as LV.
    destruct (lift _ _); auto; rewrite LV; auto.
  - destruct (lives_cache L) as (x & Hx & _). unfold i_entry, bind, lift. cbn [i_world i_vars oi_cache].
    rewrite (check_o G L H Hx). unfold checked. destruct (late E x cl w); auto. cbn [i_world i_vars].
    rewrite (deref_o G (lives_same (wa_caches x w) (wa_stores x w) L) H).
    unfold put_var, modify, ret. cbn [i_world i_vars]. rewrite warm_set. reflexivity.
  - assert (Y : i_entry E i (VU (MkU c (UAt ((r, cl_m cl), s_epoch s)) en)) (MkI w vs) =
      ('(p, it') <- lift (u_deref (MkU c (UAt ((r, cl_m cl), s_epoch s)) en));; put_var i (VU it');;;
          lift (throw_if_invalid_u E c it');;; ret p) (MkI w vs)) by (destruct H as [-> | ->]; reflexivity).
    rewrite Y. unfold bind, lift at 1. cbn [i_world i_vars].
    rewrite (deref_u L H). unfold put_var, modify. cbn [i_world i_vars].
    match goal with |- context [lift ?m ?s] => pose proof (lift_vars m s) as LV; destruct (lift m s) end; auto;
      cbn [i_vars] in LV; unfold ret; rewrite LV, warm_set; auto.
Qed.

Lemma heat_ok s st cs r st' : tracked st cs -> iallowed E s (i_world st) cs -> idone E s st r st' ->
  warms (i_vars st') = heat s cs r (warms (i_vars st)).
Proof.
  destruct st as [w vs]. intros ((aw & R) & F) AL D. cbn [i_world i_vars] in *.
  destruct s; cbn [heat].
  - (* ICall *)
    destruct AL as (CF & oc & w' & C). destruct oc; simpl in C; destruct r; steps D; rewrite C in D; fin D; auto.
  - (* IBegin *)
    simpl in AL. destruct (cells_alive G R AL) as (x & s & a & l & At & Ha & Rp & CT).
    destruct ordered; [pose proof (ordered_begin_ev At (rp_store Rp)) as X|pose proof (unordered_begin_ev At) as X];
      destruct r; steps D; rewrite AL, X in D; fin D; auto.
  - (* IEnd *) simpl in AL. destruct ordered, r; steps D; rewrite AL in D; fin D; auto.
  - (* IFind *)
    simpl in AL. destruct (find_ok G k R AL) as (it & e & w' & aw' & X & R' & C & S).
    destruct r; steps D; rewrite AL, X in D; fin D. rewrite (warm_find X). reflexivity.
  - (* IInsert *)
    simpl in AL. destruct (insert_ok G k v R AL) as (b & it & e & w' & aw' & X & R' & C & S).
    destruct r; steps D; rewrite AL, X in D; fin D. rewrite (warm_insert X). reflexivity.
  - (* IEmplace *)
    simpl in AL. destruct (emplace_ok G k v R AL) as (b & it & e & w' & aw' & X & R' & C & S).
    destruct r; steps D; rewrite AL, X in D; fin D. rewrite (warm_emplace X). reflexivity.
  - (* INull *) destruct r; steps D; fin D; auto.
  - (* ICopy *)
    destruct AL as (cu & N & _). destruct (f2_nth F N) as (v & NV & S).
    destruct r; steps D; rewrite NV in D; fin D; auto.
  - (* IMove *)
    destruct AL as (cu & N & _). destruct (f2_nth F N) as (v & NV & S).
    destruct r; steps D; rewrite NV in D; inversion D; subst. cbn [i_vars].
    rewrite (set_nth_app _ _ NV), map_app, warm_set, warm_bare, (nth_warm NV). reflexivity.
  - (* IConst *)
    destruct AL as (cu & N & _). destruct (f2_nth F N) as (v & NV & S).
    destruct r; steps D; rewrite NV in D; fin D; auto.
  - (* IConstMove *)
    destruct AL as (cu & N & _). destruct (f2_nth F N) as (v & NV & S).
    destruct r; steps D; rewrite NV in D; inversion D; subst. cbn [i_vars].
    rewrite (set_nth_app _ _ NV), map_app, warm_set, warm_bare, (nth_warm NV). reflexivity.
  - (* IToOrdered *)
    destruct AL as (cu & N & O & T). destruct (f2_nth F N) as (v & NV & S).
    pose proof (stands_kind S) as SK. apply stands_bare in S. rewrite O in SK.
    assert (V0 : exists it, bare v = VU it).
    { destruct v; try discriminate SK; simpl; eauto. inversion S; subst. now elim T. }
    destruct V0 as (it & V0). pose proof (warm_bare v) as WB. rewrite V0 in S, WB. pose proof (convert_ok S T) as CO.
    destruct (cu_mark cu) as [k| |] eqn:MK; [|destruct r; steps D; rewrite NV, V0 in D; cbn [i_world i_vars] in D; rewrite CO in D; fin D; auto|now elim T].
    destruct CO as (o & CO & SO). pose proof (from_move CO) as W.
    destruct r; steps D; rewrite NV, V0 in D; cbn [i_world i_vars] in D; rewrite CO in D; fin D. rewrite W, WB. reflexivity.
  - (* IToOrderedMove *)
    destruct AL as (cu & N & O & T). destruct (f2_nth F N) as (v & NV & S).
    pose proof (stands_kind S) as SK. rewrite O in SK.
    assert (V0 : exists it, v = VU it).
    { destruct v; try discriminate SK; simpl; eauto. inversion S; subst. now elim T. }
    destruct V0 as (it & ->). pose proof (convert_ok S T) as CO.
    destruct (cu_mark cu) as [k| |] eqn:MK; [|destruct r; steps D; rewrite NV in D; cbn [i_world i_vars] in D; rewrite CO in D; fin D; auto|now elim T].
    destruct CO as (o & CO & SO). pose proof (from_move CO) as W.
    destruct r; steps D; rewrite NV in D; cbn [i_world i_vars] in D; rewrite CO in D; fin D. rewrite W, (nth_warm NV). reflexivity.
  - (* IAssign *)
    destruct AL as (cu & cv & N & N' & O). destruct (f2_nth F N) as (v & NV & S). destruct (f2_nth F N') as (v' & NV' & S').
    assert (SK : Bool.eqb (ordered_var v) (ordered_var v') = true).
    { rewrite (stands_kind S), (stands_kind S'), O. apply Bool.eqb_reflx. }
    destruct r; steps D; rewrite NV, NV', SK in D; simpl in D; destruct (i =? j); fin D; auto.
  - (* IAssignMove *)
    destruct AL as (cu & cv & N & N' & O). destruct (f2_nth F N) as (v & NV & S). destruct (f2_nth F N') as (v' & NV' & S').
    assert (SK : Bool.eqb (ordered_var v) (ordered_var v') = true).
    { rewrite (stands_kind S), (stands_kind S'), O. apply Bool.eqb_reflx. }
    rewrite N', <- (stands_kind S'), (nth_warm NV').
    destruct r; steps D; rewrite NV, NV', SK in D; simpl in D; destruct (i =? j), (ordered_var v'); fin D; auto.
  - (* ISwap *)
    destruct AL as (cu & cv & N & N' & O). destruct (f2_nth F N) as (v & NV & S). destruct (f2_nth F N') as (v' & NV' & S').
    assert (SK : Bool.eqb (ordered_var v) (ordered_var v') = true).
    { rewrite (stands_kind S), (stands_kind S'), O. apply Bool.eqb_reflx. }
    rewrite (nth_warm NV'), (nth_warm NV).
    destruct r; steps D; rewrite NV, NV', SK in D; simpl in D; fin D; auto.
  - (* INext *)
    destruct AL as (cu & N & k & MK). destruct (f2_nth F N) as (v & NV & S).
    destruct (next_ok G R S MK) as (v' & l & X & Q & S').
    destruct r; steps D; rewrite NV in D; cbn [i_world i_vars] in D; rewrite X in D; fin D. rewrite (warm_next X); auto.
  - (* IPrev *)
    destruct AL as (cu & N & O & l & CT & P). destruct (f2_nth F N) as (v & NV & S).
    destruct (prev_ok G R S O CT P) as (v' & X & S'). pose proof (stands_kind S) as SK. rewrite O in SK.
    destruct r; steps D; rewrite NV, SK in D; cbn [i_world i_vars] in D; rewrite X in D; fin D. rewrite (warm_prev X); auto.
  - (* IPostNext *)
    destruct AL as (cu & N & k & MK). destruct (f2_nth F N) as (v & NV & S).
    destruct (next_ok G R S MK) as (v' & l & X & Q & S').
    destruct r; steps D; rewrite NV in D; cbn [i_world i_vars] in D; rewrite X in D; inversion D; subst. cbn [i_vars].
    rewrite (set_nth_app _ _ NV), map_app, warm_set, (warm_next X). cbn [map]. rewrite warm_bare. reflexivity.
  - (* IPostPrev *)
    destruct AL as (cu & N & O & l & CT & P). destruct (f2_nth F N) as (v & NV & S).
    destruct (prev_ok G R S O CT P) as (v' & X & S'). pose proof (stands_kind S) as SK. rewrite O in SK.
    destruct r; steps D; rewrite NV, SK in D; cbn [i_world] in D; rewrite X in D; inversion D; subst. cbn [i_vars].
    rewrite (set_nth_app _ _ NV), map_app, warm_set, (warm_prev X). cbn [map]. rewrite warm_bare. reflexivity.
  - (* IRead *)
    destruct AL as (cu & N & k & MK). destruct (f2_nth F N) as (v & NV & S).
    destruct (deref_ok G i vs S MK) as (r0 & s & cl & v' & L & X & S'). pose proof (warm_i_deref X) as W.
    unfold idone, iexec, with_var, bind in D. cbn [i_vars] in D.
    destruct r; rewrite NV in D; cbn [i_world i_vars] in D; rewrite X in D; unfold lift, read_entry, bind in D; cbn [i_vars i_world] in D;
      rewrite (lives_deref L) in D; inversion D; subst; exact W.
  - (* IWrite *)
    destruct AL as (cu & N & k & MK). destruct (f2_nth F N) as (x & NV & S).
    destruct (deref_ok G i vs S MK) as (r0 & s & cl & v' & L & X & S'). pose proof (warm_i_deref X) as W.
    destruct (write_ok G v R L) as (w' & aw' & WR & R' & OW & SW).
    unfold idone, iexec, with_var, bind in D. cbn [i_vars] in D.
    destruct r; rewrite NV in D; cbn [i_world i_vars] in D; rewrite X in D; unfold lift in D; cbn [i_vars i_world] in D; rewrite WR in D; inversion D; subst; exact W.
  - (* IEntry *)
    destruct AL as (cu & N & T & LE). destruct (f2_nth F N) as (v & NV & S).
    pose proof (entry_warm R F N NV S T) as W. rewrite N.
    destruct (entry_ok G R F N S T LE) as (l & oc & w' & aw' & vs' & CT & C & R' & F' & M).
    unfold idone, iexec, with_var, bind in D. cbn [i_vars] in D. rewrite NV in D.
    destruct oc as [[]|x]; try easy.
    + destruct e as [e|]; [|easy]. destruct M as (p & n & M & DE & ->). rewrite M in *.
      unfold lift, read_entry, bind in D. cbn [i_world i_vars] in D. rewrite DE in D.
      destruct r; inversion D; subst. cbn [i_vars] in *. rewrite W. destruct (cu_mark cu); auto.
      simpl. rewrite orb_true_r. auto.
    + rewrite M in *. destruct r; inversion D; subst. cbn [i_vars] in *. rewrite W. destruct (cu_mark cu); auto.
      destruct (cu_ord cu); auto.
  - (* IKey *)
    destruct AL as (cu & N & T & LE). destruct (f2_nth F N) as (v & NV & S).
    pose proof (entry_warm R F N NV S T) as W. rewrite N. pose proof (stands_kind S) as SK.
    unfold idone, iexec, with_var, bind in D. cbn [i_vars] in D. rewrite NV in D.
    destruct (ordered_var v) eqn:OV; rewrite <- SK.
    + assert (Z : i_key E i v = lift (match v with VO it => o_key E it | _ => undef NullPointer end)).
      { destruct v; try discriminate OV; reflexivity. }
      rewrite Z in D.
      match type of D with context [lift ?m ?s] => pose proof (lift_vars m s) as LV; destruct (lift m s) end;
        destruct r; try discriminate D; inversion D; subst; rewrite LV, andb_false_r; auto.
    + destruct (entry_ok G R F N S T LE) as (l & oc & w' & aw' & vs' & CT & C & R' & F' & M).
      assert (Z : i_key E i v = (p <- i_entry E i v;; n <- lift (deref p);; ret (n_key n))).
      { destruct S; try reflexivity; try discriminate OV. now elim T. }
      rewrite Z in D. unfold bind in D. rewrite <- SK in W.
      destruct oc as [[]|x]; try easy.
      * destruct e as [e|]; [|easy]. destruct M as (p & n & M & DE & ->). rewrite M in *.
        unfold lift in D. cbn [i_world i_vars] in D. rewrite DE in D.
        destruct r; inversion D; subst. cbn [i_vars] in *. rewrite W. destruct (cu_mark cu); auto.
      * rewrite M in *. destruct r; inversion D; subst. cbn [i_vars] in *. rewrite W. destruct (cu_mark cu); auto.
  - (* IValue *)
    destruct AL as (cu & N & T & LE). destruct (f2_nth F N) as (v & NV & S).
    pose proof (entry_warm R F N NV S T) as W. rewrite N.
    destruct (entry_ok G R F N S T LE) as (l & oc & w' & aw' & vs' & CT & C & R' & F' & M).
    unfold idone, iexec, with_var, bind in D. cbn [i_vars] in D. rewrite NV in D.
    destruct oc as [[]|x]; try easy.
    + destruct e as [e|]; [|easy]. destruct M as (p & n & M & DE & ->). rewrite M in *.
      unfold lift in D. cbn [i_world i_vars] in D. rewrite DE in D.
      destruct r; inversion D; subst. cbn [i_vars] in *. rewrite W. destruct (cu_mark cu); auto.
      simpl. rewrite orb_true_r. auto.
    + rewrite M in *. destruct r; inversion D; subst. cbn [i_vars] in *. rewrite W. destruct (cu_mark cu); auto.
      destruct (cu_ord cu); auto.
  - (* ISame *)
    destruct AL as (cu & cv & N & N' & _). destruct (f2_nth F N) as (v & NV & S). destruct (f2_nth F N') as (v' & NV' & S').
    unfold idone, iexec, with_var, bind in D. cbn [i_vars] in D. rewrite NV, NV' in D.
    match type of D with context [lift ?m ?s] => pose proof (lift_vars m s) as LV; destruct (lift m s) end;
        destruct r; try discriminate D; inversion D; subst; rewrite LV; auto.
  - (* IErase *)
    destruct AL as (cu & N & CU & T). destruct (f2_nth F N) as (v & NV & S).
    pose proof (stands_alive S T) as AV. rewrite CU in AV.
    unfold idone, iexec, with_var, with_alive, bind in D. cbn [i_vars i_world] in D. rewrite NV, AV in D.
    match type of D with context [lift ?m ?s] => pose proof (lift_vars m s) as LV; destruct (lift m s) end;
        destruct r; try discriminate D; inversion D; subst; rewrite LV; auto.
  - (* IValid *)
    destruct AL as (cu & N & CU & T). destruct (f2_nth F N) as (v & NV & S).
    pose proof (stands_alive S T) as AV. rewrite CU in AV.
    unfold idone, iexec, with_var, with_alive, bind in D. cbn [i_vars i_world] in D. rewrite NV, AV in D.
    match type of D with context [lift ?m ?s] => pose proof (lift_vars m s) as LV; destruct (lift m s) end;
        destruct r; try discriminate D; inversion D; subst; rewrite LV; auto.
Qed.

Lemma warms_plays st cs hs : iwarms E st cs hs -> iplays E st cs /\ hs = warms (i_vars st).
Proof.
  induction 1 as [|st cs hs s r st' cs' H (IH & ->) AL D P].
  - split; [constructor|reflexivity].
  - split; [econstructor; eauto|]. symmetry. eapply heat_ok; eauto. apply plays_tracked; auto.
Qed.

End IterSearchProofs.
