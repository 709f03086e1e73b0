(** Entries as objects: proofs. *)
From Coq Require Import List Arith ZArith Bool Permutation Lia.
Import ListNotations.
From Verif Require Import Monad Types Model Api IterObj Spec SpecTimed Ref Lists SimBase SimRel SimOps SimIns SimErase SimIter SimNew SimObs SimExec RefEval SimRun LruProofs CallProofs LruMore Flat Global Safe Frame SpecStats StatProofs TimedTrack NodeTrack SpecIter IterProofs SpecCursor CursorProofs CursorRun Effects EntryRefs SpecEntryRefs.
Set Implicit Arguments.
Unset Strict Implicit.
Local Open Scope cpp_scope.

Section EntryRefsProofs.
Context {K V : Type}.
Variable E : env K V.
Hypothesis G : good E.
Notation world := (world K V).
Notation aworld := (aworld K V).
Notation cell := (@cell K V).
Notation cursor := (@cursor K).
Notation istate := (istate K V).
Notation stands := (stands E).
Notation tracked := (tracked E).
Implicit Types (w : world) (aw : aworld) (cl : cell) (cu : cursor) (cs : list cursor) (st : istate) (en : option mptr).

(** ** The entries of iterators *)
Notation entries := (map entry_of).

Lemma ent_bare v : entry_of (bare v) = None.
Proof. destruct v; auto. Qed.
Lemma nth_ent vs i v : nth_error vs i = Some v -> nth i (entries vs) None = entry_of v.
Proof. revert i. induction vs as [|x l IH]; intros [|i]; simpl; try discriminate; [congruence|auto]. Qed.
Lemma ent_set vs i v : entries (set_nth i v vs) = set_nth i (entry_of v) (entries vs).
Proof. revert i. induction vs as [|x l IH]; intros [|i]; simpl; auto. rewrite IH; auto. Qed.
Lemma ent_next v w v' w' : i_next v w = Val v' w' -> entry_of v' = None.
Proof.
  destruct v as [it|it|b]; simpl; unfold bind.
  - destruct (u_next it w) as [it' w1|? ?|?|?] eqn:X; try discriminate. intros H; inversion H; subst. simpl.
    unfold u_next, bind, ret, undef in X. destruct (ui_pos it) as [?|i]; try discriminate.
    destruct (deref_it i w); try discriminate. destruct (get_store _ _); try discriminate.
    destruct (next_after _ _); inversion X; subst; auto.
  - destruct (o_next it w) as [it' w1|? ?|?|?] eqn:X; try discriminate. intros H; inversion H; subst. simpl.
    unfold o_next, bind, ret, undef in X. destruct (oi_pos it) as [?|q]; try discriminate.
    destruct (list_deref q w); try discriminate. destruct (get_store _ _); try discriminate.
    destruct (next_after _ _); inversion X; subst; auto.
  - discriminate.
Qed.
Lemma ent_prev v w v' w' : i_prev v w = Val v' w' -> entry_of v' = None.
Proof.
  destruct v as [it|it|b]; simpl; unfold bind; try discriminate.
  destruct (o_prev it w) as [it' w1|? ?|?|?] eqn:X; try discriminate. intros H; inversion H; subst. simpl.
  unfold o_prev, bind, ret, undef in X. destruct (oi_pos it) as [?|q].
  - destruct (own c w) as [[] ?|? ?|?|?]; try discriminate. destruct (rev _) as [|[]]; inversion X; subst; auto.
  - destruct (list_deref q w); try discriminate. destruct (get_store _ _); try discriminate.
    destruct (next_after _ _); inversion X; subst; auto.
Qed.

(** Evaluate a step whose variable is known. *)
Ltac steps D := unfold idone, iexec, with_var, with_alive, bind, lift, new_var, put_var, modify, ret, throw, undef in D; cbn [i_vars i_world] in D.
Ltac fin D := inversion D; subst; clear D; cbn [i_vars]; rewrite ?map_app, ?ent_set; cbn [map]; rewrite ?ent_bare.

Lemma from_move it w o w' : o_from_u_move it w = Val o w' -> entry_of (VO o) = entry_of (VU it).
Proof.
  unfold o_from_u_move, bind. destruct (o_from_u it w); try discriminate. intros H; inversion H; subst. reflexivity.
Qed.
(** [o] in place of the entry [e] of an iterator: the same, or a first one. *)
Definition got (e o : option mptr) : Prop := o = e \/ e = None.
Lemma ent_u_deref it w p it' w' : u_deref it w = Val (p, it') w' -> entry_of (VU it') = Some p /\ got (entry_of (VU it)) (Some p).
Proof.
  unfold u_deref, bind, ret, undef, got. destruct (ui_entry it) eqn:Q.
  - intros H; inversion H; subst. simpl. rewrite Q. auto.
  - destruct (ui_pos it); try discriminate. destruct (deref_it i w); try discriminate. intros H; inversion H; subst. auto.
Qed.
Lemma ent_o_deref it w p it' w' : o_deref E it w = Val (p, it') w' -> entry_of (VO it') = Some p /\ got (entry_of (VO it)) (Some p).
Proof.
  unfold o_deref, bind, ret, undef, got. destruct (oi_entry it) eqn:Q.
  - intros H; inversion H; subst. simpl. rewrite Q. auto.
  - destruct (oi_pos it); try discriminate. destruct (list_deref q w); try discriminate.
    destruct (deref _ _); try discriminate. destruct (map_find _ _ _ _) as [[]| | |]; try discriminate.
    intros H; inversion H; subst. auto.
Qed.
Lemma ent_i_deref i v st p st' : i_deref E i v st = Val p st' ->
  entries (i_vars st') = set_nth i (Some p) (entries (i_vars st)) /\ got (entry_of v) (Some p).
Proof.
  unfold i_deref, bind, lift, put_var, modify, ret. destruct v as [it|it|b]; try discriminate.
  - destruct (u_deref it (i_world st)) as [[p0 it'] w'|? ?|?|?] eqn:X; try discriminate.
    intros H; inversion H; subst. simpl. destruct (ent_u_deref X) as (Q & ?). rewrite ent_set, Q. auto.
  - destruct (o_deref E it (i_world st)) as [[p0 it'] w'|? ?|?|?] eqn:X; try discriminate.
    intros H; inversion H; subst. simpl. destruct (ent_o_deref X) as (Q & ?). rewrite ent_set, Q. auto.
Qed.

(** New iterators hold no entry. *)
Ltac uit_cut := repeat match goal with
  | H : Val _ _ = Val _ _ |- _ => inversion H; subst; clear H
  | H : match ?x with _ => _ end = Val _ _ |- _ => destruct x; try discriminate H
  | H : (match ?x with _ => _ end) _ = Val _ _ |- _ => destruct x; try discriminate H
  | H : (if ?x then _ else _) _ = Val _ _ |- _ => destruct x; try discriminate H
  | H : context [let '(_, _) := ?x in _] |- _ => destruct x
  end; try reflexivity.
Lemma ent_find c k w it w' : find E c k w = Val it w' -> ui_entry it = None.
Proof. unfold find, bind, ret, uiter_of, unordered_end. intros H. uit_cut. Qed.
Lemma ent_insert c k v w b it w' : insert E c k v w = Val (b, it) w' -> ui_entry it = None.
Proof. unfold insert, bind, ret, undef, uiter_of, unordered_end. intros H. uit_cut. Qed.
Lemma ent_emplace c k v w b it w' : emplace E c k v w = Val (b, it) w' -> ui_entry it = None.
Proof. unfold emplace, bind, ret, undef, uiter_of, unordered_end. intros H. uit_cut. Qed.

(** Past a function on the world: the variables stay. *)
Lemma lift_vars {A} (m : M world A) st : match lift m st with
  | Val _ st' | Exc _ st' => i_vars st' = i_vars st | _ => True end.
Proof. unfold lift. destruct (m (i_world st)); auto. Qed.

(** What entry() does to the entries. *)
Definition first_got i (v : ivar) (vs : list ivar) (es' : list (option mptr)) : Prop :=
  exists o, es' = set_nth i o (entries vs) /\ got (entry_of v) o.
Lemma set_nth_same_entry vs i v : nth_error vs i = Some v -> set_nth i (entry_of v) (entries vs) = entries vs.
Proof. intros N. rewrite <- ent_set, (set_nth_id N). auto. Qed.
Lemma first_none i v vs : nth_error vs i = Some v -> first_got i v vs (entries vs).
Proof. intros N. exists (entry_of v). rewrite set_nth_same_entry; auto. split; [auto|left; auto]. Qed.
Lemma ent_entry i vs w v : nth_error vs i = Some v ->
  match i_entry E i v (MkI w vs) with
  | Val _ st' | Exc _ st' => first_got i v vs (entries (i_vars st'))
  | _ => True
  end.
Proof.
  intros N. destruct v as [it|it|b]; cbn [i_entry]; [| |exact I].
  - assert (Z : match ('(p, it') <- lift (u_deref it);; put_var i (VU it');;;
          lift (throw_if_invalid_u E (ui_cache it) it');;; ret p) (MkI w vs) with
       | Val _ st' | Exc _ st' => first_got i (VU it) vs (entries (i_vars st')) | _ => True end).
    { unfold bind, lift. cbn [i_world i_vars]. destruct (u_deref it w) as [[p it'] w'|? ?|?|?] eqn:X; auto; [|exact (first_none N)].
      destruct (ent_u_deref X) as (Q & Gt). unfold put_var, modify. cbn [i_world i_vars].
      destruct (throw_if_invalid_u E (ui_cache it) it' w'); auto; unfold first_got, ret; cbn [i_vars]; exists (Some p); rewrite ent_set, Q; auto. }
    destruct (ui_entry it) eqn:QE; [exact Z|]. destruct (ui_pos it) eqn:QP; [|exact Z].
    pose proof (lift_vars (u_entry E it) (MkI w vs)) as LV. destruct (lift _ _); auto; rewrite LV; exact (first_none N).
  - unfold bind, lift. cbn [i_world i_vars]. destruct (throw_if_invalid_o E (oi_cache it) it w) as [[] w'|? ?|?|?]; auto; [|exact (first_none N)].
    cbn [i_world i_vars].
    destruct (o_deref E it w') as [[p it'] w1|? ?|?|?] eqn:X; auto; [|exact (first_none N)].
    destruct (ent_o_deref X) as (Q & Gt). unfold put_var, modify, ret. cbn [i_world i_vars]. exists (Some p). rewrite ent_set, Q; auto.
Qed.

(** What a step does to the entries. *)
Definition shifted (s : istep K V) cs (r : @ires K V) (es es' : list (option mptr)) : Prop :=
  let at_ i := nth i es None in
  let ordered i := match nth_error cs i with Some cu => cu_ord cu | None => false end in
  match s, r with
  | (IBegin _ _ | IEnd _ _ | IFind _ _ | IInsert _ _ _ | IEmplace _ _ _ | INull _
     | ICopy _ | IConst _ | IToOrdered _), IGives _ => es' = es ++ [None]
  | (IMove i | IConstMove i | IToOrderedMove i), IGives _ => es' = set_nth i None es ++ [at_ i]
  | IToOrderedMove i, IThrows _ => es' = set_nth i None es
  | IAssign i j, _ => es' = if Nat.eqb i j then es else set_nth i None es
  | IAssignMove i j, _ => es' =
      if Nat.eqb i j then es
      else if ordered j then set_nth j None (set_nth i (at_ j) es)
      else set_nth i None es
  | ISwap i j, _ => es' = set_nth j (at_ i) (set_nth i (at_ j) es)
  | (INext i | IPrev i), _ => es' = set_nth i None es
  | (IPostNext i | IPostPrev i), _ => es' = set_nth i None es ++ [None]
  | (IRead i | IWrite i _ | IEntry i | IValue i | IKey i), _ => exists o, es' = set_nth i o es /\ got (at_ i) o
  | _, _ => es' = es
  end.
Lemma shifted_ok s st cs r st' : tracked st cs -> iallowed E s (i_world st) cs -> idone E s st r st' ->
  shifted s cs r (entries (i_vars st)) (entries (i_vars st')).
Proof.
  destruct st as [w vs]. intros ((aw & R) & F) AL D. cbn [i_world i_vars] in *.
  destruct s; cbn [shifted].
  - (* ICall *)
    destruct AL as (CF & oc & w' & C). destruct oc; simpl in C; destruct r; steps D; rewrite C in D; fin D; auto.
  - (* IBegin *)
    simpl in AL. destruct (cells_alive G R AL) as (x & s & a & l & At & Ha & Rp & CT).
    destruct ordered; [pose proof (ordered_begin_ev At (rp_store Rp)) as X|pose proof (unordered_begin_ev At) as X];
      destruct r; steps D; rewrite AL, X in D; fin D; auto.
  - (* IEnd *) simpl in AL. destruct ordered, r; steps D; rewrite AL in D; fin D; auto.
  - (* IFind *)
    simpl in AL. destruct (find_ok G k R AL) as (it & e & w' & aw' & X & R' & C & S).
    destruct r; steps D; rewrite AL, X in D; fin D. cbn [entry_of]; rewrite (ent_find X); reflexivity.
  - (* IInsert *)
    simpl in AL. destruct (insert_ok G k v R AL) as (b & it & e & w' & aw' & X & R' & C & S).
    destruct r; steps D; rewrite AL, X in D; fin D. cbn [entry_of snd]; rewrite (ent_insert X); reflexivity.
  - (* IEmplace *)
    simpl in AL. destruct (emplace_ok G k v R AL) as (b & it & e & w' & aw' & X & R' & C & S).
    destruct r; steps D; rewrite AL, X in D; fin D. cbn [entry_of snd]; rewrite (ent_emplace X); reflexivity.
  - (* INull *) destruct r; steps D; fin D; auto.
  - (* ICopy *)
    destruct AL as (cu & N & _). destruct (f2_nth F N) as (v & NV & S).
    destruct r; steps D; rewrite NV in D; fin D; auto.
  - (* IMove *)
    destruct AL as (cu & N & _). destruct (f2_nth F N) as (v & NV & S).
    destruct r; steps D; rewrite NV in D; inversion D; subst. cbn [i_vars].
    rewrite (set_nth_app _ _ NV), map_app, ent_set, ent_bare, (nth_ent NV). reflexivity.
  - (* IConst *)
    destruct AL as (cu & N & _). destruct (f2_nth F N) as (v & NV & S).
    destruct r; steps D; rewrite NV in D; fin D; auto.
  - (* IConstMove *)
    destruct AL as (cu & N & _). destruct (f2_nth F N) as (v & NV & S).
    destruct r; steps D; rewrite NV in D; inversion D; subst. cbn [i_vars].
    rewrite (set_nth_app _ _ NV), map_app, ent_set, ent_bare, (nth_ent NV). reflexivity.
  - (* IToOrdered *)
    destruct AL as (cu & N & O & T). destruct (f2_nth F N) as (v & NV & S).
    pose proof (stands_kind S) as SK. apply stands_bare in S. rewrite O in SK.
    assert (V0 : exists it, bare v = VU it).
    { destruct v; try discriminate SK; simpl; eauto. inversion S; subst. now elim T. }
    destruct V0 as (it & V0). pose proof (ent_bare v) as WB. rewrite V0 in S, WB. pose proof (convert_ok S T) as CO.
    destruct (cu_mark cu) as [k| |] eqn:MK; [|destruct r; steps D; rewrite NV, V0 in D; cbn [i_world i_vars] in D; rewrite CO in D; fin D; auto|now elim T].
    destruct CO as (o & CO & SO). pose proof (from_move CO) as W.
    destruct r; steps D; rewrite NV, V0 in D; cbn [i_world i_vars] in D; rewrite CO in D; fin D. rewrite W, WB. reflexivity.
  - (* IToOrderedMove *)
    destruct AL as (cu & N & O & T). destruct (f2_nth F N) as (v & NV & S).
    pose proof (stands_kind S) as SK. rewrite O in SK.
    assert (V0 : exists it, v = VU it).
    { destruct v; try discriminate SK; simpl; eauto. inversion S; subst. now elim T. }
    destruct V0 as (it & ->). pose proof (convert_ok S T) as CO.
    destruct (cu_mark cu) as [k| |] eqn:MK; [|destruct r; steps D; rewrite NV in D; cbn [i_world i_vars] in D; rewrite CO in D; fin D; auto|now elim T].
    destruct CO as (o & CO & SO). pose proof (from_move CO) as W.
    destruct r; steps D; rewrite NV in D; cbn [i_world i_vars] in D; rewrite CO in D; fin D. rewrite W, (nth_ent NV). reflexivity.
  - (* IAssign *)
    destruct AL as (cu & cv & N & N' & O). destruct (f2_nth F N) as (v & NV & S). destruct (f2_nth F N') as (v' & NV' & S').
    assert (SK : Bool.eqb (ordered_var v) (ordered_var v') = true).
    { rewrite (stands_kind S), (stands_kind S'), O. apply Bool.eqb_reflx. }
    destruct r; steps D; rewrite NV, NV', SK in D; simpl in D; destruct (i =? j); fin D; auto.
  - (* IAssignMove *)
    destruct AL as (cu & cv & N & N' & O). destruct (f2_nth F N) as (v & NV & S). destruct (f2_nth F N') as (v' & NV' & S').
    assert (SK : Bool.eqb (ordered_var v) (ordered_var v') = true).
    { rewrite (stands_kind S), (stands_kind S'), O. apply Bool.eqb_reflx. }
    rewrite N', <- (stands_kind S'), (nth_ent NV').
    destruct r; steps D; rewrite NV, NV', SK in D; simpl in D; destruct (i =? j), (ordered_var v'); fin D; auto.
  - (* ISwap *)
    destruct AL as (cu & cv & N & N' & O). destruct (f2_nth F N) as (v & NV & S). destruct (f2_nth F N') as (v' & NV' & S').
    assert (SK : Bool.eqb (ordered_var v) (ordered_var v') = true).
    { rewrite (stands_kind S), (stands_kind S'), O. apply Bool.eqb_reflx. }
    rewrite (nth_ent NV'), (nth_ent NV).
    destruct r; steps D; rewrite NV, NV', SK in D; simpl in D; fin D; auto.
  - (* INext *)
    destruct AL as (cu & N & k & MK). destruct (f2_nth F N) as (v & NV & S).
    destruct (next_ok G R S MK) as (v' & l & X & Q & S').
    destruct r; steps D; rewrite NV in D; cbn [i_world i_vars] in D; rewrite X in D; fin D. rewrite (ent_next X); auto.
  - (* IPrev *)
    destruct AL as (cu & N & O & l & CT & P). destruct (f2_nth F N) as (v & NV & S).
    destruct (prev_ok G R S O CT P) as (v' & X & S'). pose proof (stands_kind S) as SK. rewrite O in SK.
    destruct r; steps D; rewrite NV, SK in D; cbn [i_world i_vars] in D; rewrite X in D; fin D. rewrite (ent_prev X); auto.
  - (* IPostNext *)
    destruct AL as (cu & N & k & MK). destruct (f2_nth F N) as (v & NV & S).
    destruct (next_ok G R S MK) as (v' & l & X & Q & S').
    destruct r; steps D; rewrite NV in D; cbn [i_world i_vars] in D; rewrite X in D; inversion D; subst. cbn [i_vars].
    rewrite (set_nth_app _ _ NV), map_app, ent_set, (ent_next X). cbn [map]. rewrite ent_bare. reflexivity.
  - (* IPostPrev *)
    destruct AL as (cu & N & O & l & CT & P). destruct (f2_nth F N) as (v & NV & S).
    destruct (prev_ok G R S O CT P) as (v' & X & S'). pose proof (stands_kind S) as SK. rewrite O in SK.
    destruct r; steps D; rewrite NV, SK in D; cbn [i_world] in D; rewrite X in D; inversion D; subst. cbn [i_vars].
    rewrite (set_nth_app _ _ NV), map_app, ent_set, (ent_prev X). cbn [map]. rewrite ent_bare. reflexivity.
  - (* IRead *)
    destruct AL as (cu & N & k & MK). destruct (f2_nth F N) as (v & NV & S).
    destruct (deref_ok G i vs S MK) as (r0 & s & cl & v' & L & X & S'). destruct (ent_i_deref X) as (W & GT). rewrite (nth_ent NV).
    unfold idone, iexec, with_var, bind in D. cbn [i_vars] in D.
    destruct r; rewrite NV in D; cbn [i_world i_vars] in D; rewrite X in D; unfold lift, read_entry, bind in D; cbn [i_vars i_world] in D;
      rewrite (lives_deref L) in D; inversion D; subst; eauto.
  - (* IWrite *)
    destruct AL as (cu & N & k & MK). destruct (f2_nth F N) as (x & NV & S).
    destruct (deref_ok G i vs S MK) as (r0 & s & cl & v' & L & X & S'). destruct (ent_i_deref X) as (W & GT). rewrite (nth_ent NV).
    destruct (write_ok G v R L) as (w' & aw' & WR & R' & OW & SW).
    unfold idone, iexec, with_var, bind in D. cbn [i_vars] in D.
    destruct r; rewrite NV in D; cbn [i_world i_vars] in D; rewrite X in D; unfold lift in D; cbn [i_vars i_world] in D; rewrite WR in D; inversion D; subst; eauto.
  - (* IEntry *)
    destruct AL as (cu & N & _). destruct (f2_nth F N) as (v & NV & S). rewrite (nth_ent NV).
    pose proof (ent_entry w NV) as W.
    unfold idone, iexec, with_var, bind in D. cbn [i_vars] in D. rewrite NV in D.
    destruct (i_entry E i v (MkI w vs)) as [p st1|e st1|?|?]; [|destruct r; inversion D; subst; exact W| |]; try (destruct r; discriminate D).
    pose proof (lift_vars (read_entry p) st1) as LV. destruct (lift (read_entry p) st1); destruct r; inversion D; subst; cbn [ret] in *; rewrite LV; exact W.
  - (* IKey *)
    destruct AL as (cu & N & _). destruct (f2_nth F N) as (v & NV & S). rewrite (nth_ent NV).
    pose proof (ent_entry w NV) as W.
    unfold idone, iexec, with_var, bind in D. cbn [i_vars] in D. rewrite NV in D.
    destruct v as [it|it|b].
    + unfold i_key, bind in D.
      destruct (i_entry E i (VU it) (MkI w vs)) as [p st1|e st1|?|?]; [|destruct r; inversion D; subst; exact W| |]; try (destruct r; discriminate D).
      pose proof (lift_vars (deref p) st1) as LV. destruct (lift (deref p) st1); destruct r; inversion D; subst; cbn [ret] in *; rewrite LV; exact W.
    + cbn [i_key] in D. pose proof (lift_vars (o_key E it) (MkI w vs)) as LV.
      destruct (lift (o_key E it) (MkI w vs)); destruct r; inversion D; subst; rewrite LV; exact (first_none NV).
    + destruct r; discriminate D.
  - (* IValue *)
    destruct AL as (cu & N & _). destruct (f2_nth F N) as (v & NV & S). rewrite (nth_ent NV).
    pose proof (ent_entry w NV) as W.
    unfold idone, iexec, with_var, bind in D. cbn [i_vars] in D. rewrite NV in D.
    destruct (i_entry E i v (MkI w vs)) as [p st1|e st1|?|?]; [|destruct r; inversion D; subst; exact W| |]; try (destruct r; discriminate D).
    pose proof (lift_vars (deref p) st1) as LV. destruct (lift (deref p) st1); destruct r; inversion D; subst; cbn [ret] in *; rewrite LV; exact W.
  - (* ISame *)
    destruct AL as (cu & cv & N & N' & _). destruct (f2_nth F N) as (v & NV & S). destruct (f2_nth F N') as (v' & NV' & S').
    unfold idone, iexec, with_var, bind in D. cbn [i_vars] in D. rewrite NV, NV' in D.
    match type of D with context [lift ?m ?s] => pose proof (lift_vars m s) as LV; destruct (lift m s) end;
        destruct r; try discriminate D; inversion D; subst; rewrite LV; auto.
  - (* IErase *)
    destruct AL as (cu & N & CU & T). destruct (f2_nth F N) as (v & NV & S).
    pose proof (stands_alive S T) as AV. rewrite CU in AV.
    unfold idone, iexec, with_var, with_alive, bind in D. cbn [i_vars i_world] in D. rewrite NV, AV in D.
    match type of D with context [lift ?m ?s] => pose proof (lift_vars m s) as LV; destruct (lift m s) end;
        destruct r; try discriminate D; inversion D; subst; rewrite LV; auto.
  - (* IValid *)
    destruct AL as (cu & N & CU & T). destruct (f2_nth F N) as (v & NV & S).
    pose proof (stands_alive S T) as AV. rewrite CU in AV.
    unfold idone, iexec, with_var, with_alive, bind in D. cbn [i_vars i_world] in D. rewrite NV, AV in D.
    match type of D with context [lift ?m ?s] => pose proof (lift_vars m s) as LV; destruct (lift m s) end;
        destruct r; try discriminate D; inversion D; subst; rewrite LV; auto.
Qed.


(** ** Owners *)
Notation own_at own i := (nth i own (@None nat)).
Notation ent_at es i := (nth i es (@None mptr)).
Record weak (own : list (option nat)) (es objs : list (option mptr)) : Prop := {
  wk_len : length own = length es;
  wk_obj : forall i n p, own_at own i = Some n -> ent_at es i = Some p -> ent_at objs n = Some p;
  wk_inj : forall i j n, own_at own i = Some n -> own_at own j = Some n -> i = j;
  wk_old : forall i n, own_at own i = Some n -> n < length objs
}.
Definition strong own es objs : Prop := weak own es objs /\ forall i, own_at own i = None <-> ent_at es i = None.

Lemma nth_set {A} (l : list (option A)) i j a :
  nth j (set_nth i a l) None = if (i =? j) && (i <? length l) then a else nth j l None.
Proof.
  revert i j. induction l as [|x l IH]; intros i j.
  - rewrite andb_false_r. destruct i; reflexivity.
  - destruct i, j; simpl; auto. rewrite IH. reflexivity.
Qed.
Lemma nth_snoc {A} (l : list (option A)) j a : nth j (l ++ [a]) None = if j =? length l then a else nth j l None.
Proof. revert j. induction l as [|x l IH]; intros [|j]; simpl; auto. destruct j; auto. Qed.
Lemma set_len {A} (l : list A) i a : length (set_nth i a l) = length l.
Proof. revert i. induction l; intros [|i]; simpl; auto. Qed.
Lemma snoc_len {A} (l : list A) a : length (l ++ [a]) = S (length l).
Proof. rewrite app_length. simpl. lia. Qed.
Lemma nth_in {A} (l : list (option A)) i a : nth i l None = Some a -> i < length l.
Proof. intros H. destruct (Nat.ltb_spec i (length l)); auto. rewrite nth_overflow in H; [discriminate|auto]. Qed.
Lemma nth_past {A} (l : list (option A)) i : length l <= i -> nth i l None = None.
Proof. apply nth_overflow. Qed.

Lemma fill_ok vs own objs : weak own (entries vs) objs ->
  let f := fill vs own objs in
  strong (fst f) (entries vs) (snd f) /\
  (forall i n, own_at own i = Some n -> ent_at (entries vs) i <> None -> own_at (fst f) i = Some n) /\
  (forall n, n < length objs -> ent_at (snd f) n = ent_at objs n) /\
  length objs <= length (snd f) /\
  (forall i n, own_at (fst f) i = Some n -> own_at own i = Some n \/ length objs <= n).
Proof.
  revert own objs. induction vs as [|v vs IH]; intros own objs W; cbv zeta.
  - simpl. destruct own; [|discriminate (wk_len W)].
    split; [split; [constructor; simpl; auto|]|]; try (intros [|]; simpl; intros; try discriminate; tauto).
    split; [intros [|]; discriminate|]. repeat split; auto.
  - destruct own as [|o own]; [discriminate (wk_len W)|]. cbn [map fill hd tl].
    assert (W1 : forall objs', (forall n, n < length objs -> ent_at objs' n = ent_at objs n) -> length objs <= length objs' ->
      weak own (entries vs) objs').
    { intros objs' H LE. constructor.
      - pose proof (wk_len W) as L. simpl in L. congruence.
      - intros i n p A B. rewrite H; [exact (wk_obj W (i := S i) A B)|exact (wk_old W (i := S i) A)].
      - intros i j n A B. pose proof (wk_inj W (i := S i) (j := S j) A B). congruence.
      - intros i n A. pose proof (wk_old W (i := S i) A). lia. }
    destruct (entry_of v) as [p|] eqn:QE; [destruct o as [m|]|].
    + specialize (IH own objs (W1 objs (fun _ _ => eq_refl) (le_n _))). cbv zeta in IH.
      destruct (fill vs own objs) as [own' objs']. cbn [fst snd] in *. destruct IH as ((W' & EX) & KEEP & OLD & LE & NEW).
      pose proof (wk_old W (i := 0) eq_refl) as ML. simpl in ML.
      split; [split; [constructor|]|].
      * simpl. rewrite (wk_len W'). auto.
      * intros [|i] n q A B; simpl in *; [|exact (wk_obj W' A B)].
        inversion A; inversion B; subst. rewrite OLD; auto. exact (wk_obj W (i := 0) eq_refl QE).
      * intros [|i] [|j] n A B; simpl in *; auto.
        -- inversion A; subst. destruct (NEW j n B) as [C|C]; [|lia]. pose proof (wk_inj W (i := 0) (j := S j) eq_refl C). discriminate.
        -- inversion B; subst. destruct (NEW i n A) as [C|C]; [|lia]. pose proof (wk_inj W (i := 0) (j := S i) eq_refl C). discriminate.
        -- f_equal. exact (wk_inj W' A B).
      * intros [|i] n A; simpl in *; [inversion A; subst; lia|exact (wk_old W' A)].
      * intros [|i]; simpl; [split; discriminate|apply EX].
      * split; [|split; [|split]]; auto.
        -- intros [|i] n A B; simpl in *; auto.
        -- intros [|i] n A; simpl in *; auto.
    + assert (SN : forall n, n < length objs -> ent_at (objs ++ [Some p]) n = ent_at objs n).
      { intros n L. rewrite nth_snoc. destruct (Nat.eqb_spec n (length objs)); [lia|auto]. }
      specialize (IH own (objs ++ [Some p]) (W1 _ SN ltac:(rewrite snoc_len; lia))). cbv zeta in IH.
      destruct (fill vs own (objs ++ [Some p])) as [own' objs']. cbn [fst snd] in *. destruct IH as ((W' & EX) & KEEP & OLD & LE & NEW).
      rewrite snoc_len in *.
      split; [split; [constructor|]|].
      * simpl. rewrite (wk_len W'). auto.
      * intros [|i] n q A B; simpl in *; [|exact (wk_obj W' A B)].
        inversion A; inversion B; subst. rewrite OLD; [|lia]. rewrite nth_snoc, Nat.eqb_refl. auto.
      * intros [|i] [|j] n A B; simpl in *; auto.
        -- inversion A; subst. destruct (NEW j _ B) as [C|C]; [|lia]. pose proof (wk_old W (i := S j) C). lia.
        -- inversion B; subst. destruct (NEW i _ A) as [C|C]; [|lia]. pose proof (wk_old W (i := S i) C). lia.
        -- f_equal. exact (wk_inj W' A B).
      * intros [|i] n A; simpl in *; [inversion A; subst; lia|exact (wk_old W' A)].
      * intros [|i]; simpl; [split; discriminate|apply EX].
      * split; [|split; [|split]]; auto; try lia.
        -- intros [|i] n A B; simpl in *; [discriminate|auto].
        -- intros n L. rewrite OLD; [|lia]. auto.
        -- intros [|i] n A; simpl in *; [inversion A; subst; auto|]. destruct (NEW i n A); [auto|right; lia].
    + specialize (IH own objs (W1 objs (fun _ _ => eq_refl) (le_n _))). cbv zeta in IH.
      destruct (fill vs own objs) as [own' objs']. cbn [fst snd] in *. destruct IH as ((W' & EX) & KEEP & OLD & LE & NEW).
      split; [split; [constructor|]|].
      * simpl. rewrite (wk_len W'). auto.
      * intros [|i] n q A B; simpl in *; [discriminate|exact (wk_obj W' A B)].
      * intros [|i] [|j] n A B; simpl in *; auto; try discriminate. f_equal. exact (wk_inj W' A B).
      * intros [|i] n A; simpl in *; [discriminate|exact (wk_old W' A)].
      * intros [|i]; simpl; [split; auto|apply EX].
      * split; [|split; [|split]]; auto.
        -- intros [|i] n A B; simpl in *; [now elim B|auto].
        -- intros [|i] n A; simpl in *; [discriminate|auto].
Qed.

Lemma owned_true n own : owned n own = true <-> exists i, own_at own i = Some n.
Proof.
  unfold owned. induction own as [|o own IH]; simpl.
  - split; [discriminate|intros ([|] & H); discriminate].
  - rewrite orb_true_iff, IH. split.
    + intros [H|(i & H)]; [|exists (S i); auto]. exists 0. destruct o as [m|]; [|discriminate].
      apply Nat.eqb_eq in H. subst. auto.
    + intros ([|i] & H); [left|right; eauto]. simpl in H. subst o. apply Nat.eqb_refl.
Qed.
Lemma sweep_nth own objs k n : ent_at (sweep k own objs) n = if owned (k + n) own then ent_at objs n else None.
Proof.
  revert k n. induction objs as [|o objs IH]; intros k n.
  - destruct n; destruct (owned _ _); reflexivity.
  - destruct n; simpl; [rewrite Nat.add_0_r; auto|]. rewrite IH. rewrite <- plus_n_Sm. reflexivity.
Qed.
Lemma sweep_len own objs k : length (sweep k own objs) = length objs.
Proof. revert k. induction objs; simpl; auto. Qed.
Lemma sweep_ok own es objs : strong own es objs -> strong own es (sweep 0 own objs).
Proof.
  intros (W & EX). split; [constructor|exact EX].
  - exact (wk_len W).
  - intros i n p A B. rewrite sweep_nth. simpl. rewrite (proj2 (owned_true n own)); [exact (wk_obj W A B)|eauto].
  - exact (wk_inj W).
  - rewrite sweep_len. exact (wk_old W).
Qed.

(** After a step: every iterator's object is right, and an object that was handed to an
    iterator with an entry is still its object. *)
Lemma settle_ok own st' (x : xstate K V) : weak own (entries (i_vars st')) (x_objs x) ->
  let x' := settle own st' x in
  strong (x_own x') (entries (i_vars st')) (x_objs x') /\
  forall i n p, own_at own i = Some n -> ent_at (entries (i_vars st')) i = Some p ->
    own_at (x_own x') i = Some n /\ ent_at (x_objs x') n = Some p.
Proof.
  intros W. unfold settle. cbn [x_own x_objs]. destruct (fill_ok W) as (S & KEEP & OLD & _).
  pose proof (sweep_ok S) as S'. split; [exact S'|].
  intros i n p A B. assert (C : own_at (fst (fill (i_vars st') own (x_objs x))) i = Some n) by (apply KEEP; congruence).
  split; [exact C|]. exact (wk_obj (proj1 S') C B).
Qed.

(** ** Handing over *)
Definition gave (r : @ires K V) : option (iout K V) := match r with IGives o => Some o | IThrows _ => None end.

Ltac indices := repeat (rewrite ?nth_snoc, ?nth_set, ?set_len in *; cbn [length] in *;
  match goal with
  | H : context [?a =? ?b] |- _ => destruct (Nat.eqb_spec a b); subst; cbn [andb negb] in *
  | |- context [?a =? ?b] => destruct (Nat.eqb_spec a b); subst; cbn [andb negb] in *
  | H : context [?a <? ?b] |- _ => destruct (Nat.ltb_spec a b); cbn [andb negb] in *
  | |- context [?a <? ?b] => destruct (Nat.ltb_spec a b); cbn [andb negb] in *
  end).
Ltac by_strong W EX := try discriminate; try congruence; try lia; eauto using (wk_obj W), (wk_inj W), (wk_old W).

Lemma strong_weak own es objs : strong own es objs -> weak own es objs.
Proof. intros H; exact (proj1 H). Qed.

Lemma weak_snoc own es objs : weak own es objs -> forall e, weak (own ++ [None]) (es ++ [e]) objs.
Proof.
  intros W e. pose proof (wk_len W) as L. constructor.
  - rewrite !snoc_len. auto.
  - intros i n p. rewrite !nth_snoc, L. destruct (i =? length es); [discriminate|apply (wk_obj W)].
  - intros i j n. rewrite !nth_snoc. destruct (i =? length own), (j =? length own); try discriminate. apply (wk_inj W).
  - intros i n. rewrite nth_snoc. destruct (i =? length own); [discriminate|apply (wk_old W)].
Qed.
(** Taking an entry away. *)
Lemma weak_drop own es objs i : weak own es objs -> weak own (set_nth i None es) objs.
Proof.
  intros W. constructor; try apply W; try (rewrite set_len; apply W).
  intros j n p A. rewrite nth_set. destruct ((i =? j) && (i <? length es)); [discriminate|apply (wk_obj W A)].
Qed.
(** Giving up an object. *)
Lemma weak_free own es objs i : weak own es objs -> weak (set_nth i None own) es objs.
Proof.
  intros W. constructor.
  - rewrite set_len. apply W.
  - intros j n p. rewrite nth_set. destruct ((i =? j) && (i <? length own)); [discriminate|apply (wk_obj W)].
  - intros j k n. rewrite !nth_set. destruct ((i =? j) && (i <? length own)), ((i =? k) && (i <? length own)); try discriminate. apply (wk_inj W).
  - intros j n. rewrite nth_set. destruct ((i =? j) && (i <? length own)); [discriminate|apply (wk_old W)].
Qed.
(** A first entry. *)
Lemma weak_got own es objs i o : strong own es objs -> got (ent_at es i) o -> weak own (set_nth i o es) objs.
Proof.
  intros (W & EX) Gt. constructor; try apply W; [rewrite set_len; apply W|].
  intros j n p A. rewrite nth_set. destruct (Nat.eqb_spec i j) as [->|]; simpl; [|apply (wk_obj W A)].
  destruct (j <? length es); [|apply (wk_obj W A)]. destruct Gt as [->|Gt]; [apply (wk_obj W A)|].
  apply EX in Gt. congruence.
Qed.
(** An object goes from one place to another: the place [j] gets what is at [i], as a new
    variable or in a variable that is there. *)
Lemma weak_push own es objs i : weak own es objs -> i < length es ->
  weak (set_nth i None own ++ [own_at own i]) (set_nth i None es ++ [ent_at es i]) objs.
Proof.
  intros W LI. pose proof (wk_len W) as L. constructor.
  - rewrite !snoc_len, !set_len. auto.
  - intros j n p. rewrite !nth_snoc, !set_len, L. destruct (j =? length es); [apply (wk_obj W)|].
    rewrite !nth_set, L. destruct ((i =? j) && (i <? length es)); [discriminate|apply (wk_obj W)].
  - intros j k n. rewrite !nth_snoc, !set_len, !nth_set, L.
    destruct (Nat.eqb_spec j (length es)), (Nat.eqb_spec k (length es)), (Nat.eqb_spec i j), (Nat.eqb_spec i k), (Nat.ltb_spec i (length es));
      simpl; try discriminate; try congruence; try lia; intros A B; pose proof (wk_inj W A B); congruence.
  - intros j n. rewrite nth_snoc, set_len. destruct (j =? length own); [apply (wk_old W)|].
    rewrite nth_set. destruct ((i =? j) && (i <? length own)); [discriminate|apply (wk_old W)].
Qed.
Lemma weak_take own es objs i j : weak own es objs -> i <> j -> i < length es -> j < length es ->
  weak (set_nth j None (set_nth i (own_at own j) own)) (set_nth j None (set_nth i (ent_at es j) es)) objs.
Proof.
  intros W NE LI LJ. pose proof (wk_len W) as L. constructor.
  - rewrite !set_len. auto.
  - intros m n p. rewrite !nth_set, !set_len, L.
    destruct (Nat.eqb_spec j m), (Nat.eqb_spec i m), (Nat.ltb_spec i (length es)), (Nat.ltb_spec j (length es));
      simpl; try discriminate; try lia; apply (wk_obj W).
  - intros m k n. rewrite !nth_set, !set_len, L.
    destruct (Nat.eqb_spec j m), (Nat.eqb_spec i m), (Nat.eqb_spec j k), (Nat.eqb_spec i k), (Nat.ltb_spec i (length es)), (Nat.ltb_spec j (length es));
      simpl; try discriminate; try congruence; try lia; intros A B; pose proof (wk_inj W A B); congruence.
  - intros m n. rewrite !nth_set, !set_len.
    destruct ((j =? m) && (j <? length own)); [discriminate|]. destruct ((i =? m) && (i <? length own)); apply (wk_old W).
Qed.
Lemma weak_swap own es objs i j : weak own es objs -> i < length es -> j < length es ->
  weak (set_nth j (own_at own i) (set_nth i (own_at own j) own)) (set_nth j (ent_at es i) (set_nth i (ent_at es j) es)) objs.
Proof.
  intros W LI LJ. pose proof (wk_len W) as L. constructor.
  - rewrite !set_len. auto.
  - intros m n p. rewrite !nth_set, !set_len, L.
    destruct (Nat.eqb_spec j m), (Nat.eqb_spec i m), (Nat.ltb_spec i (length es)), (Nat.ltb_spec j (length es));
      simpl; try discriminate; try lia; apply (wk_obj W).
  - intros m k n. rewrite !nth_set, !set_len, L.
    destruct (Nat.eqb_spec j m), (Nat.eqb_spec i m), (Nat.eqb_spec j k), (Nat.eqb_spec i k), (Nat.ltb_spec i (length es)), (Nat.ltb_spec j (length es));
      simpl; try discriminate; try congruence; try lia; intros A B; pose proof (wk_inj W A B); congruence.
  - intros m n. rewrite !nth_set, !set_len.
    destruct ((j =? m) && (j <? length own)); [apply (wk_old W)|]. destruct ((i =? m) && (i <? length own)); apply (wk_old W).
Qed.

(** The rule for keepers agrees: [j] has what [i] had. *)
Definition kept_by own es own' es' (f : option nat -> option nat) : Prop :=
  forall i n j, own_at own i = Some n -> f (Some i) = Some j ->
    own_at own' j = Some n /\ ent_at es' j = ent_at es i.

Lemma kept_same own es f : (forall i j, f (Some i) = Some j -> j = i) -> kept_by own es own es f.
Proof. intros H i n j A B. rewrite (H i j B). auto. Qed.
Lemma kept_snoc own es own' es' f o e : length own = length own' -> length es = length es' -> length own = length es ->
  (forall i j, f (Some i) = Some j -> i < length es -> j < length es) ->
  kept_by own es own' es' f -> kept_by own es (own' ++ [o]) (es' ++ [e]) f.
Proof.
  intros L L' LL H KB i n j A B. pose proof (nth_in A) as LI. rewrite LL in LI. pose proof (H i j B LI).
  rewrite !nth_snoc, <- L, <- L', LL. destruct (Nat.eqb_spec j (length es)); [lia|]. exact (KB i n j A B).
Qed.
Lemma kept_drop own es i f : (forall a j, f (Some a) = Some j -> j = a /\ a <> i) -> kept_by own es own (set_nth i None es) f.
Proof.
  intros H a n j A B. destruct (H a j B) as (-> & NE). rewrite nth_set. destruct (Nat.eqb_spec i a); [congruence|auto].
Qed.
Lemma kept_got own es objs i o : strong own es objs -> got (ent_at es i) o ->
  kept_by own es own (set_nth i o es) (fun h => match h with Some j => Some j | None => None end).
Proof.
  intros (W & EX) GT a n j A B. inversion B; subst j. split; auto. rewrite nth_set.
  destruct (Nat.eqb_spec i a) as [->|]; simpl; auto. destruct (a <? length es); auto.
  destruct GT as [->|GT]; auto. apply EX in GT. congruence.
Qed.

Ltac same := let Q := fresh in intros ? ? Q; inversion Q; reflexivity.
Ltac plain_keep := first [ apply kept_same; intros ? ? Q; inversion Q; reflexivity
  | apply kept_snoc; rewrite ?map_length; auto; [intros ? ? Q; inversion Q; subst; auto | apply kept_same; intros ? ? Q; inversion Q; reflexivity] ].

Lemma handed_ok s st cs r st' cs' own objs : tracked st cs -> iallowed E s (i_world st) cs -> idone E s st r st' ->
  ipromise E s (i_world st) cs r (i_world st') cs' -> strong own (entries (i_vars st)) objs ->
  let own1 := handed s (gave r) (i_vars st) own in
  weak own1 (entries (i_vars st')) objs /\ kept_by own (entries (i_vars st)) own1 (entries (i_vars st')) (keeper s cs r).
Proof.
  intros T AL D P SG. pose proof (shifted_ok T AL D) as SH. pose proof (proj1 SG) as W. pose proof (wk_len W) as LEN.
  destruct T as (_ & F). pose proof (f2_len F) as LC.
  assert (LE : length (entries (i_vars st)) = length cs) by (rewrite map_length; auto).
  assert (AT : forall i cu, nth_error cs i = Some cu -> i < length (entries (i_vars st))).
  { intros i cu N. rewrite LE. apply nth_error_Some. congruence. }
  assert (ORD : forall i cu, nth_error cs i = Some cu -> ordered_at i (i_vars st) = cu_ord cu).
  { intros i cu N. destruct (f2_nth F N) as (v & NV & S). unfold ordered_at. rewrite NV. exact (stands_kind S). }
  clear D F. set (es := entries (i_vars st)) in *. set (es' := entries (i_vars st')) in *. clearbody es es'.
  assert (KS : forall o e f, (forall i j, f (Some i) = Some j -> j = i) -> kept_by own es (own ++ [o]) (es ++ [e]) f).
  { intros o e f H. apply kept_snoc; auto; [|apply kept_same; auto]. intros i j Q. rewrite (H i j Q). auto. }
  destruct s; cbv zeta; cbn [ipromise] in P.
  - (* ICall *) destruct P as (oc & _ & _ & ->). destruct oc; cbn [gave handed keeper shifted] in *; subst es'; split; auto; apply kept_same; same.
  - destruct P as (_ & -> & _). cbn [gave handed keeper shifted] in *. subst es'. split; [apply weak_snoc; auto|apply KS; same].
  - destruct P as (_ & -> & _). cbn [gave handed keeper shifted] in *. subst es'. split; [apply weak_snoc; auto|apply KS; same].
  - destruct P as (oc & _ & P). cbv zeta in P. destruct oc as [[]|e0]; try contradiction; destruct P as (-> & _); cbn [gave handed keeper shifted] in *; subst es';
      (split; [first [apply weak_snoc; auto|auto]|first [apply KS; same|apply kept_same; same]]).
  - destruct P as (oc & _ & P). cbv zeta in P. destruct oc as [[]|e0]; try contradiction; destruct P as (-> & _); cbn [gave handed keeper shifted] in *; subst es';
      (split; [first [apply weak_snoc; auto|auto]|first [apply KS; same|apply kept_same; same]]).
  - destruct P as (oc & _ & P). cbv zeta in P. destruct oc as [[]|e0]; try contradiction; destruct P as (-> & _); cbn [gave handed keeper shifted] in *; subst es';
      (split; [first [apply weak_snoc; auto|auto]|first [apply KS; same|apply kept_same; same]]).
  - destruct P as (_ & -> & _). cbn [gave handed keeper shifted] in *. subst es'. split; [apply weak_snoc; auto|apply KS; same].
  - (* ICopy *) destruct P as (_ & -> & _). cbn [gave handed keeper shifted] in *. subst es'. split; [apply weak_snoc; auto|apply KS; same].
  - (* IMove *)
    destruct P as (_ & -> & cu & N & _). cbn [gave handed keeper shifted] in *. subst es'. pose proof (AT _ _ N) as LI.
    split; [apply weak_push; auto|].
    intros a n j A B. cbn [keeper] in B. cbv zeta in B. pose proof (nth_in A) as LA. destruct (Nat.eqb_spec a i) as [->|NE]; cbn beta iota zeta in B; injection B as <-; rewrite !nth_snoc, !set_len.
    + rewrite <- LE at 1. rewrite LEN, LE, Nat.eqb_refl. auto.
    + destruct (Nat.eqb_spec a (length own)); [lia|]. destruct (Nat.eqb_spec a (length es)); [lia|]. rewrite !nth_set.
      destruct (Nat.eqb_spec i a); [congruence|]. auto.
  - (* IConst *) destruct P as (_ & -> & _). cbn [gave handed keeper shifted] in *. subst es'. split; [apply weak_snoc; auto|apply KS; same].
  - (* IConstMove *)
    destruct P as (_ & -> & cu & N & _). cbn [gave handed keeper shifted] in *. subst es'.
    split; [apply weak_snoc, weak_drop; auto|]. apply kept_snoc; rewrite ?set_len; auto.
    + intros a j Q. cbn [keeper] in Q. cbv zeta in Q. destruct (a =? i); inversion Q; subst; auto.
    + apply kept_drop. intros a j Q. cbn [keeper] in Q. cbv zeta in Q. destruct (Nat.eqb_spec a i); inversion Q; subst; auto.
  - (* IToOrdered *)
    destruct P as (_ & cu & _ & P). destruct (cu_mark cu); destruct P as (-> & _); cbn [gave handed keeper shifted] in *; subst es';
      (split; [first [apply weak_snoc; auto|auto]|first [apply KS; same|apply kept_same; same]]).
  - (* IToOrderedMove *)
    destruct P as (_ & cu & N & P). pose proof (AT _ _ N) as LI.
    assert (C : (r = IGives (JNew (length cs)) /\ es' = set_nth i None es ++ [ent_at es i]) \/
                (exists e, r = IThrows e /\ es' = set_nth i None es)).
    { destruct (cu_mark cu); destruct P as (-> & _); cbn [shifted] in SH; eauto. }
    destruct C as [(-> & ->)|(e & -> & ->)]; cbn [gave handed keeper].
    + split; [apply weak_push; auto|].
      intros a n j A B. cbn [keeper] in B. cbv zeta in B. pose proof (nth_in A) as LA. destruct (Nat.eqb_spec a i) as [->|NE]; cbn beta iota zeta in B; injection B as <-; rewrite !nth_snoc, !set_len.
      * rewrite <- LE at 1. rewrite LEN, LE, Nat.eqb_refl. auto.
      * destruct (Nat.eqb_spec a (length own)); [lia|]. destruct (Nat.eqb_spec a (length es)); [lia|]. rewrite !nth_set.
        destruct (Nat.eqb_spec i a); [congruence|]. auto.
    + split; [apply weak_free, weak_drop; auto|].
      intros a n j A B. cbn [keeper] in B. cbv zeta in B. destruct (Nat.eqb_spec a i) as [->|NE]; [discriminate B|injection B as <-]. rewrite !nth_set.
      destruct (Nat.eqb_spec i a); [congruence|]. auto.
  - (* IAssign *)
    destruct P as (_ & -> & _). cbn [gave handed keeper shifted] in *. subst es'. destruct (Nat.eqb_spec i j) as [->|NE]; cbn [negb].
    + split; auto. apply kept_same. intros a b. cbn [keeper]. cbv zeta. rewrite Nat.eqb_refl, andb_false_r. intros Q; inversion Q; reflexivity.
    + split; [apply weak_drop; auto|]. apply kept_drop. intros a b Q. cbn [keeper] in Q. cbv zeta in Q. rewrite (proj2 (Nat.eqb_neq i j) NE) in Q. cbn [negb] in Q. rewrite andb_true_r in Q.
      destruct (Nat.eqb_spec a i); inversion Q; subst; auto.
  - (* IAssignMove *)
    destruct P as (_ & -> & cv & N' & _). destruct AL as (cu & cv' & N & N'' & _). cbn [gave handed keeper shifted] in *. subst es'.
    rewrite N', (ORD _ _ N'). destruct (Nat.eqb_spec i j) as [->|NE]; cbn [negb andb].
    + split; auto. apply kept_same. intros a b. cbn [keeper]. cbv zeta. rewrite Nat.eqb_refl. intros Q; inversion Q; reflexivity.
    + destruct (cu_ord cv) eqn:OV.
      * split; [apply weak_take; eauto|]. intros a n b A B. cbn [keeper] in B. cbv zeta in B. rewrite (proj2 (Nat.eqb_neq i j) NE), N' in B. pose proof (nth_in A) as LA.
        pose proof (AT _ _ N). pose proof (AT _ _ N').
        rewrite OV, andb_true_r in B. destruct (Nat.eqb_spec a i) as [->|]; [discriminate|].
        destruct (Nat.eqb_spec a j) as [->|]; cbn beta iota zeta in B; injection B as <-; rewrite !nth_set, !set_len.
        -- destruct (Nat.eqb_spec j i); [congruence|]. rewrite Nat.eqb_refl. simpl.
           rewrite LEN. destruct (Nat.ltb_spec i (length es)); [auto|lia].
        -- destruct (Nat.eqb_spec j a); [congruence|]. destruct (Nat.eqb_spec i a); [congruence|]. auto.
      * split; [apply weak_drop; auto|]. apply kept_drop. intros a b Q. cbn [keeper] in Q. cbv zeta in Q. rewrite (proj2 (Nat.eqb_neq i j) NE) in Q. rewrite N' in Q.
        rewrite OV, andb_false_r in Q. destruct (Nat.eqb_spec a i); inversion Q; subst; auto.
  - (* ISwap *)
    destruct P as (_ & -> & cu & cv & N & N' & _). cbn [gave handed keeper shifted] in *. subst es'.
    pose proof (AT _ _ N). pose proof (AT _ _ N').
    split; [apply weak_swap; auto|]. intros a n b A B. cbn [keeper] in B. cbv zeta in B.
    destruct (Nat.eqb_spec a i) as [->|NE]; [cbn beta iota zeta in B; injection B as <-|destruct (Nat.eqb_spec a j) as [->|NE']; cbn beta iota zeta in B; injection B as <-];
      rewrite !nth_set, !set_len, LEN.
    + rewrite Nat.eqb_refl. destruct (Nat.ltb_spec j (length es)); [auto|lia].
    + rewrite Nat.eqb_refl. destruct (Nat.eqb_spec j i); [congruence|]. destruct (Nat.ltb_spec i (length es)); [auto|lia].
    + destruct (Nat.eqb_spec j a); [congruence|]. destruct (Nat.eqb_spec i a); [congruence|]. auto.
  - (* INext *)
    destruct P as (_ & -> & _). cbn [gave handed keeper shifted] in *. subst es'. split; [apply weak_drop; auto|].
    apply kept_drop. intros a b Q. cbn [keeper] in Q. cbv zeta in Q. destruct (Nat.eqb_spec a i); inversion Q; subst; auto.
  - (* IPrev *)
    destruct P as (_ & -> & _). cbn [gave handed keeper shifted] in *. subst es'. split; [apply weak_drop; auto|].
    apply kept_drop. intros a b Q. cbn [keeper] in Q. cbv zeta in Q. destruct (Nat.eqb_spec a i); inversion Q; subst; auto.
  - (* IPostNext *)
    destruct P as (_ & -> & _). cbn [gave handed keeper shifted] in *. subst es'. split; [apply weak_snoc, weak_drop; auto|].
    apply kept_snoc; rewrite ?set_len; auto.
    + intros a j Q. cbn [keeper] in Q. cbv zeta in Q. destruct (a =? i); inversion Q; subst; auto.
    + apply kept_drop. intros a j Q. cbn [keeper] in Q. cbv zeta in Q. destruct (Nat.eqb_spec a i); inversion Q; subst; auto.
  - (* IPostPrev *)
    destruct P as (_ & -> & _). cbn [gave handed keeper shifted] in *. subst es'. split; [apply weak_snoc, weak_drop; auto|].
    apply kept_snoc; rewrite ?set_len; auto.
    + intros a j Q. cbn [keeper] in Q. cbv zeta in Q. destruct (a =? i); inversion Q; subst; auto.
    + apply kept_drop. intros a j Q. cbn [keeper] in Q. cbv zeta in Q. destruct (Nat.eqb_spec a i); inversion Q; subst; auto.
  - (* IRead *)
    assert (H : handed (IRead i) (gave r) (i_vars st) own = own).
    { destruct P as (_ & _ & cu & _ & k & l & k' & v & _ & _ & _ & ->). reflexivity. }
    rewrite H. cbn [keeper shifted] in *. destruct SH as (o & -> & GT). split; [apply weak_got; auto|exact (kept_got SG GT)].
  - (* IWrite *)
    destruct P as (_ & -> & _). cbn [gave handed keeper shifted] in *. destruct SH as (o & -> & GT). split; [apply weak_got; auto|exact (kept_got SG GT)].
  - (* IEntry *)
    assert (H : handed (IEntry i) (gave r) (i_vars st) own = own).
    { destruct P as (_ & cu & _ & l & oc & _ & _ & P). destruct oc as [[]|]; try contradiction; [destruct e; [|contradiction]|]; subst r; reflexivity. }
    rewrite H. cbn [keeper shifted] in *. destruct SH as (o & -> & GT). split; [apply weak_got; auto|exact (kept_got SG GT)].
  - (* IKey *)
    assert (H : handed (IKey i) (gave r) (i_vars st) own = own).
    { destruct P as (_ & cu & _ & l & oc & _ & _ & P). destruct oc as [[]|]; try contradiction; [destruct e; [|contradiction]|]; subst r; reflexivity. }
    rewrite H. cbn [keeper shifted] in *. destruct SH as (o & -> & GT). split; [apply weak_got; auto|exact (kept_got SG GT)].
  - (* IValue *)
    assert (H : handed (IValue i) (gave r) (i_vars st) own = own).
    { destruct P as (_ & cu & _ & l & oc & _ & _ & P). destruct oc as [[]|]; try contradiction; [destruct e; [|contradiction]|]; subst r; reflexivity. }
    rewrite H. cbn [keeper shifted] in *. destruct SH as (o & -> & GT). split; [apply weak_got; auto|exact (kept_got SG GT)].
  - (* ISame *)
    destruct P as (_ & _ & cu & cv & _ & _ & ->). cbn [gave handed keeper shifted] in *. subst es'. split; auto. apply kept_same; same.
  - (* IErase *)
    destruct P as (cu & _ & l & oc & _ & P). cbv zeta in P. destruct P as (_ & _ & ->).
    destruct oc; cbn [gave handed keeper shifted] in *; subst es'; (split; auto; apply kept_same; same).
  - (* IValid *)
    destruct P as (_ & cu & _ & l & oc & _ & _ & P). destruct oc as [[]|]; try contradiction; subst r;
      cbn [gave handed keeper shifted] in *; subst es'; (split; auto; apply kept_same; same).
Qed.

(** ** Elements *)
Definition holds w (p : mptr) (h : hold (K := K)) : Prop :=
  match h with
  | None => True
  | Some (c, k) => exists r s cl, lives E k c w r s cl /\ p = (r, cl_m cl)
  end.

Lemma held_call o oc w w1 aw aw1 p h : rel E w aw -> rel E w1 aw1 -> copy_free o = true -> call E o w oc w1 ->
  holds w p h -> holds w1 p (held_after E o oc w1 h).
Proof.
  intros R R1 CF C H. destruct h as [(c & k)|]; simpl; auto. destruct H as (r & s & cl & L & ->).
  destruct (present E k (follow o oc c) w1) eqn:PR; simpl; auto.
  destruct (has E k (range_into c o)) eqn:HA; simpl; auto.
  destruct (present_lives G R1 PR) as (r1 & s1 & cl1 & L1).
  destruct (cell_step G CF R R1 C HA L eq_refl L1) as (-> & <- & _). eauto.
Qed.
Lemma holds_stands w w1 : (forall v cu, stands w v cu -> stands w1 v cu) -> forall p h, holds w p h -> holds w1 p h.
Proof.
  intros H p h. destruct h as [(c & k)|]; simpl; auto. intros (r & s & cl & L & ->).
  pose proof (H _ _ (st_at_o L (or_intror eq_refl))) as S. inversion S; subst.
  match goal with A : _ \/ Some _ = Some _ |- _ => destruct A as [A|A]; [discriminate A|] end.
  match goal with A : Some _ = Some _ |- _ => injection A as A end.
  eexists _, _, _. split; [eassumption|congruence].
Qed.
Lemma holds_same w w1 : w_caches w1 = w_caches w -> w_stores w1 = w_stores w -> forall p h, holds w p h -> holds w1 p h.
Proof. intros A B. apply holds_stands. intros v cu. apply stands_same; auto. Qed.
Lemma holds_watch o oc w w1 : observer o = true -> call E o w oc w1 -> forall p h, holds w p h -> holds w1 p h.
Proof.
  intros O C. pose proof (observer_ticked E O w) as T.
  destruct oc; simpl in C; rewrite C in T; destruct T as (A & B & _); apply holds_same; auto.
Qed.

Lemma carried_ok s st cs r st' cs' : tracked st cs -> iallowed E s (i_world st) cs -> idone E s st r st' ->
  ipromise E s (i_world st) cs r (i_world st') cs' -> tracked st' cs' ->
  exists f, carried E s (i_world st) cs (i_world st') f /\ forall p h, holds (i_world st) p h -> holds (i_world st') p (f h).
Proof.
  intros ((aw & R) & F) AL D P ((aw' & R') & _).
  destruct s; cbn [ipromise carried] in *; cbv zeta in *;
    try (destruct P as (W & _); rewrite W; exists (fun h => h); split; [reflexivity|auto]; fail).
  - destruct AL as (CF & _). destruct P as (oc & C & _). eexists. split; [eauto|]. intros p h. apply (held_call R R' CF C).
  - destruct P as (oc & C & _). eexists. split; [eauto|]. intros p h. apply (fun H => @held_call _ _ _ _ _ _ p h R R' H C). reflexivity.
  - destruct P as (oc & C & _). eexists. split; [eauto|]. intros p h. apply (fun H => @held_call _ _ _ _ _ _ p h R R' H C). reflexivity.
  - destruct P as (oc & C & _). eexists. split; [eauto|]. intros p h. apply (fun H => @held_call _ _ _ _ _ _ p h R R' H C). reflexivity.
  - (* IWrite *)
    exists (fun h => h). split; [reflexivity|]. destruct st as [w vs]. cbn [i_world i_vars] in *.
    destruct AL as (cu & N & k & MK). destruct (f2_nth F N) as (x & NV & S).
    destruct (deref_ok G i vs S MK) as (r0 & s & cl & v' & L & X & S').
    destruct (write_ok G v R L) as (w' & aw1 & WR & R1 & OW & SW).
    unfold idone, iexec, with_var, bind in D. cbn [i_vars] in D.
    destruct r; rewrite NV in D; cbn [i_world i_vars] in D; rewrite X in D; unfold lift in D; cbn [i_vars i_world] in D; rewrite WR in D; inversion D; subst.
    exact (holds_stands SW).
  - destruct P as (_ & cu & _ & l & oc & _ & C & _). exists (fun h => h). split; [reflexivity|]. refine (holds_watch _ C); reflexivity.
  - destruct P as (_ & cu & _ & l & oc & _ & C & _). exists (fun h => h). split; [reflexivity|]. refine (holds_watch _ C); reflexivity.
  - destruct P as (_ & cu & _ & l & oc & _ & C & _). exists (fun h => h). split; [reflexivity|]. refine (holds_watch _ C); reflexivity.
  - (* IErase *)
    destruct P as (cu & N & l & oc & Q & C & _). eexists. split; [exists cu, l; split; [exact N|split; [exact Q|exists oc; split; [exact C|reflexivity]]]|].
    intros p h. apply (@held_call _ _ _ _ _ _ p h R R'); [destruct (cu_ord cu); reflexivity|exact C].
  - destruct P as (_ & cu & _ & l & oc & _ & C & _). exists (fun h => h). split; [reflexivity|]. refine (holds_watch _ C); reflexivity.
Qed.

(** ** Programs *)
Definition ref_ok w own objs (n : nat) (q : option nat * hold (K := K)) : Prop :=
  match fst q with
  | None => True
  | Some i => own_at own i = Some n /\ exists p, ent_at objs n = Some p /\ holds w p (snd q)
  end.
Record runs (x : xstate K V) (p : plan (K := K)) : Prop := {
  rn_tracked : tracked (x_st x) (p_cs p);
  rn_ended : x_ended x = p_ended p;
  rn_own : strong (x_own x) (entries (i_vars (x_st x))) (x_objs x);
  rn_refs : Forall2 (ref_ok (i_world (x_st x)) (x_own x) (x_objs x)) (x_refs x) (p_refs p);
  rn_copies : Forall2 (holds (i_world (x_st x))) (x_copies x) (p_copies p)
}.

Lemma gone_in i l : ~ In i l -> gone i l = false.
Proof.
  intros H. unfold gone. destruct (existsb (Nat.eqb i) l) eqn:X; auto. apply existsb_exists in X.
  destruct X as (j & I & Q). apply Nat.eqb_eq in Q. subst. contradiction.
Qed.
Lemma none_gone (s : istep K V) l : (forall i, In i (mentions s) -> ~ In i l) -> existsb (fun i => gone i l) (mentions s) = false.
Proof.
  intros H. destruct (existsb _ _) eqn:X; auto. apply existsb_exists in X. destruct X as (i & I & Q).
  rewrite (gone_in (H i I)) in Q. discriminate.
Qed.

(** References after a step. *)
Lemma refs_move w w' own objs own1 es es' st' (x : xstate K V) kp (f : hold -> hold) : x_own x = own -> x_objs x = objs ->
  strong own es objs -> weak own1 (entries (i_vars st')) objs -> es' = entries (i_vars st') ->
  kept_by own es own1 es' kp -> kp None = None -> (forall p h, holds w p h -> holds w' p (f h)) ->
  forall ns qs, Forall2 (ref_ok w own objs) ns qs ->
    Forall2 (ref_ok w' (x_own (settle own1 st' x)) (x_objs (settle own1 st' x))) ns (map (fun q => (kp (fst q), f (snd q))) qs).
Proof.
  intros <- <- SG W -> KB KN HF ns qs F2. destruct (settle_ok W) as (_ & KEEP).
  induction F2 as [|n q ns qs H F2 IH]; simpl; constructor; auto.
  unfold ref_ok in *. cbn [fst snd]. destruct (fst q) as [i|]; [|rewrite KN; auto].
  destruct H as (A & p & B & C). destruct (kp (Some i)) as [j|] eqn:KJ; auto.
  destruct (KB i n j A KJ) as (A' & EJ).
  assert (EI : ent_at es i = Some p).
  { destruct (ent_at es i) as [p'|] eqn:Q; [|apply (proj2 SG) in Q; congruence].
    rewrite <- B. symmetry. exact (wk_obj (proj1 SG) A Q). }
  rewrite EI in EJ. destruct (KEEP j n p A' EJ) as (A2 & B2). split; auto. exists p. auto.
Qed.

Lemma step_runs x p s : runs x p -> eallowed E s (i_world (x_st x)) p ->
  exists r x' p', edone E s x r x' /\ epromise E s (i_world (x_st x)) p r (i_world (x_st x')) p' /\ runs x' p'.
Proof.
  intros [T EN OW RF CP] AL. destruct s.
  - (* EDo *)
    destruct AL as (AL & NE). destruct (step_ok G T AL) as (r & st' & cs' & D & P & T').
    destruct (carried_ok T AL D P T') as (f & CA & HF).
    destruct (handed_ok T AL D P OW) as (W & KB). cbv zeta in *.
    exists (match r with IGives a => EGives (FStep a) | IThrows e => @EThrows K V e end),
      (settle (handed s (gave r) (i_vars (x_st x)) (x_own x)) st' x),
      (MkP cs' (p_ended p) (map (fun q => (keeper s (p_cs p) r (fst q), f (snd q))) (p_refs p)) (map f (p_copies p))).
    split; [|split].
    + unfold edone, e_exec. rewrite EN, (none_gone NE). destruct r; simpl in D; rewrite D; reflexivity.
    + exists r, cs', f. auto.
    + constructor; cbn [p_cs p_ended p_refs p_copies].
      * exact T'.
      * exact EN.
      * exact (proj1 (settle_ok W)).
      * exact (refs_move eq_refl eq_refl OW W eq_refl KB eq_refl HF RF).
      * cbn [x_copies settle x_st]. clear -CP HF. induction CP; simpl; constructor; auto.
  - (* EEnd *)
    destruct AL as (LI & NE). destruct (nth_error (p_cs p) i) as [cu|] eqn:N; [|apply nth_error_None in N; lia].
    destruct T as (R & F). destruct (f2_nth F N) as (v & NV & S).
    set (st' := MkI (i_world (x_st x)) (set_nth i (VNull (ordered_var v)) (i_vars (x_st x)))).
    assert (ES : entries (i_vars st') = set_nth i None (entries (i_vars (x_st x)))) by (cbn [st' i_vars]; apply ent_set).
    assert (W : weak (x_own x) (entries (i_vars st')) (x_objs x)) by (rewrite ES; apply weak_drop, OW).
    set (kp := fun h => match h with Some j => if Nat.eqb i j then None else Some j | None => None end).
    assert (KB : kept_by (x_own x) (entries (i_vars (x_st x))) (x_own x) (entries (i_vars st')) kp).
    { rewrite ES. apply kept_drop. intros a j Q. unfold kp in Q. destruct (Nat.eqb_spec i a); inversion Q; subst; auto. }
    eexists (EGives FUnit), _, _. split; [unfold edone, e_exec; rewrite EN, (gone_in NE), NV; reflexivity|].
    split; [split; [reflexivity|split; [reflexivity|exists cu; split; [exact N|reflexivity]]]|].
    constructor; cbn [p_cs p_ended p_refs p_copies x_st x_ended x_own x_objs x_refs x_copies].
    + split; [exact R|]. cbn [i_vars]. apply f2_set; auto. constructor. cbn [ordered_var]. exact (stands_kind S).
    + first [reflexivity|rewrite EN; reflexivity].
    + exact (proj1 (settle_ok W)).
    + exact (refs_move (w := i_world (x_st x)) (f := fun h => h) eq_refl eq_refl OW W eq_refl KB eq_refl (fun _ _ H => H) RF).
    + exact CP.
  - (* ERef *)
    destruct AL as (NE & cu & k & N & MK). destruct T as ((aw & R) & F). destruct (f2_nth F N) as (v & NV & S).
    destruct (x_st x) as [w vs] eqn:XS. cbn [i_world i_vars] in *.
    destruct (deref_ok G i vs S MK) as (r0 & s & cl & v' & L & X & S').
    destruct (ent_i_deref X) as (ES & GT). cbn [i_vars] in ES. set (st' := MkI w (set_nth i v' vs)) in *.
    rewrite <- (nth_ent NV) in GT.
    assert (W : weak (x_own x) (entries (i_vars st')) (x_objs x)) by (cbn [st' i_vars]; rewrite ES; apply (weak_got OW GT)).
    pose proof (kept_got OW GT) as KB. rewrite <- ES in KB. change (set_nth i v' vs) with (i_vars st') in KB.
    destruct (settle_ok W) as (OW' & _).
    assert (LI : i < length (entries vs)) by (rewrite map_length; apply nth_error_Some; congruence).
    assert (EI : ent_at (entries (i_vars st')) i = Some (r0, cl_m cl)).
    { cbn [st' i_vars]. rewrite ES, nth_set, Nat.eqb_refl. destruct (Nat.ltb_spec i (length (entries vs))); [auto|lia]. }
    destruct (own_at (x_own (settle (x_own x) st' x)) i) as [n|] eqn:ON; [|apply (proj2 OW') in ON; congruence].
    eexists (EGives (FNew (length (p_refs p)))), _, _.
    split; [unfold edone, e_exec; rewrite EN, (gone_in NE), XS; cbn [i_vars]; rewrite NV, X; cbv zeta; fold st'; rewrite ON;
            cbn [settle x_refs]; rewrite (f2_len RF); reflexivity|].
    split; [split; [reflexivity|split; [reflexivity|exists cu, k; split; [exact N|split; [exact MK|reflexivity]]]]|].
    constructor; cbn [p_cs p_ended p_refs p_copies x_st x_ended x_own x_objs x_refs x_copies].
    + split; [exists aw; exact R|]. cbn [i_vars st' i_world]. eapply f2_put; eauto.
    + exact EN.
    + exact OW'.
    + apply Forall2_app.
      * pose proof (refs_move (w := w) (f := fun h => h) eq_refl eq_refl OW W eq_refl KB eq_refl (fun _ _ H => H) RF) as RM.
        erewrite map_ext in RM; [rewrite map_id in RM; exact RM|]. intros ([a|] & b); reflexivity.
      * constructor; [|constructor]. unfold ref_ok. cbn [fst snd]. split; [exact ON|].
        exists (r0, cl_m cl). split; [exact (wk_obj (proj1 OW') ON EI)|]. simpl. eauto.
    + exact CP.
  - (* ECopy *)
    destruct AL as (i & h & N). destruct (f2_nth RF N) as (n & NR & A & ptr & B & C). cbn [snd] in C.
    eexists (EGives (FNew (length (p_copies p)))), _, _.
    split; [unfold edone, e_exec, through; rewrite NR, B, (f2_len CP); reflexivity|].
    split; [split; [reflexivity|split; [reflexivity|eexists _, _; split; [exact N|reflexivity]]]|].
    constructor; cbn [p_cs p_ended p_refs p_copies x_st x_ended x_own x_objs x_refs x_copies]; auto.
    apply f2_new; auto.
  - (* ERead *)
    destruct AL as (i & (c & k) & N). destruct (f2_nth RF N) as (n & NR & A & ptr & B & C). cbn [snd holds] in C.
    destruct C as (r0 & s & cl & L & ->). destruct T as ((aw & R) & F).
    destruct (lives_cells G R L) as (y & a & l1 & l2 & At & <- & Ha & Rp & Q & CT & D).
    eexists (EGives (FEnt _ _)), x, p.
    split; [unfold edone, e_exec, through; rewrite NR, B; unfold on_caches, read_entry, bind; rewrite (lives_deref L); unfold ret;
      destruct x as [[] ? ? ? ? ?]; reflexivity|].
    split; [split; [reflexivity|split; [reflexivity|exists (Some i), (c, k); split; [exact N|]]]|constructor; auto; split; eauto].
    eexists _, _, _. split; [exact CT|split; [|reflexivity]]. rewrite pairs_mid. apply look_mid; auto.
  - (* EWrite *)
    destruct AL as (i & (c & k) & N). destruct (f2_nth RF N) as (n & NR & A & ptr & B & C). cbn [snd holds] in C.
    destruct C as (r0 & s & cl & L & ->). destruct T as ((aw & R) & F).
    destruct (write_ok G v R L) as (w' & aw' & WR & R' & OV & SW).
    eexists (EGives FUnit), _, p.
    split; [unfold edone, e_exec, through; rewrite NR, B; unfold on_caches; rewrite WR; reflexivity|].
    split; [split; [reflexivity|split; [reflexivity|exists (Some i), c, k; split; [exact N|exact OV]]]|].
    constructor; cbn [x_st x_ended x_own x_objs x_refs x_copies i_world i_vars]; auto.
    + split; [eauto|]. eapply f2_imp; eauto.
    + eapply f2_imp; [exact RF|]. intros m q. unfold ref_ok. destruct (fst q); auto. intros (? & p0 & ? & H).
      split; auto. exists p0. split; auto. eapply holds_stands; eauto.
    + eapply f2_imp; [exact CP|]. apply (holds_stands SW).
  - (* EReadCopy *)
    destruct AL as ((c & k) & N). destruct (f2_nth CP N) as (ptr & NR & r0 & s & cl & L & ->). destruct T as ((aw & R) & F).
    destruct (lives_cells G R L) as (y & a & l1 & l2 & At & <- & Ha & Rp & Q & CT & D).
    eexists (EGives (FEnt _ _)), x, p.
    split; [unfold edone, e_exec; rewrite NR; unfold on_caches, read_entry, bind; rewrite (lives_deref L); unfold ret;
      destruct x as [[] ? ? ? ? ?]; reflexivity|].
    split; [split; [reflexivity|split; [reflexivity|exists (c, k); split; [exact N|]]]|constructor; auto; split; eauto].
    eexists _, _, _. split; [exact CT|split; [|reflexivity]]. rewrite pairs_mid. apply look_mid; auto.
  - (* EWriteCopy *)
    destruct AL as ((c & k) & N). destruct (f2_nth CP N) as (ptr & NR & r0 & s & cl & L & ->). destruct T as ((aw & R) & F).
    destruct (write_ok G v R L) as (w' & aw' & WR & R' & OV & SW).
    eexists (EGives FUnit), _, p.
    split; [unfold edone, e_exec; rewrite NR; unfold on_caches; rewrite WR; reflexivity|].
    split; [split; [reflexivity|split; [reflexivity|exists c, k; split; [exact N|exact OV]]]|].
    constructor; cbn [x_st x_ended x_own x_objs x_refs x_copies i_world i_vars]; auto.
    + split; [eauto|]. eapply f2_imp; eauto.
    + eapply f2_imp; [exact RF|]. intros m q. unfold ref_ok. destruct (fst q); auto. intros (? & p0 & ? & H).
      split; auto. exists p0. split; auto. eapply holds_stands; eauto.
    + eapply f2_imp; [exact CP|]. apply (holds_stands SW).
Qed.

Lemma edone_fun s x r x1 r' x2 : edone E s x r x1 -> edone E s x r' x2 -> r = r' /\ x1 = x2.
Proof. destruct r, r'; simpl; intros; split; congruence. Qed.
Lemma carried_fun s w cs w' f g : carried E s w cs w' f -> carried E s w cs w' g -> f = g.
Proof.
  assert (BC : forall o f g, (exists oc, call E o w oc w' /\ f = held_after E o oc w') ->
    (exists oc, call E o w oc w' /\ g = held_after E o oc w') -> f = g).
  { intros o f0 g0 (a & A & ->) (b & B & ->). rewrite (call_fun A B). reflexivity. }
  destruct s; cbn [carried]; cbv zeta; eauto; try congruence.
  intros (cu & l & N & Q & A) (cv & m & N' & Q' & B). rewrite N in N'. inversion N'; subst cv.
  rewrite (sequence_fun Q Q') in A. eauto.
Qed.
Lemma epromise_fun s w p r w' p1 p2 : epromise E s w p r w' p1 -> epromise E s w p r w' p2 -> p1 = p2.
Proof.
  destruct s; cbn [epromise].
  - intros (r0 & cs1 & f & P & C & Q & ->) (r1 & cs2 & g & P' & C' & Q' & ->).
    assert (r1 = r0) by (destruct r0, r1; congruence). subst r1.
    rewrite (promise_fun P P'), (carried_fun C C'). reflexivity.
  - intros (_ & _ & cu & N & ->) (_ & _ & cv & N' & ->). congruence.
  - intros (_ & _ & cu & k & N & M & ->) (_ & _ & cv & k' & N' & M' & ->). congruence.
  - intros (_ & _ & i & h & N & ->) (_ & _ & i' & h' & N' & ->). congruence.
  - intros (_ & -> & _) (_ & -> & _). reflexivity.
  - intros (-> & _) (-> & _). reflexivity.
  - intros (_ & -> & _) (_ & -> & _). reflexivity.
  - intros (-> & _) (-> & _). reflexivity.
Qed.

Lemma plays_runs x p : eplays E x p -> runs x p.
Proof.
  induction 1 as [|x p s r x' p' P IH AL D PR].
  - constructor; simpl; auto.
    + split; [eexists; apply rel_init|constructor].
    + split; [constructor; simpl; auto|]; try (intros [|]; simpl; intros; try discriminate; tauto).
  - destruct (step_runs IH AL) as (r1 & x1 & p1 & D1 & PR1 & T1).
    destruct (edone_fun D D1) as (<- & <-). rewrite (epromise_fun PR PR1). exact T1.
Qed.

Theorem entry_steps x p s : eplays E x p -> eallowed E s (i_world (x_st x)) p ->
  exists r x' p', edone E s x r x' /\ epromise E s (i_world (x_st x)) p r (i_world (x_st x')) p'.
Proof.
  intros P AL. destruct (step_runs (plays_runs P) AL) as (r & x' & p' & D & PR & _). eauto 6.
Qed.

(** ** References and copies *)
Theorem ref_usable x p r i c k : eplays E x p -> nth_error (p_refs p) r = Some (Some i, Some (c, k)) ->
  (exists l k' v x', contents E c (i_world (x_st x)) l /\ look E k l = Some (k', v) /\
     e_exec E (ERead r) x = Val (FEnt k' v) x' /\ i_world (x_st x') = i_world (x_st x)) /\
  (forall v, exists x', e_exec E (EWrite r v) x = Val (@FUnit K V) x' /\
     overwritten E c k v (i_world (x_st x)) (i_world (x_st x'))).
Proof.
  intros P N. split.
  - destruct (@entry_steps x p (ERead r) P) as (o & x' & p' & D & W & -> & j & h & N' & l & k' & v & CT & LK & ->); [simpl; eauto|].
    rewrite N in N'. inversion N'; subst. simpl in CT, LK. eexists l, k', v, x'. simpl in D. auto.
  - intros v. destruct (@entry_steps x p (EWrite r v) P) as (o & x' & p' & D & -> & -> & j & c' & k' & N' & OV); [simpl; eauto|].
    rewrite N in N'. inversion N'; subst. eauto.
Qed.
Theorem copy_usable x p e c k : eplays E x p -> nth_error (p_copies p) e = Some (Some (c, k)) ->
  (exists l k' v x', contents E c (i_world (x_st x)) l /\ look E k l = Some (k', v) /\
     e_exec E (EReadCopy e) x = Val (FEnt k' v) x' /\ i_world (x_st x') = i_world (x_st x)) /\
  (forall v, exists x', e_exec E (EWriteCopy e v) x = Val (@FUnit K V) x' /\
     overwritten E c k v (i_world (x_st x)) (i_world (x_st x'))).
Proof.
  intros P N. split.
  - destruct (@entry_steps x p (EReadCopy e) P) as (o & x' & p' & D & W & -> & h & N' & l & k' & v & CT & LK & ->); [simpl; eauto|].
    rewrite N in N'. inversion N'; subst. simpl in CT, LK. eexists l, k', v, x'. simpl in D. auto.
  - intros v. destruct (@entry_steps x p (EWriteCopy e v) P) as (o & x' & p' & D & -> & -> & c' & k' & N' & OV); [simpl; eauto|].
    rewrite N in N'. inversion N'; subst. eauto.
Qed.
Lemma look_equal k j l : key_equal E k j = true -> look E k l = look E j l.
Proof.
  intros Q. induction l as [|q l IH]; simpl; auto. rewrite IH.
  replace (key_equal E k (fst q)) with (key_equal E j (fst q)); auto.
  apply Bool.eq_iff_eq_true. split; intros H.
  - eapply (good_trans G); eauto.
  - eapply (good_trans G); [|exact H]. rewrite (good_sym G). exact Q.
Qed.
Theorem refs_agree x p r i c k r' i' k' : eplays E x p ->
  nth_error (p_refs p) r = Some (Some i, Some (c, k)) -> nth_error (p_refs p) r' = Some (Some i', Some (c, k')) ->
  key_equal E k k' = true ->
  (exists j v x1 x2, e_exec E (ERead r) x = Val (FEnt j v) x1 /\ e_exec E (ERead r') x = Val (FEnt j v) x2) /\
  (forall v, exists x1 j x2, e_exec E (EWrite r v) x = Val (@FUnit K V) x1 /\ e_exec E (ERead r') x1 = Val (FEnt j v) x2).
Proof.
  intros P N N' Q. split.
  - destruct (ref_usable P N) as ((l & j & v & x1 & CT & LK & D & _) & _).
    destruct (ref_usable P N') as ((l' & j' & v' & x2 & CT' & LK' & D' & _) & _).
    assert (l' = l) by (unfold contents in *; congruence). subst l'. rewrite (look_equal l Q) in LK. rewrite LK in LK'. inversion LK'; subst.
    exists j', v', x1, x2. auto.
  - intros v.
    destruct (@entry_steps x p (EWrite r v) P) as (o & x1 & p1 & D & PR); [simpl; eauto|].
    assert (P1 : eplays E x1 p1) by (eapply eplays_step; [exact P| |exact D|exact PR]; simpl; eauto).
    destruct PR as (-> & -> & i0 & c0 & k0 & N0 & OV). rewrite N in N0. inversion N0; subst.
    destruct (ref_usable P N') as ((l0 & j0 & v0 & x0 & CT0 & LK0 & _) & _).
    destruct (ref_usable P1 N') as ((l & j & v' & x2 & CT & LK & D' & _) & _).
    pose proof (ow_contents OV true c0 l0 CT0) as CT1. rewrite Nat.eqb_refl in CT1.
    assert (l = rewrites E k0 v l0) by (unfold sequence, contents in *; congruence). subst l.
    exists x1, j, x2. split; [exact D|]. rewrite D'. f_equal. f_equal.
    rewrite <- (look_equal _ Q) in LK. clear -LK. induction l0 as [|q l0 IH]; simpl in LK; [discriminate|].
    destruct (key_equal E k0 (fst q)) eqn:KE; cbn [fst] in LK; rewrite KE in LK; [inversion LK; auto|auto].
Qed.
End EntryRefsProofs.
