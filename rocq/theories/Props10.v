(** Property theorems: wrapped functions. *)
From Coq Require Import List Arith ZArith Bool.
Import ListNotations.
From Verif Require Import Monad Types Model Api EnvEx Spec SpecStats SpecTimed ExBase Wrap SpecWrap WrapCalls.

(** Functions for the examples: two plain ones, the Fibonacci numbers by
    recursion through wrapper 0, one that throws, and one that counts its
    calls. *)
Definition fs (f n k : nat) : fbody nat nat :=
  match f with
  | 0 => Return (10 * k)
  | 1 => Return (S k)
  | 2 => match k with
         | 0 | 1 => Return k
         | S (S j) => Ask 0 0 (S j) (fun a => Ask 0 0 j (fun b => Return (a + b)))
         end
  | 3 => Raise 7
  | _ => Return (100 + n)
  end.
Definition wworld_after (E : env nat nat) (ops : list (wop nat)) : wworld nat nat :=
  match wrun E fs 20 ops init_wworld with WFinished _ w => w | _ => init_wworld end.
Definition outs_of (E : env nat nat) (ops : list (wop nat)) : list (woutcome nat) :=
  match wrun E fs 20 ops init_wworld with WFinished l _ => l | _ => [] end.
Definition wfinishes (h : whist nat nat) : bool := match h with WFinished _ _ => true | _ => false end.
Lemma wafter_reachable E ops : wfinishes (wrun E fs 20 ops init_wworld) = true -> wreachable E fs 20 (wworld_after E ops).
Proof.
  unfold wworld_after. intros H. destruct (wrun E fs 20 ops init_wworld) as [outs w| |] eqn:R; try discriminate.
  exists ops, outs. exact R.
Qed.
Ltac wreached := apply wafter_reachable; vm_compute; reflexivity.

(** C47.  Every call of a wrapped function returns (or throws) what the original
    function does, which may itself call wrapped functions.  [val i k] is what the
    function wrapped by closure [i] does for [k]: it must not depend on how often
    it was called, nor distinguish equal arguments.  Functions of the same type,
    wrapped alike, must do the same: this is what is missing from the full
    statement, which is refuted below. *)
Theorem C47_deterministic_partial : forall K V (E : env K V) F depth val ops outs w, good E ->
  (forall i k k', key_equal E k k' = true -> val i k = val i k') ->
  wrun E F depth ops init_wworld = WFinished outs w ->
  (forall i o n k, closure w i o -> settles val (F (wo_fun o) n k) (val i k)) ->
  (forall i j o o' k, closure w i o -> closure w j o' -> same_type o o' -> val i k = val j k) ->
  forall n i cat k out, nth_error ops n = Some (CallWrapped i cat k) -> nth_error outs n = Some out ->
    out <> WReturned WIll -> out = answered (val i k).
Proof. intros. eapply deterministic; eauto. Qed.
Print Assumptions C47_deterministic_partial.

Fixpoint fib (n : nat) : nat :=
  match n with 0 => 0 | 1 => 1 | S (S j as m) => fib m + fib j end.
Definition C47_val (i k : nat) : answer nat :=
  match i with 0 => inl (fib k) | 1 => inl (S k) | _ => inr (UserExn 7) end.
Definition C47_ops : list (wop nat) :=
  [Var 3%Z; Wrap 0 2 None (Some (Lvalue 0)); Wrap 1 1 None None; Wrap 2 3 None None;
   CallWrapped 0 0 10; CallWrapped 1 0 10; CallWrapped 2 0 10; CallWrapped 0 0 10; CallWrapped 1 0 10].
Example C47_case : good E0 /\ (forall i k k', key_equal E0 k k' = true -> C47_val i k = C47_val i k') /\
  wrun E0 fs 20 C47_ops init_wworld = WFinished (outs_of E0 C47_ops) (wworld_after E0 C47_ops) /\
  (forall i o n k, closure (wworld_after E0 C47_ops) i o -> settles C47_val (fs (wo_fun o) n k) (C47_val i k)) /\
  (forall i j o o' k, closure (wworld_after E0 C47_ops) i o -> closure (wworld_after E0 C47_ops) j o' -> same_type o o' ->
     C47_val i k = C47_val j k) /\
  skipn 4 (outs_of E0 C47_ops) =
    [WReturned (WVal 55); WReturned (WVal 11); WThrew (UserExn 7); WReturned (WVal 55); WReturned (WVal 11)].
Proof.
  split; [apply ex_good|]. split; [intros i k k' H; apply Nat.eqb_eq in H; subst; reflexivity|].
  split; [vm_compute; reflexivity|].
  assert (O : ww_objs (wworld_after E0 C47_ops) = [MkWrapped 0 2 None (Some 0); MkWrapped 1 1 None None; MkWrapped 2 3 None None])
    by (vm_compute; reflexivity).
  unfold closure. rewrite O. split; [|split; [|vm_compute; reflexivity]].
  - intros [|[|[|[|i]]]] o n k H; inversion H; subst; simpl.
    + destruct k as [|[|j]]; try apply settles_return.
      eapply settles_ask; [reflexivity|]. eapply settles_ask; [reflexivity|]. apply settles_return.
    + apply settles_return.
    + apply settles_raise.
  - intros [|[|[|[|i]]]] [|[|[|[|j]]]] o o' k H H' T; inversion H; inversion H'; subst; auto;
      destruct T as (T & _); discriminate T.
Qed.

(** Two functions of the same type: the second returns what the first computed. *)
Definition C47_bad : list (wop nat) := [Wrap 0 0 None None; Wrap 0 1 None None; CallWrapped 0 0 5; CallWrapped 1 0 5].
Theorem C47_refuted : exists (E : env nat nat) F depth ops outs w i o cat k v,
  good E /\ (forall f n k, plain_function (F f n k) = true /\ F f n k = F f 0 k) /\
  wrun E F depth ops init_wworld = WFinished outs w /\
  nth_error ops 3 = Some (CallWrapped i cat k) /\ nth_error outs 3 = Some (WReturned (WVal v)) /\
  closure w i o /\ forall n, F (wo_fun o) n k <> Return v.
Proof.
  exists E0, (fun f n k => if Nat.eqb f 0 then Return (10 * k) else Return (S k)), 20, C47_bad.
  do 7 eexists. split; [apply ex_good|]. split; [intros [|f] n k; auto|].
  split; [vm_compute; reflexivity|]. split; [reflexivity|]. split; [reflexivity|].
  split; [reflexivity|]. intros n. vm_compute. discriminate.
Qed.
Print Assumptions C47_refuted.

(** C48.  After a call returned [v], the original functions are not called for
    equal arguments (and [v] is returned), by any closure of the same type, as
    long as fewer other arguments were used with the same cache than its capacity,
    and, timed, the result has not expired.  Missing from the full statement: the
    arguments must be passed in the same way (types and value categories [cat]);
    without this it is refuted below. *)
Theorem C48_kept_partial : forall K V (E : env K V) F depth w0 i o cat k v w1 c n others ops outs w2 i2 o2 k', good E ->
  wreachable E F depth w0 -> closure w0 i o -> returns E F depth i cat k w0 v w1 ->
  cache_of w1 o cat c -> capacity_is E c (ww_world w1) n -> length others < n ->
  (ttl_of c (ww_world w1) None \/ monotone_time E) ->
  wrun E F depth ops w1 = WFinished outs w2 -> used_only E o cat k others w1 w2 ->
  closure w2 i2 o2 -> same_type o o2 -> key_equal E k k' = true ->
  ~ old E c (ww_world w2) k (clock E (w_reads (ww_world w2))) ->
  exists w3, returns E F depth i2 cat k' w2 v w3 /\ not_called w2 w3.
Proof. intros. eapply stays_cached with (w0 := w0) (w1 := w1); eauto. Qed.
Print Assumptions C48_kept_partial.

Definition C48_before : list (wop nat) := [Var 3%Z; Wrap 0 4 None (Some (Lvalue 0)); CopyWrapped 0; CallWrapped 0 0 7].
Definition C48_between : list (wop nat) := [CallWrapped 0 0 5; CallWrapped 0 0 8; CallWrapped 1 0 7; CallWrapped 1 0 8; CallWrapped 0 0 5].
Definition C48_w0 : wworld nat nat := wworld_after E0 C48_before.
Definition C48_w1 : wworld nat nat := wworld_after E0 (C48_before ++ [CallWrapped 0 0 9]).
Example C48_case : exists o outs, good E0 /\
  wreachable E0 fs 20 C48_w0 /\ closure C48_w0 0 o /\ returns E0 fs 20 0 0 9 C48_w0 101 C48_w1 /\
  cache_of C48_w1 o 0 0 /\ capacity_is E0 0 (ww_world C48_w1) 3 /\ length [5; 8] < 3 /\
  ttl_of 0 (ww_world C48_w1) None /\
  wrun E0 fs 20 [CallWrapped 0 0 5; CallWrapped 1 0 8; CallWrapped 1 0 5] C48_w1 = WFinished outs
    (wworld_after E0 (C48_before ++ [CallWrapped 0 0 9; CallWrapped 0 0 5; CallWrapped 1 0 8; CallWrapped 1 0 5])) /\
  used_only E0 o 0 9 [5; 8] C48_w1
    (wworld_after E0 (C48_before ++ [CallWrapped 0 0 9; CallWrapped 0 0 5; CallWrapped 1 0 8; CallWrapped 1 0 5])) /\
  (* one more, and the result is gone *)
  nth_error (outs_of E0 (C48_before ++ [CallWrapped 0 0 9] ++ C48_between ++ [CallWrapped 0 0 9])) 10 =
    Some (WReturned (WVal 105)).
Proof.
  do 2 eexists. split; [apply ex_good|]. split; [wreached|].
  split; [vm_compute; reflexivity|]. split; [vm_compute; reflexivity|]. split; [vm_compute; reflexivity|].
  split; [vm_compute; reflexivity|]. split; [repeat constructor|].
  split; [eexists; split; vm_compute; reflexivity|]. split; [vm_compute; reflexivity|].
  split; [|vm_compute; reflexivity].
  exists [((0, false, true, 0), 5); ((0, false, true, 0), 8); ((0, false, true, 0), 5)]. split; [vm_compute; reflexivity|].
  simpl. intros k' [H|[H|[H|[]]]]; inversion H; subst; [exists 5|exists 8|exists 5]; auto 10.
Qed.

(** The same arguments, passed as an rvalue instead of an lvalue. *)
Theorem C48_refuted : exists (E : env nat nat) F depth w0 i cat cat' k v w1 v' w2 o c n,
  good E /\ wreachable E F depth w0 /\ closure w0 i o /\ returns E F depth i cat k w0 v w1 /\
  cache_of w1 o cat c /\ capacity_is E c (ww_world w1) n /\ 0 < n /\ ttl_of c (ww_world w1) None /\
  returns E F depth i cat' k w1 v' w2 /\ ~ not_called w1 w2.
Proof.
  exists E0, fs, 20, (wworld_after E0 [Wrap 0 0 None None]), 0, 0, 1, 5. do 7 eexists.
  split; [apply ex_good|]. split; [wreached|].
  split; [vm_compute; reflexivity|]. split; [vm_compute; reflexivity|]. split; [vm_compute; reflexivity|].
  split; [vm_compute; reflexivity|]. split; [apply Nat.lt_0_succ|].
  split; [eexists; split; vm_compute; reflexivity|]. split; [vm_compute; reflexivity|].
  vm_compute. discriminate.
Qed.
Print Assumptions C48_refuted.

(** C49.  What a wrapped function returns was computed, for equal arguments, by a
    function wrapped by a closure of the same type; and calls that use other
    closure types (or pass the arguments otherwise) do not change its cache.
    Missing from the full statement: functions of the same type wrapped alike,
    which share results and capacity (refuted below). *)
Theorem C49_own_results_partial : forall K V (E : env K V) F depth w i cat k v w' o, good E ->
  wreachable E F depth w -> returns E F depth i cat k w v w' -> closure w i o -> computed E w' o k v.
Proof. intros. eapply own_results; eauto. Qed.
Print Assumptions C49_own_results_partial.
Theorem C49_separate_partial : forall K V (E : env K V) F depth w o cat c l ops outs w', good E ->
  wreachable E F depth w -> cache_of w o cat c -> contents E c (ww_world w) l ->
  wrun E F depth ops w = WFinished outs w' ->
  (forall k asked, ww_asked w' = asked ++ ww_asked w -> ~ In (static_of o cat, k) asked) ->
  cache_of w' o cat c /\ contents E c (ww_world w') l.
Proof. intros. eapply separate; eauto. Qed.
Print Assumptions C49_separate_partial.

Definition C49_ops : list (wop nat) := [Wrap 0 0 None None; Wrap 1 1 None None; CallWrapped 0 0 5].
Example C49_case : exists w' outs o, good E0 /\ wreachable E0 fs 20 (wworld_after E0 C49_ops) /\
  returns E0 fs 20 1 0 5 (wworld_after E0 C49_ops) 6 w' /\
  closure (wworld_after E0 C49_ops) 0 o /\ cache_of (wworld_after E0 C49_ops) o 0 0 /\
  contents E0 0 (ww_world (wworld_after E0 C49_ops)) [(5, 50)] /\
  wrun E0 fs 20 [CallWrapped 1 0 5; CallWrapped 0 1 8] (wworld_after E0 C49_ops) =
    WFinished outs (wworld_after E0 (C49_ops ++ [CallWrapped 1 0 5; CallWrapped 0 1 8])) /\
  (forall k asked, ww_asked (wworld_after E0 (C49_ops ++ [CallWrapped 1 0 5; CallWrapped 0 1 8])) =
    asked ++ ww_asked (wworld_after E0 C49_ops) -> ~ In (static_of o 0, k) asked).
Proof.
  do 3 eexists. split; [apply ex_good|]. split; [wreached|].
  split; [vm_compute; reflexivity|]. split; [vm_compute; reflexivity|]. split; [vm_compute; reflexivity|].
  split; [vm_compute; reflexivity|]. split; [vm_compute; reflexivity|].
  intros k asked H.
  change (ww_asked (wworld_after E0 (C49_ops ++ [CallWrapped 1 0 5; CallWrapped 0 1 8])))
    with ([((0, false, false, 1), 8); ((1, false, false, 0), 5)] ++ ww_asked (wworld_after E0 C49_ops)) in H.
  apply app_inv_tail in H. subst asked. simpl. intros [Q|[Q|[]]]; discriminate Q.
Qed.

(** Separately wrapped functions of the same type see each other's results ... *)
Theorem C49_results_refuted : exists (E : env nat nat) F depth w i o cat k v w',
  good E /\ wreachable E F depth w /\ returns E F depth i cat k w v w' /\ closure w i o /\
  (forall f n k, plain_function (F f n k) = true) /\
  ~ In (wo_fun o) (map (fun r => fst (fst r)) (ww_results w')).
Proof.
  pose (F := fun f (n : nat) k => if Nat.eqb f 0 then Return (10 * k) else @Return nat nat (S k)).
  exists E0, F, 20.
  destruct (wrun E0 F 20 [Wrap 0 0 None None; Wrap 0 1 None None; CallWrapped 0 0 5] init_wworld) as [outs w| |] eqn:R;
    vm_compute in R; try discriminate R.
  exists w, 1, (MkWrapped 0 1 None None), 0, 5. do 2 eexists. split; [apply ex_good|].
  split; [exists [Wrap 0 0 None None; Wrap 0 1 None None; CallWrapped 0 0 5], outs; exact R|].
  inversion R; subst. split; [vm_compute; reflexivity|]. split; [reflexivity|].
  split; [intros [|f] n k; reflexivity|]. vm_compute. intros [H|[]]. discriminate H.
Qed.
Print Assumptions C49_results_refuted.
(** ... and the second uses the capacity given to the first. *)
Theorem C49_capacity_refuted : exists (E : env nat nat) F depth w i o cat c n m,
  good E /\ wreachable E F depth w /\ closure w i o /\ refers w (wo_cap o) (Some (Z.of_nat n)) /\
  cache_of w o cat c /\ capacity_is E c (ww_world w) m /\ m <> n.
Proof.
  exists E0, fs, 20, (wworld_after E0 [Var 2%Z; Var 5%Z; Wrap 0 0 None (Some (Lvalue 0)); Wrap 0 1 None (Some (Lvalue 1)); CallWrapped 0 0 7; CallWrapped 1 0 5]).
  exists 1, (MkWrapped 0 1 None (Some 1)), 0, 0, 5, 2. split; [apply ex_good|]. split; [wreached|].
  split; [vm_compute; reflexivity|]. split; [vm_compute; reflexivity|].
  split; [vm_compute; reflexivity|]. split; [vm_compute; reflexivity|]. discriminate.
Qed.
Print Assumptions C49_capacity_refuted.

(** C50.  The first call of a closure type creates its cache with the values its
    references refer to at that time (capacity 128 if none was given), and the
    cache keeps them for ever; programs that keep the arguments alive never use
    a dangling reference, whatever the functions do.  (They may recurse too deeply
    for the given depth, or call closures that do not exist.)  Missing: temporaries,
    timed_wrap, and variables changed after the call of wrap, see below. *)
Theorem C50_first_call_partial : forall K V (E : env K V) F depth w i o cat k ttl cap out ops outs w'', good E ->
  wreachable E F depth w -> closure w i o -> (forall c, ~ cache_of w o cat c) ->
  refers w (wo_ttl o) ttl -> refers w (wo_cap o) cap ->
  wrun E F depth (CallWrapped i cat k :: ops) w = WFinished (out :: outs) w'' ->
  exists c, cache_of w'' o cat c /\ capacity_is E c (ww_world w'') (capacity_arg cap) /\ ttl_of c (ww_world w'') ttl.
Proof. intros. eapply arguments_used; eauto. Qed.
Print Assumptions C50_first_call_partial.
Theorem C50_lasting_partial : forall K V (E : env K V) F depth ops, good E -> forallb lasting ops = true ->
  match wrun E F depth ops init_wworld with
  | WFinished _ _ => True
  | WUndefined _ u => u = FuelExhausted \/ u = DeadObject
  | WTerminated _ _ => False
  end.
Proof. intros. apply never_dangles; auto. Qed.
Print Assumptions C50_lasting_partial.

Definition C50_ops : list (wop nat) := [Var 50%Z; Var 2%Z; Wrap 0 2 (Some (Lvalue 0)) (Some (Lvalue 1)); Wrap 1 1 None None].
Example C50_case : exists outs, good ET /\ wreachable ET fs 20 (wworld_after ET C50_ops) /\
  closure (wworld_after ET C50_ops) 0 (MkWrapped 0 2 (Some 0) (Some 1)) /\
  (forall c, ~ cache_of (wworld_after ET C50_ops) (MkWrapped 0 2 (Some 0) (Some 1)) 0 c) /\
  refers (wworld_after ET C50_ops) (Some 0) (Some 50%Z) /\ refers (wworld_after ET C50_ops) (Some 1) (Some 2%Z) /\
  wrun ET fs 20 [CallWrapped 0 0 6; SetVar 1 9%Z; CallWrapped 1 0 6; CallWrapped 0 0 6] (wworld_after ET C50_ops) =
    WFinished (WReturned (WVal 8) :: outs) (wworld_after ET (C50_ops ++ [CallWrapped 0 0 6; SetVar 1 9%Z; CallWrapped 1 0 6; CallWrapped 0 0 6])) /\
  forallb lasting (C50_ops ++ [CallWrapped 0 0 6; SetVar 1 9%Z; CallWrapped 1 0 6; CallWrapped 0 0 6]) = true.
Proof.
  eexists. split; [apply ex_good|]. split; [wreached|]. split; [vm_compute; reflexivity|].
  split; [intros c; vm_compute; discriminate|]. split; [vm_compute; reflexivity|]. split; [vm_compute; reflexivity|].
  split; [vm_compute; reflexivity|reflexivity].
Qed.

(** wrap(f, 3): the capacity is read from a temporary that is gone. *)
Theorem C50_temporary_refuted : exists (E : env nat nat) F depth ops outs,
  good E /\ (forall f n k, plain_function (F f n k) = true) /\ depth <> 0 /\
  wrun E F depth ops init_wworld = WUndefined outs DanglingReference /\
  ops = [Wrap 0 0 None (Some (Temporary 3%Z)); CallWrapped 0 0 5].
Proof.
  exists E0, (fun f n k => Return (10 * k)), 20. do 2 eexists. split; [apply ex_good|]. split; [reflexivity|].
  split; [discriminate|]. split; [|reflexivity]. vm_compute. reflexivity.
Qed.
Print Assumptions C50_temporary_refuted.
(** timed_wrap always does this: the first call is undefined, for all functions,
    durations, arguments, and states of the program. *)
Theorem C50_timed_wrap_refuted : forall K V (E : env K V) F depth w ty f d cap cat k,
  depth <> 0 -> arg_alive w cap = true -> find_static (ty, true, is_some cap, cat) (ww_statics w) = None ->
  wrun E F depth [TimedWrap ty f d cap; CallWrapped (length (ww_objs w)) cat k] w =
    WUndefined [WReturned (WNat (length (ww_objs w)))] DanglingReference.
Proof. intros. apply timed_wrap_dangles; auto. Qed.
Print Assumptions C50_timed_wrap_refuted.
Example C50_timed_wrap_case : arg_alive (wworld_after E0 C47_ops) (Some (Lvalue 0)) = true /\
  find_static (0, true, true, 0) (ww_statics (wworld_after E0 C47_ops)) = None.
Proof. split; vm_compute; reflexivity. Qed.
(** A variable that is changed between wrap and the first call. *)
Theorem C50_changed_refuted : exists (E : env nat nat) F depth ops outs w c o,
  good E /\ wrun E F depth ops init_wworld = WFinished outs w /\
  ops = [Var 3%Z; Wrap 0 0 None (Some (Lvalue 0)); SetVar 0 8%Z; CallWrapped 0 0 5] /\
  closure w 0 o /\ cache_of w o 0 c /\ capacity_is E c (ww_world w) 8.
Proof.
  exists E0, fs, 20. do 5 eexists. split; [apply ex_good|].
  split; [|split; [reflexivity|]]; [vm_compute; reflexivity|].
  split; [vm_compute; reflexivity|]. split; vm_compute; reflexivity.
Qed.
Print Assumptions C50_changed_refuted.

(** C64.  A result for arguments that were not in the cache is served until the
    time to live has passed since the call (as long as there is room, see C48);
    a result that has expired is never returned, the function is called instead.
    Missing: results that are computed again after they expired, see below. *)
Theorem C64_new_partial : forall K V (E : env K V) F depth w0 i o cat k v w1 c n d others ops outs w2 i2 o2 k', good E ->
  wreachable E F depth w0 -> closure w0 i o -> returns E F depth i cat k w0 v w1 ->
  (forall c, cache_of w0 o cat c -> absent E k c (ww_world w0)) ->
  cache_of w1 o cat c -> capacity_is E c (ww_world w1) n -> length others < n ->
  ttl_of c (ww_world w1) (Some d) -> monotone_time E ->
  wrun E F depth ops w1 = WFinished outs w2 -> used_only E o cat k others w1 w2 ->
  closure w2 i2 o2 -> same_type o o2 -> key_equal E k k' = true ->
  (forall m, during (ww_world w0) (ww_world w1) m -> young E d (clock E m) (clock E (w_reads (ww_world w2)))) ->
  exists w3, returns E F depth i2 cat k' w2 v w3 /\ not_called w2 w3.
Proof. intros. eapply new_served with (w0 := w0) (w1 := w1); eauto. Qed.
Print Assumptions C64_new_partial.
Theorem C64_expired_partial : forall K V (E : env K V) F depth w i o cat k c, good E ->
  wreachable E F depth w -> closure w i o -> cache_of w o cat c ->
  old E c (ww_world w) k (clock E (w_reads (ww_world w))) ->
  match wexec E F depth (CallWrapped i cat k) w with
  | Val _ w' | Exc _ w' => ww_calls w < ww_calls w'
  | _ => True
  end.
Proof. intros. eapply expired_called; eauto. Qed.
Print Assumptions C64_expired_partial.

(** The clock advances by one with every reading: calls 2 and 3 are served from
    the cache, then the result (time to live 2) has expired. *)
Definition C64_ops : list (wop nat) := [Var 2%Z; Wrap 0 4 (Some (Lvalue 0)) None].
Definition C64_w (n : nat) : wworld nat nat := wworld_after ET (C64_ops ++ repeat (CallWrapped 0 0 5) n).
Definition C64_o : wobj := MkWrapped 0 4 (Some 0) None.
Example C64_case : good ET /\ wreachable ET fs 20 (C64_w 0) /\ wreachable ET fs 20 (C64_w 3) /\
  closure (C64_w 0) 0 C64_o /\ closure (C64_w 2) 0 C64_o /\ closure (C64_w 3) 0 C64_o /\
  returns ET fs 20 0 0 5 (C64_w 0) 100 (C64_w 1) /\ (forall c, cache_of (C64_w 0) C64_o 0 c -> absent ET 5 c (ww_world (C64_w 0))) /\
  cache_of (C64_w 1) C64_o 0 0 /\ capacity_is ET 0 (ww_world (C64_w 1)) 128 /\ ttl_of 0 (ww_world (C64_w 1)) (Some 2%Z) /\
  monotone_time ET /\ wrun ET fs 20 [CallWrapped 0 0 5] (C64_w 1) = WFinished [WReturned (WVal 100)] (C64_w 2) /\
  used_only ET C64_o 0 5 [] (C64_w 1) (C64_w 2) /\
  (forall m, during (ww_world (C64_w 0)) (ww_world (C64_w 1)) m -> young ET 2 (clock ET m) (clock ET (w_reads (ww_world (C64_w 2))))) /\
  cache_of (C64_w 3) C64_o 0 0 /\ old ET 0 (ww_world (C64_w 3)) 5 (clock ET (w_reads (ww_world (C64_w 3)))) /\
  skipn 2 (outs_of ET (C64_ops ++ repeat (CallWrapped 0 0 5) 5)) =
    [WReturned (WVal 100); WReturned (WVal 100); WReturned (WVal 100); WReturned (WVal 101); WReturned (WVal 102)].
Proof.
  split; [apply ex_good|]. split; [wreached|]. split; [wreached|].
  split; [vm_compute; reflexivity|]. split; [vm_compute; reflexivity|]. split; [vm_compute; reflexivity|].
  split; [vm_compute; reflexivity|]. split; [intros c; vm_compute; discriminate|].
  split; [vm_compute; reflexivity|]. split; [vm_compute; reflexivity|].
  split; [eexists; split; vm_compute; reflexivity|].
  split; [split; simpl; intros; [apply Nat2Z.inj_le|]; assumption|].
  split; [vm_compute; reflexivity|]. split.
  { exists [((0, true, false, 0), 5)]. split; [vm_compute; reflexivity|].
    intros k' [H|[]]. inversion H; subst. exists 5. simpl. auto. }
  split.
  { intros m. replace (w_reads (ww_world (C64_w 0))) with 0 by (vm_compute; reflexivity). unfold during.
    replace (w_reads (ww_world (C64_w 1))) with 1 by (vm_compute; reflexivity).
    replace (w_reads (ww_world (C64_w 0))) with 0 by (vm_compute; reflexivity).
    intros (_ & H). destruct m; [|exfalso; apply Nat.lt_1_r in H; discriminate H]. vm_compute. discriminate. }
  split; [vm_compute; reflexivity|]. split; [eexists; vm_compute; reflexivity|]. vm_compute; reflexivity.
Qed.

(** After the result expired and the function was called again, the new result
    is not served: the very next call calls the function again, although the time
    to live has not passed since. *)
Theorem C64_refuted : exists (E : env nat nat) F depth w0 i o cat k v w1 c n d v' w2,
  good E /\ wreachable E F depth w0 /\ closure w0 i o /\ monotone_time E /\
  cache_of w0 o cat c /\ old E c (ww_world w0) k (clock E (w_reads (ww_world w0))) /\
  returns E F depth i cat k w0 v w1 /\ ~ not_called w0 w1 /\
  capacity_is E c (ww_world w1) n /\ 0 < n /\ ttl_of c (ww_world w1) (Some d) /\
  (forall m, during (ww_world w0) (ww_world w1) m -> young E d (clock E m) (clock E (w_reads (ww_world w1)))) /\
  returns E F depth i cat k w1 v' w2 /\ ~ not_called w1 w2 /\ v' <> v.
Proof.
  exists ET, fs, 20, (C64_w 3), 0, C64_o, 0, 5, 101, (C64_w 4), 0, 128, 2%Z, 102, (C64_w 5).
  split; [apply ex_good|]. split; [wreached|]. split; [vm_compute; reflexivity|].
  split; [split; simpl; intros; [apply Nat2Z.inj_le|]; assumption|].
  split; [vm_compute; reflexivity|]. split; [eexists; vm_compute; reflexivity|].
  split; [vm_compute; reflexivity|]. split; [vm_compute; discriminate|]. split; [vm_compute; reflexivity|].
  split; [apply Nat.lt_0_succ|]. split; [eexists; split; vm_compute; reflexivity|].
  split; [|split; [vm_compute; reflexivity|split; [vm_compute; discriminate|discriminate]]].
  unfold during, young. replace (w_reads (ww_world (C64_w 3))) with 3 by (vm_compute; reflexivity).
  replace (w_reads (ww_world (C64_w 4))) with 4 by (vm_compute; reflexivity).
  intros m (H1 & H2). destruct m as [|[|[|[|m]]]]; try (exfalso; repeat apply le_S_n in H1; inversion H1; fail).
  - vm_compute. discriminate.
  - exfalso. repeat apply le_S_n in H2. inversion H2.
Qed.
Print Assumptions C64_refuted.
