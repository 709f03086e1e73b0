(** Property theorems: the containers of callbacks. *)
From Coq Require Import List Arith ZArith Bool Permutation.
Import ListNotations.
From Verif Require Import Monad Types Model Api EnvEx Spec SpecStats SpecSettings ExBase FaultEx CbRefs SpecCbRefs CbRefProofs.

(** C98.  In every state that a program reaches, with copies of caches and failing allocations, hit_callbacks(),
    miss_callbacks() and access_callbacks() list what the client has registered, in order, ... *)
Theorem C98_listed : forall (K V : Type) (E : env K V), passive E -> forall st t c g q,
  k_after E st t -> regs t c = Some g -> kexec E (KList q c) st = Val (KIds (g q)) st.
Proof. exact @listed. Qed.
Print Assumptions C98_listed.
(** ... a reference to a container reads what the container holds now, ... *)
Theorem C98_reference : forall (K V : Type) (E : env K V), passive E -> forall st t r c g q,
  k_after E st t -> refs t r = Some (q, c) -> regs t c = Some g -> kexec E (KRead r) st = Val (KIds (g q)) st.
Proof. exact @read_listed. Qed.
Print Assumptions C98_reference.
(** ... calling the functions in it calls each once, in order, and does nothing else (it is no access), ... *)
Theorem C98_by_hand : forall (K V : Type) (E : env K V), passive E -> forall st t r c g q k v b,
  k_after E st t -> refs t r = Some (q, c) -> regs t c = Some g ->
  exists st', kexec E (KEach r k v b) st = Val (KO RUnit) st' /\ only_called (calls_of q k v b (g q)) (k_world st) (k_world st').
Proof. exact @each_listed. Qed.
Print Assumptions C98_by_hand.
(** ... and they are the functions that the cache calls itself (C32). *)
Theorem C98_called : forall (K V : Type) (E : env K V), good E -> forall ops outs w c q l,
  forallb copy_free ops = true -> run E ops init_world = Finished outs w -> alive w c = true ->
  kexec E (KList q c) (MkK w l) = Val (KIds (those q (subs (ledger_of ops outs) c))) (MkK w l).
Proof. exact @called_listed. Qed.
Print Assumptions C98_called.
(** A reference does not outlive its cache. *)
Theorem C98_dead : forall (K V : Type) (E : env K V), passive E -> forall st t r c q,
  k_after E st t -> refs t r = Some (q, c) -> alive (k_world st) c = false -> kexec E (KRead r) st = Undef DeadObject.
Proof. exact @dead_reference. Qed.
Print Assumptions C98_dead.

(** A program, the state after it, and the record kept. *)
Fixpoint k_final {K V} (E : env K V) (l : list (kop K V)) (st : kstate K V) (t : notes) : kstate K V * notes :=
  match l with
  | [] => (st, t)
  | p :: l =>
      match kexec E p st with
      | Val r st' => k_final E l st' (note_step p r t)
      | Exc _ st' => k_final E l st' t
      | _ => (st, t)
      end
  end.
Lemma k_final_after {K V} (E : env K V) l : forall st t, k_after E st t -> k_after E (fst (k_final E l st t)) (snd (k_final E l st t)).
Proof.
  induction l as [|p l IH]; intros st t A; simpl; auto. destruct (kexec E p st) eqn:X; simpl; auto; apply IH.
  - eapply k_returned; eauto.
  - eapply k_threw; eauto.
Qed.
Definition C98_steps : list (kop nat nat) :=
  [KCall (New 3 None); KCall (AddHit 0 5); KBind 0 OnHit 0; KCall (AddHit 0 6); KCall (AddAccess 0 7); KCall (Insert 0 1 10);
   KCall (Copy 0); KCall (ClearHit 1); KCall (AddMiss 1 8); KCall (Move 0); KCall (Swap 1 2); KCall (AddHit 0 9)].
Definition C98_end := k_final E0 C98_steps (@init_kstate nat nat) no_notes.
Example C98_case : passive E0 /\ k_after E0 (fst C98_end) (snd C98_end) /\ refs (snd C98_end) 0 = Some (OnHit, 0) /\
  option_map (fun g => map g [OnHit; OnMiss; OnAccess]) (regs (snd C98_end) 0) = Some [[5; 6; 9]; []; [7]] /\
  option_map (fun g => map g [OnHit; OnMiss; OnAccess]) (regs (snd C98_end) 1) = Some [[]; [8]; [7]] /\
  option_map (fun g => map g [OnHit; OnMiss; OnAccess]) (regs (snd C98_end) 2) = Some [[]; []; []] /\
  kexec E0 (KRead 0) (fst C98_end) = Val (KIds [5; 6; 9]) (fst C98_end) /\
  calls_of OnAccess 1 10 true [5; 6] = [EvAccess 5 1 true; EvAccess 6 1 true].
Proof.
  split; [intros ev w; reflexivity|]. split; [apply k_final_after; constructor|]. do 4 (split; [vm_compute; reflexivity|]).
  split; [|reflexivity]. vm_compute. reflexivity.
Qed.
