(** Property theorems: programs with iterator variables. *)
From Coq Require Import List Arith ZArith Bool Permutation.
Import ListNotations.
From Verif Require Import Monad Types Model Api IterObj EnvEx Spec SpecTimed SpecIter SpecCursor ExBase CursorRun.

Local Notation E0 := (ex_env (fun n => Z.of_nat n)).

(** C72.  In a program that keeps iterators in variables and takes only allowed steps,
    every further allowed step is defined and gives what the cursors promise. *)
Theorem C72_iterators_are_cursors : forall (K V : Type) (E : env K V), good E ->
  forall st cs s, iplays E st cs -> iallowed E s (i_world st) cs ->
  exists r st' cs', idone E s st r st' /\ ipromise E s (i_world st) cs r (i_world st') cs'.
Proof. exact @cursors. Qed.
Print Assumptions C72_iterators_are_cursors.

(** A program: fill a cache, find 2, advance an ordered iterator, erase through the copy
    that i++ returned, convert, compare, write through one iterator and read through
    another. *)
Fixpoint iruns {K V} (E : env K V) (l : list (istep K V)) (st : istate K V) : option (list (ires (K:=K) (V:=V)) * istate K V) :=
  match l with
  | [] => Some ([], st)
  | s :: t =>
      match iexec E s st with
      | Val r st' => option_map (fun p => (IGives r :: fst p, snd p)) (iruns E t st')
      | Exc e st' => option_map (fun p => (@IThrows K V e :: fst p, snd p)) (iruns E t st')
      | _ => None
      end
  end.
Definition C72_prog : list (istep nat nat) :=
  [ICall (New 3 None); ICall (Insert 0 1 10); ICall (Insert 0 2 20); ICall (Insert 0 3 30);
   IFind 0 2; IBegin true 0; IPostNext 1; IErase 0 2; IToOrdered 0; IWrite 0 21].
Definition C72_after (n : nat) : istate nat nat :=
  match iruns E0 (firstn n C72_prog) init_istate with Some (_, st) => st | None => init_istate end.
Definition C72_found : cursor (K:=nat) := MkCur false 0 (AtKey 2).
Definition C72_cs (c : mark (K:=nat)) : list cursor := [C72_found; MkCur true 0 c].
Ltac vmr := vm_compute; reflexivity.
(* one more step, with what it gave and the cursors after it *)
Ltac play num s r cs' := match goal with H : iplays _ _ ?cs |- _ =>
  let N := fresh in
  assert (N : iplays E0 (C72_after num) cs');
  [refine (@plays_step nat nat E0 _ cs s r _ cs' H _ _ _); [| vmr |] | clear H; rename N into H] end.
Ltac play_call num o r cs := play num (ICall o) (IGives (JCall r)) cs;
  [split; [reflexivity|exists (Returned r); eexists; vmr]|exists (Returned r); split; [vmr|split; vmr]|].

Definition C72_all : list (cursor (K:=nat)) := C72_cs (AtKey 3) ++ [MkCur true 0 Stray; MkCur true 0 (AtKey 2)].
Example C72_plays : iplays E0 (C72_after 10) C72_all.
Proof.
  assert (H : iplays E0 (C72_after 0) []) by constructor.
  play_call 1 (@New nat nat 3 None) (@RNat nat nat 0) (@nil (@cursor nat)).
  play_call 2 (@Insert nat nat 0 1 10) (RIns true (Some (1, 10))) (@nil (@cursor nat)).
  play_call 3 (@Insert nat nat 0 2 20) (RIns true (Some (2, 20))) (@nil (@cursor nat)).
  play_call 4 (@Insert nat nat 0 3 30) (RIns true (Some (3, 30))) (@nil (@cursor nat)).
  play 5 (@IFind nat nat 0 2) (@IGives nat nat (JNew 0)) [C72_found];
    [vmr|exists (Returned (ROpt (Some (2, 20)))); split; [vmr|split; vmr]|].
  play 6 (@IBegin nat nat true 0) (@IGives nat nat (JNew 1)) (C72_cs (AtKey 1));
    [vmr|split; [vmr|split; [vmr|exists [(1, 10); (3, 30); (2, 20)]; split; vmr]]|].
  play 7 (@IPostNext nat nat 1) (@IGives nat nat (JNew 2)) (C72_cs (AtKey 3) ++ [MkCur true 0 (AtKey 1)]);
    [eexists; split; [vmr|eexists; vmr]
    |split; [vmr|split; [vmr|eexists; split; [vmr|exists 1, [(1, 10); (3, 30); (2, 20)]; split; [vmr|split; vmr]]]]|].
  play 8 (@IErase nat nat 0 2) (@IGives nat nat JUnit) (C72_cs (AtKey 3) ++ [MkCur true 0 Stray]);
    [eexists; split; [vmr|split; [vmr|discriminate]]
    |eexists; split; [vmr|exists [(1, 10); (3, 30); (2, 20)], (Returned RUnit); split; [vmr|split; [vmr|split; vmr]]]|].
  play 9 (@IToOrdered nat nat 0) (@IGives nat nat (JNew 3)) (C72_cs (AtKey 3) ++ [MkCur true 0 Stray; MkCur true 0 (AtKey 2)]);
    [eexists; split; [vmr|split; [vmr|discriminate]]|split; [vmr|eexists; split; [vmr|split; vmr]]|].
  (* what a write promises is too much to check by hand *)
  assert (A : iallowed E0 (IWrite 0 21) (i_world (C72_after 9)) (C72_cs (AtKey 3) ++ [MkCur true 0 Stray; MkCur true 0 (AtKey 2)])).
  { eexists. split; [vmr|eexists; vmr]. }
  destruct (C72_iterators_are_cursors _ _ _ (ex_good _) _ _ _ H A) as (r & st & cs & D & P).
  assert (X : idone E0 (IWrite 0 21) (C72_after 9) (IGives JUnit) (C72_after 10)) by vmr.
  destruct (done_fun D X) as (-> & ->). pose proof (@plays_step _ _ _ _ _ _ _ _ _ H A D P) as H'.
  destruct P as (-> & _). exact H'.
Qed.
Definition C72_gives (s : istep nat nat) (r : ires) : bool :=
  match iexec E0 s (C72_after 10), r with
  | Val (JEnt a b) _, IGives (JEnt c d) => Nat.eqb a c && Nat.eqb b d
  | Val (JBool a) _, IGives (JBool b) => Bool.eqb a b
  | Undef _, IThrows _ => true
  | _, _ => false
  end.
Example C72_iterators_case :
  let w := i_world (C72_after 10) in
  good E0 /\ iplays E0 (C72_after 10) C72_all /\
  (* the converted copy reads what was written through the original *)
  iallowed E0 (IRead 3) w C72_all /\ C72_gives (IRead 3) (IGives (JEnt 2 21)) = true /\
  (* the iterator advanced stands before it *)
  iallowed E0 (ISame 1 0) w C72_all /\ C72_gives (ISame 1 0) (IGives (JBool false)) = true /\
  iallowed E0 (ISame 3 0) w C72_all /\ C72_gives (ISame 3 0) (IGives (JBool true)) = true /\
  (* the one whose element was erased may not be read, and indeed *)
  ~ iallowed E0 (IRead 2) w C72_all /\ C72_gives (IRead 2) (IThrows InvalidIterator) = true.
Proof.
  split; [apply ex_good|]. split; [exact C72_plays|].
  split; [eexists; split; [reflexivity|eexists; reflexivity]|]. split; [vmr|].
  split; [eexists _, _; split; [reflexivity|split; [reflexivity|split; [reflexivity|split; discriminate]]]|]. split; [vmr|].
  split; [eexists _, _; split; [reflexivity|split; [reflexivity|split; [reflexivity|split; discriminate]]]|]. split; [vmr|].
  split; [|vmr]. intros (cu & N & k & M). injection N as <-. discriminate M.
Qed.
