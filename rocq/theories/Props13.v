(** Property theorems: the library's own Optional. *)
From Coq Require Import List Bool.
Import ListNotations.
From Verif Require Import Monad Model Optional SpecOptional OptionalProofs.

(** Elements are numbers; converting adds 100, an element moved from is 0. *)
Definition EO : oenv nat := MkOenv (fun _ => false) (fun x => 100 + x) (fun _ => 0).
Definition EO1 : oenv nat := MkOenv (fun n => Nat.eqb n 1) (fun x => 100 + x) (fun _ => 0).

(** C70.  If memory suffices, a program over Optionals does what the program over
    plain optional values does; it is undefined only where that is. *)
Theorem C70_value_semantics : forall (T : Type) (E : oenv T), (forall n, oe_fails E n = false) -> forall prog,
  match o_values E prog [] with
  | Some a => exists w, o_run E prog ow_init = Some w /\ o_sees E w a
  | None => o_run E prog ow_init = None
  end.
Proof. exact @program_values. Qed.
Print Assumptions C70_value_semantics.
Definition C70_prog : list (oop nat) :=
  [ODefault; OEmplace 0 5; OCopy 0; OWrite 1 6; OEmplaceFrom 0 0; OMove 1; OValue 1; OAssign 1 0; OAssignMove 0 0; OConvert 2;
   OConvertMove 0; OSwap 0 3; OReset 1; OAssignConvertMove 1 4; ODestroy 2; OAssignMove 3 4].
Example C70_value_case : (forall n, oe_fails EO n = false) /\
  o_values EO C70_prog [] = Some [Some (Some 106); Some (Some 205); None; Some (Some 0); Some None].
Proof. split; [reflexivity|]. vm_compute. reflexivity. Qed.

(** One call, in any world a program reaches, even out of memory. *)
Theorem C70_calls : forall (T : Type) (E : oenv T) prog w a o, o_run E prog ow_init = Some w -> o_sees E w a ->
  match o_spec E o a with
  | Gives v a' => (exists w', o_exec E o w = Val v w' /\ o_sees E w' a') \/
      ((exists n, oe_fails E n = true) /\ o_cheap o = false /\
       if converting_move o then o_exec E o w = Term BadAlloc
       else exists w', o_exec E o w = Exc BadAlloc w' /\ o_sees E w' a)
  | Raises e => o_exec E o w = Exc e w
  | Wrong => exists u, o_exec E o w = Undef u
  end.
Proof. exact @call_answers. Qed.
Print Assumptions C70_calls.
Theorem C70_values_exist : forall (T : Type) (E : oenv T) prog w, o_run E prog ow_init = Some w ->
  exists a, o_sees E w a.
Proof. exact @world_seen. Qed.
Print Assumptions C70_values_exist.
Example C70_calls_case : exists w, o_run EO [ODefault; OEmplace 0 5; ODefault] ow_init = Some w /\
  o_sees EO w [Some (Some 5); Some None] /\ o_exec EO (OValue 1) w = Exc NoValue w /\
  o_exec EO (ODeref 1) w = Undef NullPointer.
Proof.
  eexists. split; [vm_compute; reflexivity|]. split; [|split; vm_compute; reflexivity].
  split; [reflexivity|]. intros [|[|i]]; cbn; [split; reflexivity|reflexivity|destruct i; reflexivity].
Qed.

(** Nothing is leaked: as many cells are allocated as variables hold an element; once
    every variable is destroyed, every cell has been deleted. *)
Theorem C70_no_leaks : forall (T : Type) (E : oenv T) prog w a, o_run E prog ow_init = Some w -> o_sees E w a ->
  allocated w = engaged a.
Proof. exact @no_leaks. Qed.
Print Assumptions C70_no_leaks.
Theorem C70_all_freed : forall (T : Type) (E : oenv T) prog w, o_run E prog ow_init = Some w ->
  (forall i, nth i (ow_vars w) None = None) -> forall p, nth p (ow_heap w) None = None.
Proof. exact @all_freed. Qed.
Print Assumptions C70_all_freed.
Example C70_no_leaks_case : exists w w', o_run EO C70_prog ow_init = Some w /\ allocated w = 3 /\
  o_run EO (C70_prog ++ map ODestroy [0; 1; 3; 4]) ow_init = Some w' /\ length (ow_heap w') = 7 /\
  allocated w' = 0.
Proof.
  do 2 eexists. split; [vm_compute; reflexivity|]. split; [vm_compute; reflexivity|].
  split; [vm_compute; reflexivity|]. split; vm_compute; reflexivity.
Qed.

(** C71.  The whole claim -- an operation that runs out of memory throws and changes
    nothing -- fails for the constructor from an Optional<U>&&, which is noexcept. *)
Theorem C71_converting_move_refuted : exists (E : oenv nat) prog w o,
  o_run E prog ow_init = Some w /\ o_exec E o w = Term BadAlloc.
Proof. exists EO1, [ODefault; OEmplace 0 5]. eexists. exists (OConvertMove 0). split; vm_compute; reflexivity. Qed.
Print Assumptions C71_converting_move_refuted.
(** What holds: every other operation. *)
Theorem C71_failure_changes_nothing_partial : forall (T : Type) (E : oenv T) prog w a o,
  converting_move o = false -> o_run E prog ow_init = Some w -> o_sees E w a ->
  forall e w', o_exec E o w = Exc e w' -> o_sees E w' a.
Proof. exact @failure_keeps. Qed.
Print Assumptions C71_failure_changes_nothing_partial.
Example C71_failure_case : exists w, o_run EO1 [ODefault; OEmplace 0 5; ODefault] ow_init = Some w /\
  o_sees EO1 w [Some (Some 5); Some None] /\ exists w', o_exec EO1 (OAssign 0 0) w = Exc BadAlloc w'.
Proof.
  eexists. split; [vm_compute; reflexivity|]. split; [|eexists; vm_compute; reflexivity].
  split; [reflexivity|]. intros [|[|i]]; cbn; [split; reflexivity|reflexivity|destruct i; reflexivity].
Qed.
(** Moving, swapping, reading and destroying never run out of memory. *)
Theorem C71_cheap_operations : forall (T : Type) (E : oenv T) prog w a o,
  o_cheap o = true -> o_run E prog ow_init = Some w -> o_sees E w a ->
  forall e w', o_exec E o w = Exc e w' -> e = NoValue /\ o_spec E o a = Raises NoValue.
Proof. exact @cheap_throws. Qed.
Print Assumptions C71_cheap_operations.
Example C71_cheap_case : exists w, o_run EO1 [ODefault] ow_init = Some w /\ o_exec EO1 (OValue 0) w = Exc NoValue w /\
  o_cheap (OValue (T := nat) 0) = true.
Proof. eexists. split; [vm_compute; reflexivity|]. split; vm_compute; reflexivity. Qed.
