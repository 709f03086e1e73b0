(** Property theorems: the hash of tuples, and the rates. *)
From Coq Require Import List Arith ZArith Bool Reals.
Import ListNotations.
From Flocq Require Import IEEE754.BinarySingleNaN.
From Verif Require Import Monad Types Model Api EnvEx Spec SpecStats ExBase Hash SpecHash HashProofs HitRate RateMore.

(** C51.  Equal tuples have equal hashes; every hash is a size_t; and the hash
    depends on every element: different hashes of the first element give different
    hashes of the tuple, and whatever the other elements are, changing one of the
    first 32 elements can change the hash.  Beyond these it still can, for some
    choice of the elements before. *)
Theorem C51_equal : forall Ts, Forall lawful Ts -> forall x y : tuple Ts,
  tuple_eqb x y = true -> hash_tuple x = hash_tuple y.
Proof. exact hash_respects. Qed.
Print Assumptions C51_equal.
Theorem C51_size_t : forall Ts (x : tuple Ts), is_size_t (hash_tuple x).
Proof. exact hash_range. Qed.
Print Assumptions C51_size_t.
Theorem C51_first : forall T Qs (x y : el_type T) (q : tuple Qs), lawful T ->
  el_hash T x <> el_hash T y -> @hash_tuple (T :: Qs) (x, q) <> @hash_tuple (T :: Qs) (y, q).
Proof. exact first_element. Qed.
Print Assumptions C51_first.
Theorem C51_every : forall Ps T Qs (p : tuple Ps) (q : tuple Qs), covers T -> length Ps < 32 ->
  exists x y : el_type T, hash_tuple (around p x q) <> hash_tuple (around p y q).
Proof. exact every_element_short. Qed.
Print Assumptions C51_every.
Theorem C51_any_length : forall Ps T Qs (q : tuple Qs), Forall covers Ps -> covers T ->
  exists (p : tuple Ps) (x y : el_type T), hash_tuple (around p x q) <> hash_tuple (around p y q).
Proof. exact every_element. Qed.
Print Assumptions C51_any_length.

(** 64-bit integers, hashed to themselves; and floating-point numbers in
    miniature: two zeros that are equal. *)
Definition u64 : elem := MkElem Z Z.eqb (fun z => Z.modulo z (2 ^ 64)).
Inductive signed_zero := Plus | Minus | Other (n : nat).
Definition zeros : elem := MkElem signed_zero
  (fun x y => match x, y with Other n, Other m => Nat.eqb n m | Other _, _ | _, Other _ => false | _, _ => true end)
  (fun x => match x with Other n => Z.modulo (Z.of_nat n) (2 ^ 64) | _ => 0%Z end).
Example C51_case : Forall lawful [zeros; u64; u64] /\ Forall covers [u64; u64] /\
  @tuple_eqb [zeros; u64; u64] (Plus, (5%Z, (7%Z, tt))) (Minus, (5%Z, (7%Z, tt))) = true /\
  @hash_tuple [zeros; u64; u64] (Plus, (5%Z, (7%Z, tt))) = 11130878719812%Z /\
  @hash_tuple [zeros; u64; u64] (Plus, (5%Z, (8%Z, tt))) <> @hash_tuple [zeros; u64; u64] (Plus, (5%Z, (7%Z, tt))) /\
  @around [zeros; u64] u64 [] (Plus, (5%Z, tt)) 7%Z tt = (Plus, (5%Z, (7%Z, tt))).
Proof.
  assert (LU : lawful u64).
  { split; simpl.
    - intros x. apply Z.mod_pos_bound. reflexivity.
    - intros x y H. apply Z.eqb_eq in H. subst. reflexivity. }
  assert (LZ : lawful zeros).
  { split; simpl.
    - intros [| |n]; try (split; [apply Z.le_refl|reflexivity]). apply Z.mod_pos_bound. reflexivity.
    - intros [| |n] [| |m]; try discriminate; try reflexivity. intros H. apply Nat.eqb_eq in H. subst. reflexivity. }
  assert (CU : covers u64).
  { intros h H. exists h. apply Z.mod_small. exact H. }
  split; [auto|]. split; [auto|]. split; [reflexivity|]. split; [vm_compute; reflexivity|].
  split; [vm_compute; discriminate|reflexivity].
Qed.

(** C52.  After fewer than 2^64 calls, any statistics object that saw an access
    has a hit rate and a miss rate between 0 and 1, that add up to 1: exactly when
    added as doubles, and up to 2^-54 as real numbers; with fewer than 2^53 accesses the
    hit rate is the quotient of hits and accesses up to 2^-54.  Before the first
    access both are NaN. *)
Theorem C52_range : forall (K V : Type) (E : env K V), good E ->
  forall ops outs w, forallb copy_free ops = true -> run E ops init_world = Finished outs w ->
  (Z.of_nat (length ops) < 2 ^ 64)%Z ->
  forall s x, slot (w_stats w) s = Some x -> (0 < total_accesses x)%Z ->
  is_finite (hit_rate x) = true /\ (0 <= B2R (hit_rate x) <= 1)%R /\
  is_finite (miss_rate x) = true /\ (0 <= B2R (miss_rate x) <= 1)%R.
Proof. exact @rates_range. Qed.
Print Assumptions C52_range.
Theorem C52_sum : forall (K V : Type) (E : env K V), good E ->
  forall ops outs w, forallb copy_free ops = true -> run E ops init_world = Finished outs w ->
  (Z.of_nat (length ops) < 2 ^ 64)%Z ->
  forall s x, slot (w_stats w) s = Some x -> (0 < total_accesses x)%Z ->
  B2R (add (hit_rate x) (miss_rate x)) = 1%R /\
  (Rabs (B2R (hit_rate x) + B2R (miss_rate x) - 1) <= / 2 ^ 54)%R.
Proof. exact @rates_sum. Qed.
Print Assumptions C52_sum.
Theorem C52_quotient : forall (K V : Type) (E : env K V), good E ->
  forall ops outs w, forallb copy_free ops = true -> run E ops init_world = Finished outs w ->
  (Z.of_nat (length ops) < 2 ^ 64)%Z ->
  forall s x, slot (w_stats w) s = Some x -> (0 < total_accesses x)%Z -> (total_accesses x < 2 ^ 53)%Z ->
  (Rabs (B2R (hit_rate x) - IZR (total_hits x) / IZR (total_accesses x)) <= / 2 ^ 54)%R.
Proof. exact @rates_exact. Qed.
Print Assumptions C52_quotient.
Theorem C52_no_access : forall (K : Type) (x : statistics K), total_accesses x = 0%Z -> total_hits x = 0%Z ->
  is_nan (hit_rate x) = true /\ is_nan (miss_rate x) = true.
Proof. exact @rates_before_access. Qed.
Print Assumptions C52_no_access.
Definition C52_ops : list (op nat nat) :=
  [New 2 None; MonitorNew 0 [1]; Insert 0 1 10; Find 0 1; Contains 0 2; Lookup 0 3].
Definition C52_stats : statistics nat := MkStats 3 1 [(1, (1, 0)%Z)].
Example C52_case : good E0 /\ run E0 C52_ops init_world = Finished (fst (seen (run E0 C52_ops init_world))) (world_after E0 C52_ops) /\
  slot (w_stats (world_after E0 C52_ops)) 0 = Some C52_stats /\
  B2SF (hit_rate C52_stats) = SpecFloat.S754_finite false 6004799503160661 (-54) /\
  B2SF (miss_rate C52_stats) = SpecFloat.S754_finite false 6004799503160662 (-53) /\
  slot (w_stats (world_after E0 [New 2 None; MonitorNew 0 [1]])) 0 = Some (MkStats 0 0 [(1, (0, 0)%Z)]).
Proof. split; [apply ex_good|]. ands; vm_compute; reflexivity. Qed.
