(** Proofs about the hash of tuples. *)
From Coq Require Import List ZArith Lia Znumtheory.
Import ListNotations.
From Verif Require Import Model Hash SpecHash.
Local Open Scope Z_scope.

Definition M64 : Z := 18446744073709551616.

Lemma wrap64_range z : is_size_t (wrap64 z).
Proof. unfold is_size_t, wrap64. apply Z.mod_pos_bound. reflexivity. Qed.

Lemma wrap64_def z : wrap64 z = z mod M64.
Proof. reflexivity. Qed.

Lemma combine_range c s : is_size_t (combine c s).
Proof. apply wrap64_range. Qed.

Lemma zero_size_t : is_size_t 0.
Proof. unfold is_size_t. lia. Qed.

Lemma hash_range Ts (x : tuple Ts) : is_size_t (hash_tuple x).
Proof.
  destruct Ts as [|T Ts]; simpl.
  - apply zero_size_t.
  - apply combine_range.
Qed.

Lemma hash_respects Ts (L : Forall lawful Ts) (x y : tuple Ts) :
  tuple_eqb x y = true -> hash_tuple x = hash_tuple y.
Proof.
  induction Ts as [|T Ts IH]; [reflexivity|].
  destruct x as [x xs], y as [y ys]. cbn [tuple_eqb hash_tuple fst snd].
  inversion L as [|? ? LT LTs]; subst. intros E.
  destruct (el_eqb T x y) eqn:Q.
  - rewrite (proj2 LT _ _ Q). rewrite (IH LTs _ _ E). reflexivity.
  - discriminate E.
Qed.

(** ** The arithmetic *)

Lemma combine_eq c s :
  combine c s = (c + 2654435769 + 64 * s + s / 4) mod M64.
Proof.
  unfold combine. rewrite !wrap64_def.
  rewrite Z.shiftl_mul_pow2 by lia. rewrite Z.shiftr_div_pow2 by lia.
  change (2 ^ 6) with 64. change (2 ^ 2) with 4.
  rewrite <- Zplus_mod. rewrite Zplus_mod_idemp_l. f_equal. lia.
Qed.

Lemma mod_eq_divide a b : a mod M64 = b mod M64 -> exists k, a - b = k * M64.
Proof.
  intros H. exists (a / M64 - b / M64).
  pose proof (Z.div_mod a M64 ltac:(unfold M64; lia)).
  pose proof (Z.div_mod b M64 ltac:(unfold M64; lia)). nia.
Qed.

Lemma small_multiple a k : - M64 < a < M64 -> a = k * M64 -> a = 0.
Proof. unfold M64. intros. assert (k = 0) by lia. lia. Qed.

(** The combination of hashes is injective in the hash of the element. *)
Lemma combine_inj c c' s :
  is_size_t c -> is_size_t c' -> combine c s = combine c' s -> c = c'.
Proof.
  rewrite !combine_eq. unfold is_size_t. intros H H' E.
  apply mod_eq_divide in E as [k E].
  assert (c - c' = k * M64) by lia.
  assert (c - c' = 0) by (apply (small_multiple (c - c') k); [unfold M64; lia|assumption]). lia.
Qed.

Lemma cancel257 q k : 257 * q = k * M64 -> exists j, q = j * M64.
Proof.
  intros H.
  assert (D : (M64 | 257 * q)) by (exists k; lia).
  apply Gauss in D.
  - destruct D as [j D]. exists j. exact D.
  - apply Zgcd_1_rel_prime. reflexivity.
Qed.

(** Two seeds with the same combination and the same last two bits are equal. *)
Lemma seed_inj c s s' :
  is_size_t s -> is_size_t s' -> s mod 4 = s' mod 4 ->
  combine c s = combine c s' -> s = s'.
Proof.
  rewrite !combine_eq. unfold is_size_t. intros H H' R E.
  apply mod_eq_divide in E as [k E].
  pose proof (Z.div_mod s 4 ltac:(lia)) as D. pose proof (Z.div_mod s' 4 ltac:(lia)) as D'.
  pose proof (Z.mod_pos_bound s 4 ltac:(lia)).
  set (q := s / 4) in *. set (q' := s' / 4) in *. set (r := s mod 4) in *.
  rewrite <- R in D'.
  assert (257 * (q - q') = k * M64) by lia.
  destruct (cancel257 _ _ H1) as [j J].
  assert (q - q' = 0) by (apply (small_multiple (q - q') j); [unfold M64; lia|exact J]). lia.
Qed.

(** ** Every element matters *)

(** The hash of the tuple as a function of the hash at one place. *)
Fixpoint outer (ps : list Z) (s : Z) : Z :=
  match ps with
  | [] => s
  | p :: ps => combine p (outer ps s)
  end.

Fixpoint hashes {Ts : list elem} : tuple Ts -> list Z :=
  match Ts with
  | [] => fun _ => []
  | T :: Ts => fun x => el_hash T (fst x) :: hashes (snd x)
  end.

Lemma hashes_len Ts (x : tuple Ts) : length (hashes x) = length Ts.
Proof. induction Ts; simpl; auto. Qed.

Lemma hash_around Ps T Qs (p : tuple Ps) (x : el_type T) (q : tuple Qs) :
  hash_tuple (around p x q) = outer (hashes p) (combine (el_hash T x) (hash_tuple q)).
Proof.
  induction Ps as [|P Ps IH]; simpl; [reflexivity|]. rewrite IH. reflexivity.
Qed.

Lemma outer_range ps s : is_size_t s -> is_size_t (outer ps s).
Proof. destruct ps; simpl; auto using combine_range. Qed.

(** *** At most four seeds have the same image *)

Lemma NoDup_small (l : list Z) : NoDup l -> (forall x, In x l -> 0 <= x < 4) -> (length l <= 4)%nat.
Proof.
  intros N H.
  assert (incl l [0; 1; 2; 3]).
  { intros x I. specialize (H x I). simpl. lia. }
  apply (NoDup_incl_length N) in H0. exact H0.
Qed.

Lemma NoDup_map_on {A B} (f : A -> B) (l : list A) :
  NoDup l -> (forall x y, In x l -> In y l -> f x = f y -> x = y) -> NoDup (map f l).
Proof.
  induction l as [|x l IH]; intros N I; [constructor|].
  inversion N as [|? ? NI N']; subst. simpl. constructor.
  - intros X. apply in_map_iff in X as (y & E & Y).
    apply NI. rewrite <- (I y x); auto; simpl; auto.
  - apply IH; auto. intros; apply I; simpl; auto.
Qed.

Lemma fiber c t (l : list Z) :
  NoDup l -> (forall s, In s l -> is_size_t s /\ combine c s = t) -> (length l <= 4)%nat.
Proof.
  intros N H. rewrite <- (map_length (fun s => s mod 4) l). apply NoDup_small.
  - apply NoDup_map_on; auto. intros x y X Y E.
    destruct (H x X), (H y Y). apply (seed_inj c); auto. congruence.
  - intros x X. apply in_map_iff in X as (s & E & S). subst.
    apply Z.mod_pos_bound. lia.
Qed.

Lemma dedup (l : list Z) : exists d, NoDup d /\ (forall x, In x d <-> In x l).
Proof.
  exists (nodup Z.eq_dec l). split; [apply NoDup_nodup|]. intros. apply nodup_In.
Qed.

(** If every value is taken at most [m] times, a list has at most [m] times as
    many elements as there are values. *)
Lemma classes (f : Z -> Z) (m : nat) (d l : list Z) :
  NoDup l -> (forall x, In x l -> In (f x) d) ->
  (forall v k, NoDup k -> (forall x, In x k -> In x l /\ f x = v) -> (length k <= m)%nat) ->
  (length l <= length d * m)%nat.
Proof.
  revert l. induction d as [|v d IH]; intros l N I B.
  - destruct l as [|x l]; [simpl; lia|]. destruct (I x); simpl; auto.
  - pose (yes := filter (fun x => Z.eqb (f x) v) l).
    pose (no := filter (fun x => negb (Z.eqb (f x) v)) l).
    assert (length l = length yes + length no)%nat.
    { unfold yes, no. clear. induction l as [|x l IH]; simpl; [reflexivity|].
      destruct (Z.eqb (f x) v); simpl; lia. }
    assert (length yes <= m)%nat.
    { apply (B v); [apply NoDup_filter; exact N|].
      intros x X. apply filter_In in X as [X E]. apply Z.eqb_eq in E. auto. }
    assert (length no <= length d * m)%nat.
    { apply IH.
      - apply NoDup_filter; exact N.
      - intros x X. apply filter_In in X as [X E].
        destruct (I x X) as [Q|Q]; [|exact Q].
        rewrite <- Q, Z.eqb_refl in E. discriminate.
      - intros u k NK K. apply (B u); auto. intros x X.
        destruct (K x X) as [Y E]. apply filter_In in Y as [Y _]. auto. }
    simpl. lia.
Qed.

Lemma outer_fiber ps t (l : list Z) :
  NoDup l -> (forall s, In s l -> is_size_t s /\ outer ps s = t) ->
  (length l <= 4 ^ length ps)%nat.
Proof.
  revert t l. induction ps as [|p ps IH]; intros t l N H.
  - simpl in *. destruct l as [|x [|y l]]; simpl; try lia.
    exfalso. inversion N as [|? ? NI _]; subst. apply NI. left.
    destruct (H x), (H y); simpl; auto. congruence.
  - destruct (dedup (map (outer ps) l)) as (d & ND & D).
    assert (L : (length d <= 4)%nat).
    { apply (fiber p t); auto. intros s S. apply D in S.
      apply in_map_iff in S as (x & E & X). destruct (H x X) as [R O]. subst s. split.
      - apply outer_range. exact R.
      - exact O. }
    assert (C : (length l <= length d * 4 ^ length ps)%nat).
    { apply (classes (outer ps)); auto.
      - intros x X. apply D. apply in_map. exact X.
      - intros v k NK K. apply (IH v); auto. intros s S. destruct (K s S) as [X E].
        split; [apply H; exact X|exact E]. }
    change (4 ^ length (p :: ps))%nat with (4 * 4 ^ length ps)%nat. nia.
Qed.

(** *** The first [n] numbers *)

Definition upto (n : nat) : list Z := map Z.of_nat (seq 0 n).

Lemma upto_NoDup n : NoDup (upto n).
Proof.
  apply NoDup_map_on; [apply seq_NoDup|]. intros. lia.
Qed.

Lemma upto_len n : length (upto n) = n.
Proof. unfold upto. rewrite map_length, seq_length. reflexivity. Qed.

Lemma upto_in n x : In x (upto n) -> 0 <= x < Z.of_nat n.
Proof.
  unfold upto. intros H. apply in_map_iff in H as (y & E & Y). apply in_seq in Y. lia.
Qed.

Lemma pow4 n : (n < 32)%nat -> Z.of_nat (4 ^ n + 1) <= M64.
Proof.
  intros H. rewrite Nat2Z.inj_add, Nat2Z.inj_pow. simpl Z.of_nat at 1.
  assert (4 ^ Z.of_nat n <= 4 ^ 31) by (apply Z.pow_le_mono_r; lia).
  assert (4 ^ 31 + 1 <= M64) by (unfold M64; vm_compute; discriminate). simpl. lia.
Qed.

(** Among the seeds, two are told apart. *)
Lemma outer_tells ps :
  (length ps < 32)%nat ->
  forall c0, exists a b, is_size_t a /\ is_size_t b /\
    outer ps (combine a c0) <> outer ps (combine b c0).
Proof.
  intros L c0.
  pose (n := (4 ^ length ps + 1)%nat).
  assert (B : Z.of_nat n <= M64) by (apply pow4; exact L).
  set (F := fun a => outer ps (combine a c0)).
  destruct (existsb (fun a => negb (Z.eqb (F a) (F 0))) (upto n)) eqn:E.
  - apply existsb_exists in E as (a & I & D). apply upto_in in I.
    exists a, 0. split; [unfold is_size_t, M64 in *; lia|].
    split; [apply zero_size_t|]. intros Q. fold (F a) (F 0) in Q. rewrite Q, Z.eqb_refl in D. discriminate.
  - exfalso.
    assert (H : forall a, In a (upto n) -> F a = F 0).
    { intros a I. destruct (Z.eqb (F a) (F 0)) eqn:Q; [apply Z.eqb_eq; exact Q|].
      assert (existsb (fun a => negb (Z.eqb (F a) (F 0))) (upto n) = true).
      { apply existsb_exists. exists a. rewrite Q. auto. }
      congruence. }
    assert (X : (length (map (fun a => combine a c0) (upto n)) <= 4 ^ length ps)%nat).
    { apply (outer_fiber ps (F 0)).
      - apply NoDup_map_on; [apply upto_NoDup|].
        intros x y X Y Q. apply upto_in in X. apply upto_in in Y.
        apply (combine_inj x y c0); auto; unfold is_size_t, M64 in *; lia.
      - intros s S. apply in_map_iff in S as (a & Q & A). subst s. split.
        + apply combine_range.
        + exact (H a A). }
    rewrite map_length, upto_len in X. unfold n in X. lia.
Qed.

Lemma every_element_short Ps T Qs (p : tuple Ps) (q : tuple Qs) :
  covers T -> (length Ps < 32)%nat ->
  exists x y : el_type T, hash_tuple (around p x q) <> hash_tuple (around p y q).
Proof.
  intros C L.
  destruct (outer_tells (hashes p)) with (c0 := hash_tuple q) as (a & b & A & B & D).
  { rewrite hashes_len. exact L. }
  destruct (C a A) as [x X]. destruct (C b B) as [y Y]. exists x, y.
  rewrite !hash_around, X, Y. exact D.
Qed.

Lemma first_element T Qs (x y : el_type T) (q : tuple Qs) :
  lawful T -> el_hash T x <> el_hash T y ->
  @hash_tuple (T :: Qs) (x, q) <> @hash_tuple (T :: Qs) (y, q).
Proof.
  intros [R _] D E. apply D. simpl in E. apply (combine_inj _ _ _ (R x) (R y) E).
Qed.

(** *** Tuples of any length *)

(** Seeds that differ can be told apart after a suitable shift. *)
Lemma shift_tells D :
  0 < D < M64 -> exists x, forall c, combine c (x mod M64) <> combine c ((x + D) mod M64).
Proof.
  intros H.
  assert (NZ : forall x, 0 <= x -> x + D < M64 ->
    (forall k, 64 * D + ((x + D) / 4 - x / 4) <> k * M64) ->
    forall c, combine c (x mod M64) <> combine c ((x + D) mod M64)).
  { intros x X0 X1 N c E.
    rewrite (Z.mod_small x M64) in E by lia. rewrite (Z.mod_small (x + D) M64) in E by lia.
    rewrite !combine_eq in E. apply mod_eq_divide in E as [k E].
    apply (N (- k)). lia. }
  pose proof (Z.div_mod D 4 ltac:(lia)) as DM. pose proof (Z.mod_pos_bound D 4 ltac:(lia)) as RB.
  destruct (Z.eq_dec (D mod 4) 0) as [Z0|Z0].
  - exists 0. apply NZ; [lia|lia|]. intros k K.
    replace (0 + D) with D in K by lia. rewrite Z.div_0_l in K by lia.
    assert (Q : 257 * (D / 4) = k * M64) by lia.
    apply cancel257 in Q as [j J].
    assert (D / 4 = 0) by (apply (small_multiple (D / 4) j); [unfold M64 in *; lia|exact J]). lia.
  - (* either no shift or a shift across the last two bits *)
    destruct (Z.eq_dec ((64 * D + D / 4) mod M64) 0) as [Q|Q].
    + exists (4 - D mod 4).
      assert (X : (4 - D mod 4 + D) / 4 = D / 4 + 1).
      { symmetry. apply (Z.div_unique _ _ _ 0); lia. }
      assert (Y : (4 - D mod 4) / 4 = 0) by (apply Z.div_small; lia).
      apply NZ; [lia| |].
      * (* D is not so close to the top *)
        assert (D < M64 - 4 \/ D = M64 - 4 \/ D = M64 - 3 \/ D = M64 - 2 \/ D = M64 - 1) as [?|[?|[?|[?|?]]]] by lia;
          [lia|exfalso; subst D; revert Q Z0; vm_compute; congruence ..].
      * intros k K. rewrite X, Y in K.
        apply Z.mod_divide in Q; [|unfold M64; lia]. destruct Q as [j J].
        assert (1 = (k - j) * M64) by lia. unfold M64 in *. lia.
    + exists 0. apply NZ; [lia|lia|]. intros k K.
      replace (0 + D) with D in K by lia. rewrite Z.div_0_l in K by lia.
      apply Q. replace (64 * D + D / 4) with (k * M64) by lia. apply Z.mod_mul. unfold M64. lia.
Qed.

Lemma combine_reaches s t : is_size_t t -> exists c, is_size_t c /\ combine c s = t.
Proof.
  intros T. exists (wrap64 (t - 2654435769 - 64 * s - s / 4)). split; [apply wrap64_range|].
  rewrite combine_eq, wrap64_def.
  replace ((t - 2654435769 - 64 * s - s / 4) mod M64 + 2654435769 + 64 * s + s / 4)
    with ((t - 2654435769 - 64 * s - s / 4) mod M64 + (2654435769 + 64 * s + s / 4)) by lia.
  rewrite Zplus_mod_idemp_l.
  replace (t - 2654435769 - 64 * s - s / 4 + (2654435769 + 64 * s + s / 4)) with t by lia.
  apply Z.mod_small. exact T.
Qed.

(** Moving a pair of hashes along. *)
Lemma combine_shift c s s' x :
  combine c s = x mod M64 -> combine c s' = (x + (combine c s' - combine c s)) mod M64.
Proof.
  intros E. rewrite E.
  replace (x + (combine c s' - x mod M64)) with (combine c s' + (x - x mod M64)) by lia.
  assert (Y : x - x mod M64 = (x / M64) * M64).
  { pose proof (Z.div_mod x M64 ltac:(unfold M64; lia)). lia. }
  rewrite Y, Z.mod_add by (unfold M64; lia).
  symmetry. apply Z.mod_small. apply combine_range.
Qed.

Lemma mod_diff a b : is_size_t a -> is_size_t b -> a <> b -> 0 < (b - a) mod M64 < M64.
Proof.
  unfold is_size_t. intros A B N.
  pose proof (Z.mod_pos_bound (b - a) M64 ltac:(unfold M64; lia)).
  assert ((b - a) mod M64 <> 0); [|lia].
  intros Q. apply Z.mod_divide in Q; [|unfold M64; lia]. destruct Q as [j J].
  assert (b - a = 0) by (apply (small_multiple (b - a) j); [unfold M64; lia|exact J]). lia.
Qed.

(** [n] elements before, chosen suitably, keep two hashes apart; the last choice
    is free, so that the next combination can still be prepared. *)
Lemma keep_apart n : forall s s', is_size_t s -> is_size_t s' ->
  (forall c, combine c s <> combine c s') ->
  exists ps, length ps = S n /\ Forall is_size_t ps /\ outer ps s <> outer ps s' /\
    forall p, combine p (outer (tl ps) s) <> combine p (outer (tl ps) s').
Proof.
  induction n as [|n IH]; intros s s' S S' N.
  - exists [0]. split; [reflexivity|]. split; [repeat constructor; apply zero_size_t|].
    split; [apply N|]. exact N.
  - destruct (IH s s' S S' N) as (ps & L & F & O & T).
    destruct ps as [|p ps]; [discriminate|]. simpl in T.
    set (u := outer ps s) in *. set (u' := outer ps s') in *.
    pose proof (mod_diff _ _ (combine_range 0 u) (combine_range 0 u') (T 0)) as D.
    destruct (shift_tells _ D) as [x X].
    destruct (combine_reaches u (x mod M64) (wrap64_range x)) as (c & C & E).
    assert (E' : combine c u' = (x + (combine 0 u' - combine 0 u) mod M64) mod M64).
    { rewrite (combine_shift c u u' x E). rewrite Zplus_mod_idemp_r.
      rewrite !(combine_eq c), !(combine_eq 0).
      rewrite <- (Zplus_mod_idemp_r (_ mod M64 - _ mod M64) x M64).
      rewrite <- (Zplus_mod_idemp_r ((0 + 2654435769 + 64 * u' + u' / 4) mod M64 - _) x M64).
      rewrite <- !Zminus_mod. do 2 f_equal. f_equal. lia. }
    exists (0 :: c :: ps). simpl in L.
    split; [simpl; lia|]. split.
    { constructor; [apply zero_size_t|]. constructor; [exact C|]. inversion F; auto. }
    simpl. fold u u'. rewrite E, E'. split; [apply X|exact X].
Qed.

Lemma every_place n (c0 : Z) :
  exists ps a b, length ps = n /\ Forall is_size_t ps /\ is_size_t a /\ is_size_t b /\
    outer ps (combine a c0) <> outer ps (combine b c0).
Proof.
  destruct n as [|n].
  - exists [], 0, 1. split; [reflexivity|]. split; [constructor|].
    split; [apply zero_size_t|]. split; [unfold is_size_t; lia|]. simpl. intros E.
    apply combine_inj in E; [discriminate|apply zero_size_t|unfold is_size_t; lia].
  - destruct (combine_reaches c0 0 zero_size_t) as (a & A & EA).
    assert (I4 : is_size_t 4) by (unfold is_size_t; lia).
    destruct (combine_reaches c0 4 I4) as (b & B & EB).
    destruct (keep_apart n 0 4 zero_size_t I4) as (ps & L & F & O & _).
    { intros c E. apply seed_inj in E; [discriminate|apply zero_size_t|exact I4|reflexivity]. }
    exists ps, a, b. rewrite EA, EB. auto 10.
Qed.

Lemma tuple_of Ts (C : Forall covers Ts) hs :
  Forall is_size_t hs -> length hs = length Ts -> exists x : tuple Ts, hashes x = hs.
Proof.
  revert hs. induction C as [|T Ts CT C IH]; intros hs H L.
  - exists tt. destruct hs; [reflexivity|discriminate].
  - destruct hs as [|h hs]; [discriminate|]. inversion H; subst. injection L as L.
    destruct (CT h) as [x X]; [assumption|]. destruct (IH hs) as [t Q]; auto.
    exists (x, t). simpl. congruence.
Qed.

Lemma every_element Ps T Qs (q : tuple Qs) :
  Forall covers Ps -> covers T ->
  exists (p : tuple Ps) (x y : el_type T), hash_tuple (around p x q) <> hash_tuple (around p y q).
Proof.
  intros CP C.
  destruct (every_place (length Ps) (hash_tuple q)) as (ps & a & b & L & F & A & B & D).
  destruct (tuple_of Ps CP ps F L) as [p P]. destruct (C a A) as [x X]. destruct (C b B) as [y Y].
  exists p, x, y. rewrite !hash_around, P, X, Y. exact D.
Qed.
