(** Different seeds give different streams: the outputs determine the words before them. *)
From Coq Require Import List ZArith NArith Bool Lia.
From Verif Require Import Base MTModel MTSpec MTProofs MTProofs2.
Import ListNotations.
Open Scope N_scope.

Lemma xor_right_inj k y z : 0 < k -> is_word y -> is_word z -> N.lxor y (N.shiftr y k) = N.lxor z (N.shiftr z k) -> y = z.
Proof.
  intros K Y Z E. assert (B : forall n i, 32 <= i + N.of_nat n -> N.testbit y i = N.testbit z i).
  - induction n as [|n IH]; intros i L.
    + rewrite (proj1 (word_bits y) Y), (proj1 (word_bits z) Z) by lia. reflexivity.
    + apply (f_equal (fun v => N.testbit v i)) in E. rewrite !N.lxor_spec, !N.shiftr_spec in E by lia. rewrite (IH (i + k)) in E by lia.
      destruct (N.testbit y i), (N.testbit z i), (N.testbit z (i + k)); cbn in E; congruence.
  - apply N.bits_inj. intros i. apply (B 32%nat). lia.
Qed.
Lemma xor_left_inj k M y z : 0 < k -> N.lxor y (N.land (N.shiftl y k) M) = N.lxor z (N.land (N.shiftl z k) M) -> y = z.
Proof.
  intros K E. apply N.bits_inj. intros i. induction i as [i IH] using (well_founded_induction N.lt_wf_0).
  apply (f_equal (fun v => N.testbit v i)) in E. rewrite !N.lxor_spec, !N.land_spec in E.
  destruct (N.ltb_spec i k).
  - rewrite !N.shiftl_spec_low in E by auto. cbn in E. now rewrite !xorb_false_r in E.
  - rewrite !N.shiftl_spec_high in E by lia. specialize (IH (i - k) ltac:(lia)). rewrite IH in E.
    destruct (N.testbit y i), (N.testbit z i), (N.testbit z (i - k) && N.testbit M i); cbn in E; congruence.
Qed.
Lemma mt_temper_inj y z : is_word y -> is_word z -> mt_temper y = mt_temper z -> y = z.
Proof.
  intros Y Z E. unfold mt_temper in E. cbv zeta in E.
  assert (W : forall v, is_word v -> is_word (N.lxor v (N.shiftr v 11))) by (intros; apply word_lxor, word_shiftr; auto).
  assert (L : forall v k m, is_word v -> is_word m -> is_word (N.lxor v (N.land (N.shiftl v k) m))).
  { intros. apply word_lxor; auto. rewrite N.land_comm. now apply word_land. }
  apply xor_right_inj in E; [|lia|apply L; [apply L; [apply W; auto|reflexivity]|reflexivity]|apply L; [apply L; [apply W; auto|reflexivity]|reflexivity]].
  apply xor_left_inj in E; [|lia]. apply xor_left_inj in E; [|lia]. apply xor_right_inj in E; auto. lia.
Qed.

(** The twist of two words determines the top bit of the first and the rest of the second. *)
Lemma half_word y : is_word y -> y / 2 < 2 ^ 31.
Proof. intros Y. apply N.div_lt_upper_bound; [lia|]. exact Y. Qed.
Lemma twist_arg u v : is_word u -> is_word (2 ^ 31 * (u / 2 ^ 31) + v mod 2 ^ 31).
Proof.
  intros U. unfold is_word in *. assert (u / 2 ^ 31 < 2) by (apply N.div_lt_upper_bound; [lia|exact U]).
  pose proof (N.mod_lt v (2 ^ 31) ltac:(lia)). change (2 ^ 32) with (2 ^ 31 * 2). nia.
Qed.
Lemma mt_twist_inj u v u' v' : is_word u -> is_word u' -> mt_twist u v = mt_twist u' v' -> u / 2 ^ 31 = u' / 2 ^ 31 /\ v mod 2 ^ 31 = v' mod 2 ^ 31.
Proof.
  intros U U' E. unfold mt_twist in E. cbv zeta in E.
  pose proof (twist_arg u v U) as Y. pose proof (twist_arg u' v' U') as Y'.
  pose proof (N.mod_lt v (2 ^ 31) ltac:(lia)) as V. pose proof (N.mod_lt v' (2 ^ 31) ltac:(lia)) as V'.
  set (y := 2 ^ 31 * (u / 2 ^ 31) + v mod 2 ^ 31) in *. set (y' := 2 ^ 31 * (u' / 2 ^ 31) + v' mod 2 ^ 31) in *.
  assert (T : forall a, is_word a -> N.testbit (N.lxor (a / 2) (if N.odd a then 0x9908b0df else 0)) 31 = N.odd a).
  { intros a A. rewrite N.lxor_spec. rewrite <- (N.mod_small (a / 2) (2 ^ 31)) by now apply half_word.
    rewrite N.mod_pow2_bits_high by lia. destruct (N.odd a); reflexivity. }
  assert (O : N.odd y = N.odd y') by (rewrite <- (T y), <- (T y') by auto; now rewrite E).
  assert (D : y / 2 = y' / 2).
  { rewrite O in E. apply (f_equal (fun a => N.lxor a (if N.odd y' then 0x9908b0df else 0))) in E.
    rewrite !N.lxor_assoc, !N.lxor_nilpotent, !N.lxor_0_r in E. exact E. }
  assert (Q : y = y'). { rewrite (N.div2_odd y), (N.div2_odd y'), !N.div2_div, D, O. reflexivity. }
  unfold y, y' in Q. change (2 ^ 31) with 2147483648 in *. nia.
Qed.
Lemma word_split a b : a / 2 ^ 31 = b / 2 ^ 31 -> a mod 2 ^ 31 = b mod 2 ^ 31 -> a = b.
Proof. intros D M. rewrite (N.div_mod' a (2 ^ 31)), (N.div_mod' b (2 ^ 31)), D, M. reflexivity. Qed.

(** Equal outputs of one block: all words before them are equal, but for the low bits of the first. *)
Lemma block_before s s' x y : block s -> block s' -> mt_sequence s x -> mt_sequence s' y ->
  (forall i, (624 <= i < 1248)%nat -> x i = y i) -> (forall k, (1 <= k < 624)%nat -> x k = y k) /\ x 0%nat / 2 ^ 31 = y 0%nat / 2 ^ 31.
Proof.
  intros B B' Sx Sy E.
  assert (Wx : forall i, is_word (x i)) by (intros i; apply (block_seq_words s x B Sx i i); lia).
  assert (Wy : forall i, is_word (y i)) by (intros i; apply (block_seq_words s' y B' Sy i i); lia).
  destruct Sx as [_ X], Sy as [_ Y].
  assert (P : forall k, (k < 624)%nat -> x (k + 397)%nat = y (k + 397)%nat -> x k / 2 ^ 31 = y k / 2 ^ 31 /\ x (k + 1)%nat mod 2 ^ 31 = y (k + 1)%nat mod 2 ^ 31).
  { intros k K Q. apply mt_twist_inj; auto. pose proof (E (k + 624)%nat ltac:(lia)) as F. rewrite X, Y, Q in F.
    apply (f_equal (N.lxor (y (k + 397)%nat))) in F. rewrite <- !N.lxor_assoc, !N.lxor_nilpotent, !N.lxor_0_l in F. exact F. }
  assert (L : forall k, (228 <= k < 624)%nat -> x k = y k).
  { intros k K. apply word_split.
    - apply P; [lia|]. apply E. lia.
    - replace k with ((k - 1) + 1)%nat by lia. apply P; [lia|]. apply E. lia. }
  assert (P' : forall k, (k < 227)%nat -> x k / 2 ^ 31 = y k / 2 ^ 31 /\ x (k + 1)%nat mod 2 ^ 31 = y (k + 1)%nat mod 2 ^ 31).
  { intros k K. apply P; [lia|]. apply L. lia. }
  split; [|apply (P' 0%nat); lia]. intros k K. destruct (Nat.le_gt_cases 228 k); [apply L; lia|].
  apply word_split.
  - destruct (Nat.eq_dec k 227) as [->|]; [apply P; [lia|]; apply E; lia|apply P'; lia].
  - replace k with ((k - 1) + 1)%nat by lia. apply P'. lia.
Qed.

Lemma seed_step_inj a b i : is_word a -> is_word b ->
  w32 (1812433253 * (N.lxor a (N.shiftr a 30)) + i) = w32 (1812433253 * (N.lxor b (N.shiftr b 30)) + i) -> a = b.
Proof.
  intros A B E. apply (xor_right_inj 30); auto; [lia|].
  assert (Wa : is_word (N.lxor a (N.shiftr a 30))) by (apply word_lxor, word_shiftr; auto).
  assert (Wb : is_word (N.lxor b (N.shiftr b 30))) by (apply word_lxor, word_shiftr; auto).
  set (u := N.lxor a (N.shiftr a 30)) in *. set (v := N.lxor b (N.shiftr b 30)) in *. clearbody u v.
  unfold w32, is_word in *. apply (f_equal (fun z => (z + (2 ^ 32 - i mod 2 ^ 32)) mod 2 ^ 32)) in E.
  assert (Z : forall z, (z + (2 ^ 32 - i mod 2 ^ 32) + i) mod 2 ^ 32 = z mod 2 ^ 32).
  { intros z. pose proof (N.mod_lt i (2 ^ 32) ltac:(lia)). rewrite <- N.add_assoc. rewrite (N.div_mod' i (2 ^ 32)) at 2.
    replace (z + (2 ^ 32 - i mod 2 ^ 32 + (2 ^ 32 * (i / 2 ^ 32) + i mod 2 ^ 32))) with (z + (1 + i / 2 ^ 32) * 2 ^ 32) by lia. apply N.mod_add. lia. }
  rewrite !N.add_mod_idemp_l in E by lia.
  replace (1812433253 * u + i + (2 ^ 32 - i mod 2 ^ 32)) with (1812433253 * u + (2 ^ 32 - i mod 2 ^ 32) + i) in E by lia.
  replace (1812433253 * v + i + (2 ^ 32 - i mod 2 ^ 32)) with (1812433253 * v + (2 ^ 32 - i mod 2 ^ 32) + i) in E by lia.
  rewrite !Z in E. apply (f_equal (fun z => (2520285293 * z) mod 2 ^ 32)) in E. rewrite !N.mul_mod_idemp_r in E by lia.
  assert (I : forall z, z < 2 ^ 32 -> (2520285293 * (1812433253 * z)) mod 2 ^ 32 = z).
  { intros z Hz. replace (2520285293 * (1812433253 * z)) with (z + (1063535193 * z) * 2 ^ 32) by lia. rewrite N.mod_add by lia. now apply N.mod_small. }
  now rewrite !I in E.
Qed.

(** Two generators seeded with different words differ within the first 624 numbers. *)
Lemma seeds_differ g h s s' : mt_typed g -> mt_typed h -> is_word s -> is_word s' -> s <> s' ->
  exists g' h' l l', seed_word g s = Ret g' /\ seed_word h s' = Ret h' /\ rand_words 624 g' = Ret l /\ rand_words 624 h' = Ret l' /\ l <> l'.
Proof.
  intros G H S S' N. destruct (seed_word_gen g s (proj1 G) S) as (g' & Eg & Lg & Ig & Zg & Wg & Rg).
  destruct (seed_word_gen h s' (proj1 H) S') as (h' & Eh & Lh & Ih & Zh & Wh & Rh).
  assert (Bg : block (st g')) by (split; auto). assert (Bh : block (st h')) by (split; auto).
  destruct (mt_sequence_exists _ Bg) as (x & X). destruct (mt_sequence_exists _ Bh) as (y & Y).
  exists g', h', (map (fun i => temper (x i)) (seq 624 624)), (map (fun i => temper (y i)) (seq 624 624)).
  split; auto. split; auto. split; [now apply stream_after_seed|]. split; [now apply stream_after_seed|].
  intros Q. apply N. destruct (block_before _ _ x y Bg Bh X Y) as (F & _).
  - intros i Hi. apply mt_temper_inj; [apply (block_seq_words _ x Bg X i i); lia|apply (block_seq_words _ y Bh Y i i); lia|].
    rewrite <- !temper_spec. apply (f_equal (fun l => nth (i - 624) l (temper (x 0%nat)))) in Q.
    rewrite (map_nth (fun i => temper (x i)) _ 0%nat) in Q.
    rewrite (nth_indep _ (temper (x 0%nat)) (temper (y 0%nat))), (map_nth (fun i => temper (y i)) _ 0%nat) in Q by (rewrite map_length, seq_length; lia).
    rewrite seq_nth in Q by lia. now replace (624 + (i - 624))%nat with i in Q by lia.
  - specialize (F 1%nat ltac:(lia)). destruct X as [X _], Y as [Y _].
    pose proof (X 1%nat ltac:(lia)) as X1. pose proof (Y 1%nat ltac:(lia)) as Y1. pose proof (X 0%nat ltac:(lia)) as X0. pose proof (Y 0%nat ltac:(lia)) as Y0.
    apply nth_error_nth with (d := 0) in X1, Y1, X0, Y0.
    specialize (Rg 1%nat ltac:(lia)). specialize (Rh 1%nat ltac:(lia)). rewrite X1 in Rg. rewrite Y1 in Rh. rewrite F, Rh in Rg. change (1 - 1)%nat with 0%nat in Rg.
    rewrite Zg, Zh in Rg. symmetry. apply (seed_step_inj _ _ _ S' S Rg).
Qed.
