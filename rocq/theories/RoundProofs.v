From Coq Require Import ZArith Reals Bool SpecFloat Lia Lra List.
From Flocq Require Import Core IEEE754.BinarySingleNaN.
From Verif Require Import Base Scalar OrdLib RLib B64Lib B64Ops FloatOps RoundLib RSpec ConstModel VecModel VecSpec ConstSpec RoundSpec.
Import ListNotations.
Open Scope R_scope.

(** ** Powers of 1 + u *)
Definition up (k : nat) : R := (1 + u64) ^ k.
Lemma up_S k : up (S k) = (1 + u64) * up k.
Proof. reflexivity. Qed.
Lemma up_ge1 k : 1 <= up k.
Proof. apply pow_R1_Rle. pose proof u64_pos. lra. Qed.
Lemma up_add j k : up (j + k) = up j * up k.
Proof. apply pow_add. Qed.
Lemma up_mono j k : (j <= k)%nat -> up j <= up k.
Proof. intros L. apply Rle_pow; [pose proof u64_pos; lra|exact L]. Qed.
Lemma up_lin k : INR k * u64 < 1 -> up k * (1 - INR k * u64) <= 1.
Proof.
  pose proof u64_pos as [U _]. induction k as [|k IH]; intros L; [unfold up; simpl; lra|].
  rewrite S_INR in *. rewrite up_S. pose proof (up_ge1 k). pose proof (pos_INR k).
  assert (IH' : up k * (1 - INR k * u64) <= 1) by (apply IH; nra).
  replace ((1 + u64) * up k * (1 - (INR k + 1) * u64))
    with (up k * (1 - INR k * u64) - up k * u64 * u64 * (INR k + 1)) by ring.
  assert (0 <= up k * u64 * u64 * (INR k + 1)) by (repeat apply Rmult_le_pos; lra). lra.
Qed.
(** 2^26 coordinates at most: beyond that the bounds stay true in the form up k *)
Lemma up_small k : (Z.of_nat k <= 2 ^ 26 + 100)%Z -> up k - 1 <= (INR k + 1) * u64 /\ (INR k + 1) * u64 <= / 2 ^ 26.
Proof.
  intros L. assert (B : INR k <= 2 ^ 26 + 100).
  { rewrite INR_IZR_INZ. apply IZR_le in L. rewrite plus_IZR in L. change (IZR (2 ^ 26)) with (IZR (Z.pow_pos 2 26)) in L.
    rewrite (pow_IZR 2 26). exact L. }
  assert (U : u64 = / 2 ^ 53) by (unfold u64, bpow; simpl; lra).
  pose proof (pos_INR k) as P. pose proof u64_pos as [U0 _].
  assert (B2 : (INR k + 1) * u64 <= / 2 ^ 26).
  { rewrite U. apply Rmult_le_reg_r with (2 ^ 53); [apply pow_lt; lra|]. rewrite Rmult_assoc, Rinv_l by (apply pow_nonzero; lra). simpl in *. lra. }
  split; [|exact B2].
  pose proof (up_lin k) as Q. assert (K : INR k * u64 < 1) by (simpl in B2; nra). specialize (Q K).
  pose proof (up_ge1 k).
  (* up k <= 1 / (1 - k u) <= 1 + (k+1) u *)
  apply Rmult_le_reg_r with (1 - INR k * u64); [lra|].
  assert (E : INR k * (INR k + 1) * u64 <= 1).
  { apply Rle_trans with ((2 ^ 26 + 100) * (2 ^ 26 + 101) * / 2 ^ 53).
    - rewrite <- U. apply Rmult_le_compat_r; [lra|]. apply Rmult_le_compat; lra.
    - simpl. lra. }
  assert (E2 : INR k * u64 <= (INR k + 1) * u64 * (1 - INR k * u64)); [|lra].
  replace ((INR k + 1) * u64 * (1 - INR k * u64)) with (INR k * u64 + u64 * (1 - INR k * (INR k + 1) * u64)) by ring. nra.
Qed.

(** ** Sums *)
Lemma nsum_step {T} `{Num T} n (f : nat -> T) : nsum (S n) f = nadd (nsum n f) (f n).
Proof. unfold nsum. rewrite seq_S, fold_left_app. reflexivity. Qed.

Lemma abs_le_close r h x y : Rabs (x - y) <= (r - 1) * Rabs y + h -> Rabs x <= r * Rabs y + h.
Proof. intros B. pose proof (Rabs_triang (x - y) y) as P. replace (x - y + y) with x in P by ring. lra. Qed.

Lemma step_err acc t rs s g A e1 e2 h1 h2 : 1 <= e1 -> 1 <= e2 -> e2 <= e1 -> 0 <= h1 -> 0 <= h2 ->
  Rabs s <= A ->
  Rabs (acc - s) <= (e1 - 1) * A + h1 -> Rabs (t - g) <= (e2 - 1) * Rabs g + h2 ->
  Rabs (rs - (acc + t)) <= u64 * Rabs (acc + t) ->
  Rabs (rs - (s + g)) <= ((1 + u64) * e1 - 1) * (A + Rabs g) + (1 + u64) * (h1 + h2) /\
  Rabs (acc + t) <= e1 * (A + Rabs g) + (h1 + h2).
Proof.
  intros E1 E2 E21 H1 H2 SA B1 B2 B3. pose proof u64_pos as [U _]. pose proof (Rabs_pos g) as G. pose proof (Rabs_pos s) as S0.
  assert (D : Rabs (acc + t - (s + g)) <= (e1 - 1) * (A + Rabs g) + (h1 + h2)).
  { replace (acc + t - (s + g)) with ((acc - s) + (t - g)) by ring. eapply Rle_trans; [apply Rabs_triang|].
    assert ((e2 - 1) * Rabs g <= (e1 - 1) * Rabs g) by (apply Rmult_le_compat_r; lra). lra. }
  assert (M : Rabs (acc + t) <= e1 * (A + Rabs g) + (h1 + h2)).
  { pose proof (Rabs_triang (acc + t - (s + g)) (s + g)) as P. replace (acc + t - (s + g) + (s + g)) with (acc + t) in P by ring.
    pose proof (Rabs_triang s g). lra. }
  split; [|exact M].
  replace (rs - (s + g)) with ((rs - (acc + t)) + (acc + t - (s + g))) by ring. eapply Rle_trans; [apply Rabs_triang|].
  assert (u64 * Rabs (acc + t) <= u64 * (e1 * (A + Rabs g) + (h1 + h2))) by (apply Rmult_le_compat_l; lra). lra.
Qed.

Lemma Rsum_abs n g : Rabs (Rsum n g) <= Rsum n (fun i => Rabs (g i)).
Proof. induction n as [|n IH]; simpl; [rewrite Rabs_R0; lra|]. pose proof (Rabs_triang (Rsum n g) (g n)). lra. Qed.

Lemma up_two k : (Z.of_nat k <= 2 ^ 26 + 100)%Z -> up k <= 3 / 2.
Proof. intros L. destruct (up_small k L) as [A B]. simpl in B. lra. Qed.
Lemma eta_small k : (Z.of_nat k <= 2 ^ 26 + 100)%Z -> INR k * eta64 <= / 4.
Proof.
  intros L. destruct (up_small k L) as [_ B]. pose proof u64_pos. pose proof eta64_pos.
  assert (eta64 <= u64) by (apply bpow_le; lia). pose proof (pos_INR k).
  apply Rle_trans with (INR k * u64); [apply Rmult_le_compat_l; lra|]. simpl in B. lra.
Qed.
Lemma big_ge : 4 <= big.
Proof. unfold big. change 4 with (bpow radix2 2). apply bpow_le. lia. Qed.

Section B.
Variable m : libm.
#[local] Instance I64 : Num spec_float := B64 m.

Lemma n0_ok : fl (n0 (H := B64 m)) /\ val (n0 (H := B64 m)) = 0.
Proof. split; [split; reflexivity|reflexivity]. Qed.

Lemma nsum_err n j (f : nat -> spec_float) (g : nat -> R) :
  (Z.of_nat (n + j) <= 2 ^ 26 + 100)%Z ->
  (forall i, (i < n)%nat -> fl (f i) /\ Rabs (val (f i) - g i) <= (up j - 1) * Rabs (g i) + eta64) ->
  Rsum n (fun i => Rabs (g i)) <= big / 2 ->
  fl (nsum n f) /\
  Rabs (val (nsum n f) - Rsum n g) <= (up (n + j) - 1) * Rsum n (fun i => Rabs (g i)) + INR n * eta64 * up n /\
  ((forall i, (i < n)%nat -> 0 <= val (f i)) -> 0 <= val (nsum n f)) /\
  ((forall i, (i < n)%nat -> val (f i) = 0) -> val (nsum n f) = 0).
Proof.
  induction n as [|n IH]; intros L F B.
  - split; [apply n0_ok|]. change (val (nsum 0 f)) with 0. split; [|split; intros; lra]. simpl. rewrite Rminus_0_r, Rabs_R0. rewrite !Rmult_0_r, !Rmult_0_l. lra.
  - assert (P0 : 0 <= Rabs (g n)) by apply Rabs_pos. simpl Rsum in B.
    destruct IH as (FA & EA & PA & ZA); [lia|intros i Hi; apply F; lia|lra|].
    destruct (F n ltac:(lia)) as [Ft Et].
    rewrite nsum_step. cbn [nadd I64 B64].
    set (acc := nsum n f) in *. set (t := f n) in *. set (A := Rsum n (fun i => Rabs (g i))) in *.
    pose proof eta64_pos as H0. pose proof (pos_INR n) as N0. pose proof (up_ge1 n) as U1. pose proof u64_pos as [U _].
    destruct (step_err (val acc) (val t) (rnd (val acc + val t)) (Rsum n g) (g n) A (up (n + j)) (up j) (INR n * eta64 * up n) eta64)
      as [R1 R2]; auto using up_ge1.
    + apply up_mono. lia.
    + repeat apply Rmult_le_pos; lra.
    + lra.
    + apply Rsum_abs.
    + apply rnd_add_err; now apply fl_format.
    + assert (BB : Rabs (val acc + val t) <= big).
      { eapply Rle_trans; [exact R2|]. pose proof (up_two (n + j) ltac:(lia)) as T2. pose proof (up_two n ltac:(lia)) as T3.
        pose proof (eta_small n ltac:(lia)) as T4. pose proof (eta_small 1 ltac:(lia)) as T5. simpl in T5. pose proof big_ge.
        assert (up (n + j) * (A + Rabs (g n)) <= 3 / 2 * (big / 2)).
        { apply Rmult_le_compat; try lra. pose proof (up_ge1 (n + j)); lra.
          assert (0 <= A) by (apply Rsum_nonneg; intros; apply Rabs_pos). lra. }
        assert (INR n * eta64 * up n <= / 4 * (3 / 2)) by (apply Rmult_le_compat; try lra; apply Rmult_le_pos; lra). lra. }
      destruct (add_ok acc t FA Ft BB) as [Fs Es]. split; [exact Fs|]. rewrite Es. simpl Rsum. fold A.
      split; [|split; [intros PP; apply rnd_nonneg; pose proof (PP n ltac:(lia)); assert (0 <= val acc) by (apply PA; intros; apply PP; lia); unfold t; lra
                      |intros ZZ; rewrite ZA by (intros; apply ZZ; lia); unfold t; rewrite ZZ by lia; rewrite Rplus_0_r; apply rnd_0]].
      eapply Rle_trans; [exact R1|]. replace (S n + j)%nat with (S (n + j)) by lia. rewrite !up_S, S_INR.
      assert (eta64 <= eta64 * up n) by nra.
      assert ((1 + u64) * (INR n * eta64 * up n + eta64) <= (INR n + 1) * eta64 * ((1 + u64) * up n)); [|lra].
      replace ((INR n + 1) * eta64 * ((1 + u64) * up n)) with ((1 + u64) * (INR n * eta64 * up n + eta64 * up n)) by ring.
      apply Rmult_le_compat_l; lra.
Qed.
(** the same with simple constants *)
Lemma nsum_close n j (f : nat -> spec_float) (g : nat -> R) :
  (Z.of_nat n <= 2 ^ 26)%Z -> (j <= 50)%nat ->
  (forall i, (i < n)%nat -> fl (f i) /\ Rabs (val (f i) - g i) <= (up j - 1) * Rabs (g i) + eta64) ->
  Rsum n (fun i => Rabs (g i)) <= big / 2 ->
  fl (nsum n f) /\
  Rabs (val (nsum n f) - Rsum n g) <= (INR (n + j) + 1) * u64 * Rsum n (fun i => Rabs (g i)) + 2 * INR n * eta64 /\
  ((forall i, (i < n)%nat -> 0 <= val (f i)) -> 0 <= val (nsum n f)) /\
  ((forall i, (i < n)%nat -> val (f i) = 0) -> val (nsum n f) = 0).
Proof.
  intros L J F B. assert (L' : (Z.of_nat (n + j) <= 2 ^ 26 + 100)%Z) by lia.
  destruct (nsum_err n j f g L' F B) as (P & Q & Q1 & Q2). split; auto. split; [|split; auto]. eapply Rle_trans; [exact Q|].
  destruct (up_small (n + j) L') as [K _]. pose proof (up_two n ltac:(lia)).
  assert (A0 : 0 <= Rsum n (fun i => Rabs (g i))) by (apply Rsum_nonneg; intros; apply Rabs_pos).
  pose proof (Rmult_le_compat_r _ _ _ A0 K). pose proof (pos_INR n). pose proof eta64_pos.
  assert (INR n * eta64 * up n <= INR n * eta64 * 2) by (apply Rmult_le_compat_l; [apply Rmult_le_pos|]; lra). lra.
Qed.
End B.
