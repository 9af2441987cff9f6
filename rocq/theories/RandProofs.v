(** Real valued random numbers and seeding from the environment: proofs. *)
From Coq Require Import List ZArith NArith Reals Bool SpecFloat Lia Lra.
From Flocq Require Import Core IEEE754.BinarySingleNaN.
From Flocq Require Import Relative.
From Verif Require Import Base Scalar OrdLib RLib B64Lib FloatOps MTModel MTSpec MTProofs MTProofs2 MTProofs3 RandModel RandSpec.
Import ListNotations.
Open Scope R_scope.

Lemma Hprec32 : FLX.Prec_gt_0 prec32. Proof. reflexivity. Qed.
Lemma Hemax32 : Prec_lt_emax prec32 emax32. Proof. reflexivity. Qed.
#[export] Existing Instance Hprec32.
#[export] Existing Instance Hemax32.
Definition rnd64 (x : R) : R := round radix2 (SpecFloat.fexp prec64 emax64) ZnearestE x.
Definition rnd32 (x : R) : R := round radix2 (SpecFloat.fexp prec32 emax32) ZnearestE x.

Lemma rnd64_rel x : / 2 ^ 100 <= Rabs x -> Rabs (rnd64 x - x) <= / 2 ^ 53 * Rabs x.
Proof.
  intros H. pose proof (relative_error_N_FLT radix2 (-1074) 53 eq_refl (fun z => negb (Z.even z)) x) as P.
  change (round radix2 (FLT_exp (-1074) 53) (Znearest (fun z => negb (Z.even z))) x) with (rnd64 x) in P.
  eapply Rle_trans; [apply P|].
  - apply Rle_trans with (bpow radix2 (-100)); [apply bpow_le; lia|]. change (bpow radix2 (-100)) with (/ IZR (Z.pow_pos 2 100)). rewrite Zpower_pos_powerRZ. exact H.
  - apply Rmult_le_compat_r; [apply Rabs_pos|]. cbn [bpow Z.add Z.opp Z.pos_sub]. simpl. lra.
Qed.
Lemma rnd32_rel x : / 2 ^ 100 <= Rabs x -> Rabs (rnd32 x - x) <= / 2 ^ 24 * Rabs x.
Proof.
  intros H. pose proof (relative_error_N_FLT radix2 (-149) 24 eq_refl (fun z => negb (Z.even z)) x) as P.
  change (round radix2 (FLT_exp (-149) 24) (Znearest (fun z => negb (Z.even z))) x) with (rnd32 x) in P.
  eapply Rle_trans; [apply P|].
  - apply Rle_trans with (bpow radix2 (-100)); [apply bpow_le; lia|]. change (bpow radix2 (-100)) with (/ IZR (Z.pow_pos 2 100)). rewrite Zpower_pos_powerRZ. exact H.
  - apply Rmult_le_compat_r; [apply Rabs_pos|]. simpl. lra.
Qed.
Lemma rnd64_0 : rnd64 0 = 0. Proof. apply round_0. typeclasses eauto. Qed.
Lemma rnd32_0 : rnd32 0 = 0. Proof. apply round_0. typeclasses eauto. Qed.

Lemma big64 : 2 ^ 60 < bpow radix2 emax64.
Proof. replace (2 ^ 60) with (bpow radix2 60) by (simpl; lra). apply bpow_lt. reflexivity. Qed.
Lemma big32 : 2 ^ 60 < bpow radix2 emax32.
Proof. replace (2 ^ 60) with (bpow radix2 60) by (simpl; lra). apply bpow_lt. reflexivity. Qed.

(** A word as a double is exact. *)
Definition wr (w : N) : R := IZR (Z.of_N w).
Lemma wr_range w : is_word w -> 0 <= wr w <= 4294967295.
Proof. intros W. unfold is_word in W. change (2 ^ 32)%N with 4294967296%N in W. unfold wr. split; [apply IZR_le|apply IZR_le]; lia. Qed.
Lemma wr_step a b : (a < b)%N -> wr a + 1 <= wr b.
Proof. intros L. unfold wr. rewrite <- plus_IZR. apply IZR_le. lia. Qed.
Lemma wr_mono a b : (a <= b)%N -> wr a <= wr b.
Proof. intros L. apply IZR_le. lia. Qed.
Lemma word64_exact w : is_word w -> rnd64 (wr w) = wr w.
Proof.
  intros W. apply round_generic; [typeclasses eauto|]. change (SpecFloat.fexp prec64 emax64) with (FLT_exp (-1074) 53). apply generic_format_FLT.
  exists (Float radix2 (Z.of_N w) 0); [unfold F2R, wr; cbn; ring| |cbn; lia]. unfold is_word in W. change (2 ^ 32)%N with 4294967296%N in W. cbn. change (Z.pow_pos 2 53) with 9007199254740992%Z. lia.
Qed.
Lemma word64 w : is_word w -> valid_float prec64 emax64 (b64_ofZ (Z.of_N w)) /\ finite (b64_ofZ (Z.of_N w)) /\ val (b64_ofZ (Z.of_N w)) = wr w.
Proof.
  intros W. pose proof (wr_range w W) as B. destruct (ofZ_correct prec64 emax64 _ _ (Z.of_N w)) as (V & F & E).
  - change (Rabs (rnd64 (wr w)) < bpow radix2 emax64). rewrite word64_exact, Rabs_pos_eq by (auto; lra). apply Rle_lt_trans with (2 ^ 60); [simpl; lra|apply big64].
  - split; auto. split; auto. change (val (b64_ofZ (Z.of_N w)) = rnd64 (wr w)) in E. now rewrite E, word64_exact.
Qed.
Lemma scale64_val : valid_float prec64 emax64 scale64 /\ finite scale64 /\ val scale64 = 4294967297 / 2 ^ 64.
Proof.
  split; [reflexivity|]. split; [reflexivity|]. unfold val. set (e := scale64). vm_compute in e. unfold e, SF2R, F2R. cbn [Fnum Fexp cond_Zopp].
  unfold bpow. simpl. lra.
Qed.
(** The double made from a word. *)
Definition real_of (w : N) : spec_float := SFmul prec64 emax64 (b64_ofZ (Z.of_N w)) scale64.
Lemma real_val w : is_word w -> valid_float prec64 emax64 (real_of w) /\ finite (real_of w) /\ val (real_of w) = rnd64 (wr w * (4294967297 / 2 ^ 64)).
Proof.
  intros W. pose proof (wr_range w W) as B. destruct (word64 w W) as (V & F & E). destruct scale64_val as (Vs & Fs & Es).
  rewrite <- E, <- Es. apply (mul_correct prec64 emax64 _ _); auto. rewrite E, Es. change (Rabs (rnd64 (wr w * (4294967297 / 2 ^ 64))) < bpow radix2 emax64).
  apply Rle_lt_trans with (rnd64 (4294967295)); [|rewrite (word64_exact 4294967295 eq_refl : rnd64 4294967295 = 4294967295); apply Rle_lt_trans with (2 ^ 60); [simpl; lra|apply big64]].
  rewrite Rabs_pos_eq.
  - apply (round_mono prec64 emax64 _). apply Rle_trans with (wr w * 1); [|lra]. apply Rmult_le_compat_l; [lra|]. simpl; lra.
  - rewrite <- rnd64_0. apply (round_mono prec64 emax64 _). apply Rmult_le_pos; [lra|]. simpl; lra.
Qed.
Lemma scale64_near : Rabs (4294967297 / 2 ^ 64 - 1 / 4294967295) <= / 2 ^ 64 / 4294967295.
Proof. simpl. rewrite Rabs_left1; lra. Qed.
Lemma real_close w : is_word w -> Rabs (val (real_of w) - wr w / 4294967295) <= / 2 ^ 52 * (wr w / 4294967295).
Proof.
  intros W. pose proof (wr_range w W) as B. destruct (real_val w W) as (_ & _ & E). rewrite E. destruct (N.eq_dec w 0) as [->|N].
  - unfold wr. cbn [Z.of_N]. rewrite Rmult_0_l, rnd64_0. unfold Rdiv. rewrite Rmult_0_l, Rminus_0_r, Rabs_R0. lra.
  - assert (P : 1 <= wr w) by (apply (IZR_le 1); lia).
    set (c := 4294967297 / 2 ^ 64) in *. assert (C : / 2 ^ 33 <= c <= / 2 ^ 31) by (unfold c; simpl; lra).
    assert (L : Rabs (rnd64 (wr w * c) - wr w * c) <= / 2 ^ 53 * Rabs (wr w * c)).
    { apply rnd64_rel. rewrite Rabs_pos_eq by nra. apply Rle_trans with (1 * / 2 ^ 33); [simpl; lra|]. apply Rmult_le_compat; try lra; simpl; lra. }
    rewrite (Rabs_pos_eq (wr w * c)) in L by nra.
    pose proof scale64_near as Q. fold c in Q.
    replace (rnd64 (wr w * c) - wr w / 4294967295) with (rnd64 (wr w * c) - wr w * c + wr w * (c - 1 / 4294967295)) by field.
    eapply Rle_trans; [apply Rabs_triang|]. rewrite (Rabs_mult (wr w)), (Rabs_pos_eq (wr w)) by lra.
    apply Rle_trans with (/ 2 ^ 53 * (wr w * c) + wr w * (/ 2 ^ 64 / 4294967295)); [apply Rplus_le_compat; auto; apply Rmult_le_compat_l; lra|].
    replace (/ 2 ^ 53 * (wr w * c) + wr w * (/ 2 ^ 64 / 4294967295)) with (wr w * (/ 2 ^ 53 * c + / 2 ^ 64 / 4294967295)) by ring.
    replace (/ 2 ^ 52 * (wr w / 4294967295)) with (wr w * (/ 2 ^ 52 * / 4294967295)) by (unfold Rdiv; ring).
    apply Rmult_le_compat_l; [lra|]. unfold c. simpl. lra.
Qed.
Lemma real_increasing a b : is_word a -> is_word b -> (a < b)%N -> val (real_of a) < val (real_of b).
Proof.
  intros A B L. pose proof (real_close a A) as Ca. pose proof (real_close b B) as Cb. pose proof (wr_range a A). pose proof (wr_range b B). pose proof (wr_step a b L).
  apply Rabs_le_inv in Ca, Cb. assert (X : / 2 ^ 52 * (wr a / 4294967295) <= / 2 ^ 52). { replace (/ 2 ^ 52) with (/ 2 ^ 52 * 1) at 2 by ring. apply Rmult_le_compat_l; [simpl; lra|]. lra. }
  assert (Y : / 2 ^ 52 * (wr b / 4294967295) <= / 2 ^ 52). { replace (/ 2 ^ 52) with (/ 2 ^ 52 * 1) at 2 by ring. apply Rmult_le_compat_l; [simpl; lra|]. lra. }
  assert (Z : wr b / 4294967295 - wr a / 4294967295 >= / 4294967295) by lra.
  assert (/ 2 ^ 52 < / 4294967295 / 2) by (simpl; lra). lra.
Qed.
Lemma real_ends : real_of 0 = S754_zero false /\ val (real_of 4294967295) = 1.
Proof. split; [reflexivity|]. unfold val. set (e := real_of 4294967295). vm_compute in e. unfold e, SF2R, F2R. cbn [Fnum Fexp cond_Zopp]. unfold bpow. simpl. lra. Qed.
Lemma real_range w : is_word w -> 0 <= val (real_of w) <= 1 /\ (val (real_of w) = 0 <-> w = 0%N) /\ (val (real_of w) = 1 <-> w = 4294967295%N).
Proof.
  intros W. destruct real_ends as [E0 E1]. assert (V0 : val (real_of 0) = 0) by (rewrite E0; reflexivity).
  assert (W' : (w < 4294967296)%N) by exact W.
  assert (A : w = 0%N \/ 0 < val (real_of w)). { destruct (N.eq_dec w 0); auto. right. rewrite <- V0. apply real_increasing; auto; [reflexivity|lia]. }
  assert (B : w = 4294967295%N \/ val (real_of w) < 1). { destruct (N.eq_dec w 4294967295); auto. right. rewrite <- E1. apply real_increasing; auto; [reflexivity|lia]. }
  destruct A as [->|A].
  - rewrite V0. split; [lra|]. split; [split; auto|]. split; [lra|]. intros X; discriminate.
  - destruct B as [->|B].
    + rewrite E1. split; [lra|]. split; [split; [lra|intros X; discriminate]|split; auto].
    + split; [lra|]. split; [split; [lra|]|split; [lra|]]; intros ->; [rewrite V0 in A; lra|rewrite E1 in B; lra].
Qed.

(** Multiplied by n. *)
Lemma upto_val w n : is_word w -> is_double n -> finite n -> let r := SFmul prec64 emax64 (real_of w) n in
  is_double r /\ finite r /\ (0 <= val n -> 0 <= val r <= val n) /\ (val n <= 0 -> val n <= val r <= 0) /\
  (w = 0%N -> val r = 0) /\ (w = 4294967295%N -> val r = val n).
Proof.
  intros W D F r. destruct (real_val w W) as (V & Fr & _). destruct (real_range w W) as ((A & B) & Z & O).
  assert (Rv : rnd64 (val n) = val n) by exact (round_val prec64 emax64 n D F).
  assert (P : 0 <= val n -> 0 <= rnd64 (val (real_of w) * val n) <= val n).
  { intros N. split; [rewrite <- rnd64_0|apply Rle_trans with (rnd64 (val n)); [|rewrite Rv; lra]]; apply (round_mono prec64 emax64 _); nra. }
  assert (Q : val n <= 0 -> val n <= rnd64 (val (real_of w) * val n) <= 0).
  { intros N. split; [apply Rle_trans with (rnd64 (val n)); [rewrite Rv; lra|]|rewrite <- rnd64_0]; apply (round_mono prec64 emax64 _); nra. }
  assert (B' : Rabs (rnd64 (val (real_of w) * val n)) < bpow radix2 emax64).
  { pose proof (val_bound prec64 emax64 n D) as L. eapply Rle_lt_trans; [|exact L]. destruct (Rle_dec 0 (val n)).
    - rewrite !Rabs_pos_eq by (try apply P; auto). apply P; auto.
    - rewrite !Rabs_left1 by (try apply Q; lra). specialize (Q ltac:(lra)). lra. }
  destruct (mul_correct prec64 emax64 _ _ (real_of w) n V D Fr F B') as (Vr & Fv & E).
  change (val r = rnd64 (val (real_of w) * val n)) in E. split; [exact Vr|]. split; [exact Fv|]. rewrite E.
  split; auto. split; auto. split; intros X.
  - apply Z in X. rewrite X, Rmult_0_l. apply rnd64_0.
  - apply O in X. now rewrite X, Rmult_1_l.
Qed.

(** The float made from a word. *)
Definition float_of (w : N) : spec_float := SFmul prec32 emax32 (b32_ofZ (Z.of_N w)) (SFdiv prec32 emax32 (b32_ofZ 1) (b32_ofZ 4294967295)).
Lemma top32 : rnd32 4294967296 = 4294967296.
Proof.
  apply round_generic; [typeclasses eauto|]. change (SpecFloat.fexp prec32 emax32) with (FLT_exp (-149) 24). apply generic_format_FLT.
  exists (Float radix2 1 32); [unfold F2R; cbn; lra|reflexivity|cbn; lia].
Qed.
Lemma one32 : rnd32 1 = 1.
Proof.
  apply round_generic; [typeclasses eauto|]. change (SpecFloat.fexp prec32 emax32) with (FLT_exp (-149) 24). apply generic_format_FLT.
  exists (Float radix2 1 0); [unfold F2R; cbn; lra|reflexivity|cbn; lia].
Qed.
Lemma word32_range w : is_word w -> 0 <= rnd32 (wr w) <= 4294967296.
Proof. intros W. pose proof (wr_range w W). rewrite <- top32, <- rnd32_0. split; apply (round_mono prec32 emax32 _); lra. Qed.
Lemma float_val w : is_word w -> valid_float prec32 emax32 (float_of w) /\ finite (float_of w) /\ val (float_of w) = rnd32 (rnd32 (wr w) * / 4294967296).
Proof.
  intros W. pose proof (word32_range w W) as B. destruct (ofZ_correct prec32 emax32 _ _ (Z.of_N w)) as (V & F & E).
  - change (Rabs (rnd32 (wr w)) < bpow radix2 emax32). rewrite Rabs_pos_eq by lra. apply Rle_lt_trans with (2 ^ 60); [simpl; lra|apply big32].
  - change (val (b32_ofZ (Z.of_N w)) = rnd32 (wr w)) in E.
    assert (S : val (SFdiv prec32 emax32 (b32_ofZ 1) (b32_ofZ 4294967295)) = / 4294967296).
    { unfold val. set (e := SFdiv _ _ _ _). vm_compute in e. unfold e, SF2R, F2R. cbn [Fnum Fexp cond_Zopp]. unfold bpow. simpl. lra. }
    rewrite <- E, <- S. apply (mul_correct prec32 emax32 _ _); auto; try reflexivity. rewrite E, S. change (Rabs (rnd32 (rnd32 (wr w) * / 4294967296)) < bpow radix2 emax32).
    apply Rle_lt_trans with 1; [|apply Rlt_trans with (2 ^ 60); [simpl; lra|apply big32]]. rewrite Rabs_pos_eq.
    + rewrite <- one32. apply (round_mono prec32 emax32 _). lra.
    + rewrite <- rnd32_0. apply (round_mono prec32 emax32 _). lra.
Qed.
Lemma float_mono a b : is_word a -> is_word b -> (a <= b)%N -> val (float_of a) <= val (float_of b).
Proof.
  intros A B L. rewrite (proj2 (proj2 (float_val a A))), (proj2 (proj2 (float_val b B))). apply (round_mono prec32 emax32 _).
  apply Rmult_le_compat_r; [lra|]. apply (round_mono prec32 emax32 _). now apply wr_mono.
Qed.
Lemma float_close w : is_word w -> Rabs (val (float_of w) - wr w / 4294967296) <= / 2 ^ 22 * (wr w / 4294967296).
Proof.
  intros W. pose proof (wr_range w W) as B. rewrite (proj2 (proj2 (float_val w W))). destruct (N.eq_dec w 0) as [->|N].
  - unfold wr. cbn [Z.of_N]. rewrite rnd32_0, Rmult_0_l, rnd32_0. unfold Rdiv. rewrite Rmult_0_l, Rminus_0_r, Rabs_R0. lra.
  - assert (P : 1 <= wr w) by (apply (IZR_le 1); lia).
    assert (L : Rabs (rnd32 (wr w) - wr w) <= / 2 ^ 24 * Rabs (wr w)) by (apply rnd32_rel; rewrite Rabs_pos_eq by lra; simpl; lra).
    rewrite (Rabs_pos_eq (wr w)) in L by lra. apply Rabs_le_inv in L. assert (U : 1 / 2 <= rnd32 (wr w)) by (simpl in L; lra).
    assert (L2 : Rabs (rnd32 (rnd32 (wr w) * / 4294967296) - rnd32 (wr w) * / 4294967296) <= / 2 ^ 24 * Rabs (rnd32 (wr w) * / 4294967296)) by (apply rnd32_rel; rewrite Rabs_pos_eq by lra; simpl; lra).
    rewrite (Rabs_pos_eq (rnd32 (wr w) * / 4294967296)) in L2 by lra. apply Rabs_le_inv in L2.
    set (a := rnd32 (wr w)) in *. set (b := rnd32 (a * / 4294967296)) in *. apply Rabs_le. simpl in L, L2 |- *. lra.
Qed.
Lemma float_ends : val (float_of 0) = 0 /\ val (float_of 4294967167) < 1 /\ val (float_of 4294967168) = 1 /\ val (float_of 4294967295) = 1.
Proof.
  split; [reflexivity|]. split; [|split]; unfold val;
    match goal with |- context [float_of ?n] => let e := fresh in set (e := float_of n); vm_compute in e; unfold e, SF2R, F2R; cbn [Fnum Fexp cond_Zopp]; unfold bpow; simpl; lra end.
Qed.
Lemma float_range w : is_word w -> 0 <= val (float_of w) <= 1 /\ (val (float_of w) = 0 <-> w = 0%N) /\ (val (float_of w) = 1 <-> (4294967168 <= w)%N).
Proof.
  intros W. destruct float_ends as (E0 & E1 & E2 & E3). assert (W' : (w < 4294967296)%N) by exact W.
  assert (A : 0 <= val (float_of w)) by (rewrite <- E0; apply float_mono; auto; [reflexivity|lia]).
  assert (B : val (float_of w) <= 1) by (rewrite <- E3; apply float_mono; auto; [reflexivity|lia]).
  split; [lra|]. split; split.
  - intros Z. destruct (N.eq_dec w 0); auto. exfalso. pose proof (float_close w W) as C. rewrite Z in C. assert (P : 1 <= wr w) by (apply (IZR_le 1); lia).
    rewrite Rminus_0_l, Rabs_Ropp, Rabs_pos_eq in C by lra. simpl in C. lra.
  - intros ->. exact E0.
  - intros O. destruct (N.le_gt_cases 4294967168 w); auto. exfalso. pose proof (float_mono w 4294967167 W eq_refl ltac:(lia)). lra.
  - intros L. apply Rle_antisym; auto. rewrite <- E2. apply float_mono; auto. reflexivity.
Qed.

(** * Seeding from the environment *)
Open Scope N_scope.
Lemma read_device_ok f l : forall n k, length l = n -> (forall i, (i < n)%nat -> f (k + i)%nat = nth_error l i) -> read_device n k f = Some l.
Proof.
  induction l as [|a l IH]; intros n k L E; cbn in L; subst n; [reflexivity|]. cbn [read_device].
  pose proof (E 0%nat ltac:(lia)) as E0. rewrite Nat.add_0_r in E0. rewrite E0. cbn [nth_error].
  rewrite (IH (length l) (S k) eq_refl); auto. intros i Hi. specialize (E (S i) ltac:(lia)). cbn [nth_error] in E. now rewrite <- Nat.add_succ_comm in E.
Qed.
Lemma read_device_fails f : forall n k i, (i < n)%nat -> f (k + i)%nat = None -> read_device n k f = None.
Proof.
  induction n as [|n IH]; intros k i L E; [lia|]. cbn [read_device]. destruct (f k) eqn:Q; auto.
  destruct i as [|i]; [rewrite Nat.add_0_r in E; congruence|]. rewrite (IH (S k) i); auto; [lia|]. now rewrite Nat.add_succ_comm.
Qed.
Lemma mix_word l : is_word (mix_bytes l).
Proof.
  unfold mix_bytes. assert (G : forall h, is_word h -> is_word (fold_left (fun h b => w32 (w32 (h * 257) + b)) l h)).
  { induction l as [|b l IH]; intros h Hh; cbn [fold_left]; auto. apply IH, word_w32. }
  apply G. reflexivity.
Qed.
Lemma hash_word t c d : is_word (fst (hash t c d)).
Proof. cbn [hash fst]. apply word_lxor; [apply word_w32|apply mix_word]. Qed.
Lemma seed_env_device g d e l : delivers e l -> seed_env g d e = (do g' <- seed_array g l; Ret (g', d)).
Proof. intros (f & E & L & A). unfold seed_env. rewrite E, (read_device_ok f l 624 0); auto. Qed.
Lemma mix_value l : mix_bytes l = bytes_value l mod 2 ^ 32.
Proof.
  unfold mix_bytes, bytes_value. change 0 with (0 mod 2 ^ 32) at 1. generalize 0 as h. induction l as [|b l IH]; intros h; [reflexivity|]. cbn [fold_left].
  rewrite <- IH. f_equal. unfold w32. rewrite N.mul_mod_idemp_l, N.add_mod_idemp_l by lia. now rewrite (N.mul_comm h).
Qed.
Lemma byte_of z k : (0 <= k < 8)%Z -> ((z mod 2 ^ 64 / 256 ^ k) mod 256 = (z / 256 ^ k) mod 256)%Z.
Proof.
  intros K. set (p := (256 ^ k)%Z). assert (P : (0 < p)%Z) by (apply Z.pow_pos_nonneg; lia). set (r := (256 ^ (7 - k))%Z).
  assert (E : (2 ^ 64 = p * r * 256)%Z) by (unfold p, r; rewrite <- Z.pow_add_r by lia; replace (k + (7 - k))%Z with 7%Z by lia; reflexivity).
  rewrite (Z.div_mod z (2 ^ 64)) at 2 by lia. rewrite E at 2. replace (p * r * 256 * (z / 2 ^ 64) + z mod 2 ^ 64)%Z with (z mod 2 ^ 64 + r * 256 * (z / 2 ^ 64) * p)%Z by ring.
  rewrite Z.div_add by lia. replace (r * 256 * (z / 2 ^ 64))%Z with (r * (z / 2 ^ 64) * 256)%Z by ring. now rewrite Z.mod_add.
Qed.
Lemma memory_digits n z : memory n z = map (fun k => Z.to_N ((z / 256 ^ Z.of_nat k) mod 256)) (seq 0 n).
Proof.
  revert z. induction n as [|n IH]; intros z; [reflexivity|]. cbn [memory seq map]. rewrite IH, <- seq_shift, map_map. f_equal; [now rewrite Z.div_1_r|].
  apply map_ext. intros k. rewrite Nat2Z.inj_succ, Z.pow_succ_r, Z.div_div by (try apply Z.pow_pos_nonneg; lia). reflexivity.
Qed.
Lemma memory_bytes8 z : memory 8 z = bytes8 z.
Proof. rewrite memory_digits. apply map_ext_in. intros k K. apply in_seq in K. rewrite byte_of by lia. reflexivity. Qed.
Lemma hash_value t c d : hash t c d = (clock_seed t c d, (d + 1) mod 2 ^ 32).
Proof. unfold hash, clock_seed, w32. rewrite !mix_value, !memory_bytes8, N.add_mod_idemp_l by lia. reflexivity. Qed.
Lemma seed_env_clock g d e : no_device e -> seed_env g d e = (do g' <- seed_word g (clock_seed (now e) (ticks e) d); Ret (g', (d + 1) mod 2 ^ 32)).
Proof.
  intros N. unfold seed_env. rewrite hash_value. destruct N as [E|(f & k & E & K & A)]; rewrite E; [reflexivity|]. rewrite (read_device_fails f 624 0 k); auto.
Qed.
Lemma clock_seed_word t c d : is_word (clock_seed t c d).
Proof. unfold clock_seed. apply word_lxor; apply N.mod_lt; lia. Qed.
Lemma clock_seed_inj t c d d' : is_word d -> is_word d' -> clock_seed t c d = clock_seed t c d' -> d = d'.
Proof.
  intros D D' E. unfold clock_seed in E. set (h := bytes_value (bytes8 c) mod 2 ^ 32) in E.
  apply (f_equal (fun z => N.lxor z h)) in E. rewrite !N.lxor_assoc, N.lxor_nilpotent, !N.lxor_0_r in E.
  set (b := bytes_value (bytes8 t)) in E. clearbody b. unfold is_word in *.
  apply (f_equal (fun z => (z + (2 ^ 32 - b mod 2 ^ 32)) mod 2 ^ 32)) in E. rewrite !N.add_mod_idemp_l in E by lia.
  assert (Z : forall z, z < 2 ^ 32 -> (b + z + (2 ^ 32 - b mod 2 ^ 32)) mod 2 ^ 32 = z).
  { intros z Hz. pose proof (N.mod_lt b (2 ^ 32) ltac:(lia)). rewrite (N.div_mod' b (2 ^ 32)) at 1.
    replace (2 ^ 32 * (b / 2 ^ 32) + b mod 2 ^ 32 + z + (2 ^ 32 - b mod 2 ^ 32)) with (z + (b / 2 ^ 32 + 1) * 2 ^ 32) by lia. rewrite N.mod_add by lia. now apply N.mod_small. }
  now rewrite !Z in E.
Qed.
(** Either all words can be read or not. *)
Lemma device_cases e : words_only e -> (exists l, delivers e l /\ Forall is_word l) \/ no_device e.
Proof.
  intros W. destruct (device e) as [f|] eqn:E; [|right; now left].
  assert (C : forall n, (exists l, length l = n /\ (forall i, (i < n)%nat -> f i = nth_error l i) /\ Forall is_word l) \/ exists k, (k < n)%nat /\ f k = None).
  { induction n as [|n IH]; [left; exists []; repeat split; auto; intros i Hi; lia|].
    destruct IH as [(l & L & A & F)|(k & K & A)]; [|right; exists k; split; auto; lia].
    destruct (f n) as [w|] eqn:Q; [|right; exists n; split; auto; lia]. left. exists (l ++ [w]). split; [rewrite app_length; cbn; lia|]. split.
    - intros i Hi. destruct (Nat.eq_dec i n) as [->|]; [rewrite nth_error_app2, L, Nat.sub_diag by lia; exact Q|]. rewrite nth_error_app1 by lia. apply A. lia.
    - apply Forall_app. split; auto. constructor; auto. apply (W f n w E Q). }
  destruct (C 624%nat) as [(l & L & A & F)|(k & K & A)].
  - left. exists l. split; auto. exists f. auto.
  - right. right. exists f, k. auto.
Qed.
Lemma seed_env_ok g d e : mt_typed g -> is_word d -> words_only e -> exists g' d', seed_env g d e = Ret (g', d') /\ mt_typed g' /\ idx g' = 624 /\ is_word d' /\
  ((exists l, delivers e l /\ seed_array g l = Ret g' /\ d' = d) \/ (no_device e /\ seed_word g (clock_seed (now e) (ticks e) d) = Ret g' /\ d' = (d + 1) mod 2 ^ 32)).
Proof.
  intros G D W. destruct (device_cases e W) as [(l & V & F)|N].
  - rewrite (seed_env_device g d e l V). destruct V as (f & E & L & A). destruct (seed_array_ok g l (proj1 G)) as (g' & S & [B1 B2] & I & _); auto; [intros ->; discriminate|].
    exists g', d. rewrite S. cbn [obind]. split; auto. split; [split; auto; split; auto; rewrite I; reflexivity|]. split; auto. split; auto. left. exists l. split; auto. exists f. auto.
  - rewrite (seed_env_clock g d e N). destruct (seed_word_gen g (clock_seed (now e) (ticks e) d) (proj1 G) (clock_seed_word _ _ _)) as (g' & S & B1 & I & _ & B2 & _).
    exists g', ((d + 1) mod 2 ^ 32). rewrite S. cbn [obind]. split; auto. split; [split; auto; split; auto; rewrite I; reflexivity|]. split; auto. split; [apply N.mod_lt; lia|]. right. auto.
Qed.

(** * One generator after another *)
Lemma make_all_split words l1 : forall d l2 r, make_all words d (l1 ++ l2) = Ret r -> exists r1 r2 d', r = r1 ++ r2 /\ length r1 = length l1 /\ make_all words d' l2 = Ret r2 /\
  (length (st {| st := words; idx := 0 |}) = 624%nat -> Forall is_word words -> is_word d -> Forall words_only l1 -> exists k, (k <= length l1)%nat /\ d' = (d + N.of_nat k) mod 2 ^ 32).
Proof.
  induction l1 as [|e l1 IH]; intros d l2 r E; cbn [app make_all] in E.
  - exists [], r, d. repeat split; auto. intros _ _ D _. exists 0%nat. split; auto. rewrite N.add_0_r. symmetry. now apply N.mod_small.
  - destruct (make_env words d e) as [[g d1]| | |] eqn:M; try discriminate E. cbn [obind] in E.
    destruct (make_all words d1 (l1 ++ l2)) as [r'| | |] eqn:R; try discriminate E. cbn [obind] in E. injection E as <-.
    destruct (IH d1 l2 r' R) as (r1 & r2 & d' & -> & L & Q & K). exists (g :: r1), r2, d'. split; auto. split; [cbn; lia|]. split; auto.
    intros Lw Ww D F. inversion F as [|? ? We Wl]; subst. unfold make_env in M.
    destruct (seed_env_ok {| st := words; idx := 0 |} d e) as (g' & d2 & M' & _ & _ & D2 & C); auto; [repeat split; auto|].
    rewrite M' in M. injection M as -> ->. destruct (K Lw Ww D2 Wl) as (k & Hk & ->).
    destruct C as [(l & _ & _ & ->)|(_ & _ & ->)]; [exists k; split; auto; cbn; lia|]. exists (S k). split; [cbn; lia|].
    rewrite N.add_mod_idemp_l by lia. f_equal. lia.
Qed.
Lemma make_all_defined words l : length words = 624%nat -> Forall is_word words -> Forall words_only l -> forall d, is_word d ->
  exists r, make_all words d l = Ret r /\ length r = length l /\ Forall mt_typed r.
Proof.
  intros L W F. induction F as [|e l We Wl IH]; intros d D; [exists []; repeat split; auto|]. cbn [make_all].
  destruct (seed_env_ok {| st := words; idx := 0 |} d e) as (g & d' & M & G & _ & D' & _); auto; [repeat split; auto|]. unfold make_env. rewrite M. cbn [obind].
  destruct (IH d' D') as (r & -> & Lr & Tr). cbn [obind]. exists (g :: r). repeat split; auto. cbn. lia.
Qed.
Lemma make_all_distinct words d pre e1 mid e2 post r : length words = 624%nat -> Forall is_word words -> is_word d ->
  Forall words_only (pre ++ e1 :: mid ++ e2 :: post) -> no_device e1 -> no_device e2 -> now e1 = now e2 -> ticks e1 = ticks e2 -> N.of_nat (length mid) < 2 ^ 32 - 1 ->
  make_all words d (pre ++ e1 :: mid ++ e2 :: post) = Ret r ->
  exists g1 g2 l1 l2, nth_error r (length pre) = Some g1 /\ nth_error r (length pre + S (length mid)) = Some g2 /\ rand_words 624 g1 = Ret l1 /\ rand_words 624 g2 = Ret l2 /\ l1 <> l2.
Proof.
  intros L W D F N1 N2 T C M E. assert (G0 : mt_typed {| st := words; idx := 0 |}) by (repeat split; auto).
  apply Forall_app in F. destruct F as [Fp F]. inversion F as [|? ? F1 F']; subst. apply Forall_app in F'. destruct F' as [Fm F'].
  destruct (make_all_split words pre d _ r E) as (ra & rb & d1 & -> & La & E1 & K1). destruct (K1 L W D Fp) as (k1 & _ & Hd1).
  assert (D1 : is_word d1) by (rewrite Hd1; apply N.mod_lt; lia).
  cbn [make_all] in E1. unfold make_env in E1. rewrite (seed_env_clock _ d1 e1 N1) in E1.
  set (s1 := clock_seed (now e1) (ticks e1) d1) in *. assert (S1 : is_word s1) by apply clock_seed_word.
  destruct (seed_word _ s1) as [g1| | |] eqn:Q1 in E1; try discriminate E1. cbn [obind] in E1.
  destruct (make_all words ((d1 + 1) mod 2 ^ 32) (mid ++ e2 :: post)) as [rc| | |] eqn:E2; try discriminate E1. cbn [obind] in E1. injection E1 as <-.
  destruct (make_all_split words mid _ _ rc E2) as (rm & rd & d2 & -> & Lm & E3 & K2). destruct (K2 L W ltac:(apply N.mod_lt; lia) Fm) as (k2 & Hk2 & Hd2).
  assert (D2 : is_word d2) by (rewrite Hd2; apply N.mod_lt; lia).
  cbn [make_all] in E3. unfold make_env in E3. rewrite (seed_env_clock _ d2 e2 N2) in E3.
  set (s2 := clock_seed (now e2) (ticks e2) d2) in *. assert (S2 : is_word s2) by apply clock_seed_word.
  destruct (seed_word _ s2) as [g2| | |] eqn:Q2 in E3; try discriminate E3. cbn [obind] in E3.
  destruct (make_all words _ post) as [re| | |] eqn:E4 in E3; try discriminate E3. cbn [obind] in E3. injection E3 as <-.
  assert (Nd : s1 <> s2).
  { unfold s1, s2. rewrite T, C. intros Q. apply clock_seed_inj in Q; auto. rewrite Hd2, N.add_mod_idemp_l in Q by lia.
    assert (X : N.of_nat (S k2) < 2 ^ 32) by lia. unfold is_word in D1.
    replace (d1 + 1 + N.of_nat k2) with (d1 + N.of_nat (S k2)) in Q by lia.
    destruct (N.lt_ge_cases (d1 + N.of_nat (S k2)) (2 ^ 32)).
    - rewrite N.mod_small in Q by auto. lia.
    - replace (d1 + N.of_nat (S k2)) with (d1 + N.of_nat (S k2) - 2 ^ 32 + 1 * 2 ^ 32) in Q by lia. rewrite N.mod_add, N.mod_small in Q by lia. lia. }
  destruct (seeds_differ _ _ s1 s2 G0 G0 S1 S2 Nd) as (g1' & g2' & l1 & l2 & A1 & A2 & B1 & B2 & Nl).
  rewrite Q1 in A1. rewrite Q2 in A2. injection A1 as <-. injection A2 as <-.
  exists g1, g2, l1, l2. rewrite <- La. split; [rewrite nth_error_app2, Nat.sub_diag by lia; reflexivity|]. split; auto.
  rewrite nth_error_app2 by lia. replace (length ra + S (length mid) - length ra)%nat with (S (length rm)) by lia. cbn [nth_error]. rewrite nth_error_app2, Nat.sub_diag by lia. reflexivity.
Qed.
