(** Products of rotation matrices in doubles. *)
From Coq Require Import ZArith NArith Reals Bool SpecFloat Lia Lra List Psatz.
From Flocq Require Import Core IEEE754.BinarySingleNaN.
From Verif Require Import Base Scalar OrdLib RLib B64Lib B64Ops FloatOps RSpec ConstModel VecModel RotModel VecSpec ConstSpec RotSpec RoundSpec RotRoundSpec MatLib
  RoundLib RoundProofs RoundProofs2 RoundProofs3 RoundProofs4 RoundProofs5 QuatRound.
Import ListNotations.
Open Scope R_scope.

Lemma sum_abs_le n a b : Rsum n (fun k => Rabs (a k * b k)) <= norm n a * norm n b.
Proof.
  apply Rle_trans with (norm n (fun k => Rabs (a k)) * norm n (fun k => Rabs (b k))).
  - eapply Rle_trans; [|apply inner_le_norm]. apply Req_le. apply Rsum_ext. intros k _. apply Rabs_mult.
  - apply Req_le. f_equal; unfold norm; f_equal; unfold norm2, inner; apply Rsum_ext; intros k _; rewrite <- Rabs_mult; apply Rabs_right, Rle_ge; nra.
Qed.
(** Vector times matrix. *)
Definition vmul (n : nat) (x : nat -> R) (A : nat -> nat -> R) (j : nat) : R := Rsum n (fun k => x k * A k j).
Lemma norm_ext n a b : (forall i, (i < n)%nat -> a i = b i) -> norm n a = norm n b.
Proof. intros E. unfold norm. f_equal. unfold norm2. now apply inner_ext. Qed.
Lemma vmul_orth n x O : orthogonal n O -> norm n (vmul n x O) = norm n x.
Proof.
  intros H. transitivity (norm n (mapply n (mtr O) x)).
  - apply norm_ext. intros j _. unfold vmul, mapply, mtr. apply Rsum_ext. intros k _. ring.
  - unfold norm. f_equal. unfold norm2. apply orthogonal_inner. now apply orthogonal_tr.
Qed.
Lemma row_norm n O i : orthogonal n O -> (i < n)%nat -> norm n (O i) = 1.
Proof.
  intros H Hi. unfold norm. rewrite <- sqrt_1. f_equal. specialize (H i i Hi Hi). unfold mmul, mtr in H. unfold norm2, inner. rewrite H. unfold delta. now rewrite Nat.eqb_refl.
Qed.
Lemma dim_bound n : (0 < n)%nat -> (Z.of_nat n <= 2 ^ 20)%Z -> 1 <= INR n <= 1048576.
Proof. intros P L. split; [change 1 with (INR 1); apply le_INR; lia|]. rewrite INR_IZR_INZ. apply IZR_le. exact L. Qed.
Lemma coord_norm n a i : (i < n)%nat -> Rabs (a i) <= norm n a.
Proof. intros Hi. pose proof (norm2_coord_le n a i Hi). pose proof (norm_sqr n a). pose proof (norm_nonneg n a). apply Rabs_le. split; nra. Qed.

Section Step.
Variable m : libm.
Variable n : nat.
Hypothesis N0 : (0 < n)%nat.
Hypothesis N1 : (Z.of_nat n <= 2 ^ 20)%Z.
Variable f : nat -> nat -> spec_float.
Variable O : nat -> nat -> R.
Hypothesis Ff : forall i j, (i < n)%nat -> (j < n)%nat -> fl (f i j).
Hypothesis OO : orthogonal n O.
Hypothesis Cf : forall i j, (i < n)%nat -> (j < n)%nat -> Rabs (val (f i j) - O i j) <= 4 * u64.

Lemma col_norm j : (j < n)%nat -> norm n (fun k => val (f k j)) <= 11 / 10.
Proof.
  intros Hj. pose proof (dim_bound n N0 N1) as D. assert (U : u64 <= / 1000000000000000) by (unfold u64, bpow; change (Z.pow_pos radix2 53) with 9007199254740992%Z; lra). nums.
  pose proof (norm_triangle n (fun k => val (f k j) - O k j) (fun k => O k j)) as T.
  assert (E : norm n (fun i => val (f i j) - O i j + O i j) = norm n (fun k => val (f k j))) by (apply norm_ext; intros; ring). cbv beta in T. rewrite E in T.
  assert (R1 : norm n (fun k => O k j) = 1) by (apply (row_norm n (mtr O) j); auto; now apply orthogonal_tr).
  assert (R2 : norm n (fun k => val (f k j) - O k j) <= INR n * (4 * u64)) by (eapply Rle_trans; [apply (norm_mono n _ (fun _ => 4 * u64)); auto|apply norm_const; lra]).
  assert (INR n * (4 * u64) <= 1048576 * (4 * / 1000000000000000)) by (apply Rmult_le_compat; lra). lra.
Qed.
Lemma step_ok (a : nat -> spec_float) r e : (forall k, (k < n)%nat -> fl (a k)) -> norm n r = 1 -> norm n (fun k => val (a k) - r k) <= e -> e <= / 10 ->
  let w j := nsum (H := B64 m) n (fun k => nmul (Num := B64 m) (a k) (f k j)) in
  (forall j, (j < n)%nat -> fl (w j)) /\ norm n (fun j => val (w j) - vmul n r O j) <= e + 9 * INR n * INR n * u64.
Proof.
  intros Fa Nr Ea Le w. pose proof (dim_bound n N0 N1) as D. nums.
  assert (E3 : eta64 <= u64 / 1000) by (unfold eta64, u64; change (-1075)%Z with (-53 + -1022)%Z; rewrite bpow_plus; pose proof (bpow_gt_0 radix2 (-53)); assert (bpow radix2 (-1022) <= / 1000) by (apply Rle_trans with (bpow radix2 (-10)); [apply bpow_le; lia|unfold bpow; change (Z.pow_pos radix2 10) with 1024%Z; lra]); unfold Rdiv; apply Rmult_le_compat_l; lra).
  assert (Na : norm n (fun k => val (a k)) <= 11 / 10).
  { pose proof (norm_triangle n (fun k => val (a k) - r k) r) as T. assert (E : norm n (fun i => val (a i) - r i + r i) = norm n (fun k => val (a k))) by (apply norm_ext; intros; ring). cbv beta in T. rewrite E in T. lra. }
  assert (S : forall j, (j < n)%nat -> Rsum n (fun k => Rabs (val (a k) * val (f k j))) <= 121 / 100).
  { intros j Hj. eapply Rle_trans; [apply (sum_abs_le n (fun k => val (a k)) (fun k => val (f k j)))|]. pose proof (col_norm j Hj). pose proof (norm_nonneg n (fun k => val (a k))). pose proof (norm_nonneg n (fun k => val (f k j))).
    replace (121 / 100) with (11 / 10 * (11 / 10)) by lra. apply Rmult_le_compat; lra. }
  assert (P : forall j, (j < n)%nat -> fl (w j) /\ Rabs (val (w j) - Rsum n (fun k => val (a k) * val (f k j))) <= (INR n + 2) * u64 * Rsum n (fun k => Rabs (val (a k) * val (f k j))) + 2 * INR n * eta64).
  { intros j Hj. destruct (dots_ok m n a (fun k => f k j)) as (A & B & _); [lia| |specialize (S j Hj); lra|split; [exact A|exact B]]. intros i Hi. split; auto. }
  split; [intros j Hj; now apply P|].
  set (g j := val (w j) - Rsum n (fun k => val (a k) * val (f k j))). set (h j := vmul n (fun k => val (a k)) (fun k l => val (f k l) - O k l) j). set (t j := vmul n (fun k => val (a k) - r k) O j).
  assert (Eq : forall j, (j < n)%nat -> val (w j) - vmul n r O j = t j + (g j + h j)).
  { intros j _. unfold t, g, h, vmul. set (W := val (w j)). enough (Q : Rsum n (fun k => val (a k) * val (f k j)) - Rsum n (fun k => r k * O k j) = Rsum n (fun k => (val (a k) - r k) * O k j) + Rsum n (fun k => val (a k) * (val (f k j) - O k j))) by lra.
    rewrite <- Rsum_minus, <- Rsum_plus. apply Rsum_ext. intros k _. ring. }
  rewrite (norm_ext n _ _ Eq). eapply Rle_trans; [apply norm_triangle|]. assert (T1 : norm n t <= e) by (unfold t; rewrite vmul_orth; auto).
  assert (T2 : norm n (fun j => g j + h j) <= INR n * (9 * INR n * u64)).
  { eapply Rle_trans; [apply (norm_mono n _ (fun _ => 9 * INR n * u64))|apply norm_const; apply Rmult_le_pos; lra].
    intros j Hj. eapply Rle_trans; [apply Rabs_triang|].
    assert (G : Rabs (g j) <= 4 * INR n * u64).
    { eapply Rle_trans; [apply P; auto|]. specialize (S j Hj). assert (A : (INR n + 2) * u64 * Rsum n (fun k => Rabs (val (a k) * val (f k j))) <= (INR n + 2) * u64 * (121 / 100)) by (apply Rmult_le_compat_l; [apply Rmult_le_pos; lra|exact S]).
      assert (B : 2 * INR n * eta64 <= 2 * INR n * (u64 / 1000)) by (apply Rmult_le_compat_l; lra). assert (C : (INR n + 2) * u64 <= 3 * INR n * u64) by (apply Rmult_le_compat_r; lra). assert (0 <= INR n * u64) by (apply Rmult_le_pos; lra). lra. }
    assert (K : Rabs (h j) <= 5 * INR n * u64).
    { unfold h, vmul. eapply Rle_trans; [apply Rsum_abs|]. eapply Rle_trans; [apply (sum_abs_le n (fun k => val (a k)) (fun k => val (f k j) - O k j))|].
      assert (B : norm n (fun k => val (f k j) - O k j) <= INR n * (4 * u64)) by (eapply Rle_trans; [apply (norm_mono n _ (fun _ => 4 * u64)); auto|apply norm_const; lra]).
      apply Rle_trans with (11 / 10 * (INR n * (4 * u64))); [apply Rmult_le_compat; auto; apply norm_nonneg|]. assert (0 <= INR n * u64) by (apply Rmult_le_pos; lra). lra. }
    lra. }
  lra.
Qed.
End Step.

(** What a product holds when it is not renormalised. *)
Definition good_turn (m : libm) (n : nat) (P : rotmatrix spec_float) (A : nat -> nat -> R) (k : nat) : Prop :=
  mdoubles m n P /\ mvalid P = true /\ (mage P <= N.of_nat (S k))%N /\ orthogonal n A /\ forall i, (i < n)%nat -> norm n (fun j => mco m P i j - A i j) <= 9 * INR n * INR n * u64 * INR (S k).
Lemma turn_bound n k : (0 < n)%nat -> (Z.of_nat n <= 2 ^ 20)%Z -> (k <= 20)%nat -> 9 * INR n * INR n * u64 * INR k <= / 10.
Proof.
  intros N0 N1 K. pose proof (dim_bound n N0 N1) as D. assert (U : 0 < u64 <= / 9000000000000000) by (unfold u64, bpow; change (Z.pow_pos radix2 53) with 9007199254740992%Z; lra).
  assert (K' : 0 <= INR k <= 20) by (split; [apply pos_INR|replace 20 with (INR 20) by (simpl; lra); now apply le_INR]).
  assert (NN : 0 <= INR n * INR n <= 1048576 * 1048576) by (split; [apply Rmult_le_pos|apply Rmult_le_compat]; lra).
  assert (A : 0 <= INR n * INR n * u64 <= 1048576 * 1048576 * / 9000000000000000) by (split; [apply Rmult_le_pos|apply Rmult_le_compat]; lra).
  assert (B : INR n * INR n * u64 * INR k <= 1048576 * 1048576 * / 9000000000000000 * 20) by (apply Rmult_le_compat; lra). lra.
Qed.
Lemma prod_with_ret (m : libm) n f (a x : rotmatrix spec_float) : mvalid a = true -> mvalid x = true -> (mage a + mage x < 20)%N ->
  prod_with (H := B64 m) n f a x = Ret (mkM (mtab n f) (xorb (mflip a) (mflip x)) true (mage a + mage x)).
Proof.
  intros Va Vx L. unfold prod_with, check_norm, age_add. cbn [mage mvalid]. rewrite Va, Vx, N.mod_small by (change (2 ^ 32)%N with 4294967296%N; lia). change (N.of_nat max_norm_age) with 20%N.
  destruct (N.leb_spec 20 (mage a + mage x)); [lia|reflexivity].
Qed.
Lemma turn_ok m n P A k t u : (0 < n)%nat -> (Z.of_nat n <= 2 ^ 20)%Z -> (k < 18)%nat -> good_turn m n P A k -> turn_for m n t u ->
  exists Q, do_turn m n (Ret P) t = Ret Q /\ good_turn m n Q (exact_turn n A u) (S k).
Proof.
  intros N0 N1 K (DP & VP & AP & OA & EP) T.
  assert (G : forall (x : rotmatrix spec_float) (f : nat -> nat -> spec_float) O, mvalid x = true -> (mage x <= 1)%N -> orthogonal n O -> (forall i j, (i < n)%nat -> (j < n)%nat -> fl (f i j)) ->
    (forall i j, (i < n)%nat -> (j < n)%nat -> Rabs (val (f i j) - O i j) <= 4 * u64) ->
    exists Q, prod_with (H := B64 m) n (fun i j => nsum (H := B64 m) n (fun l => nmul (Num := B64 m) (elem (H := B64 m) P i l) (f l j))) P x = Ret Q /\ good_turn m n Q (mmul n A O) (S k)).
  { intros x f O Vx Ax OO Ff Cf. rewrite prod_with_ret by (auto; lia). eexists. split; [reflexivity|].
    set (w i j := nsum (H := B64 m) n (fun l => nmul (Num := B64 m) (elem (H := B64 m) P i l) (f l j))).
    assert (Z : forall i, (i < n)%nat -> (forall j, (j < n)%nat -> fl (w i j)) /\ norm n (fun j => val (w i j) - vmul n (A i) O j) <= 9 * INR n * INR n * u64 * INR (S k) + 9 * INR n * INR n * u64).
    { intros i Hi. exact (step_ok m n N0 N1 f O Ff OO Cf (fun l => elem (H := B64 m) P i l) (A i) _ (fun l Hl => proj2 (fl_iff _) (DP i l Hi Hl)) (row_norm n A i OA Hi) (EP i Hi) (turn_bound n (S k) N0 N1 ltac:(lia))). }
    assert (El : forall i j, (i < n)%nat -> (j < n)%nat -> elem (H := B64 m) (mkM (mtab n w) (xorb (mflip P) (mflip x)) true (mage P + mage x)) i j = w i j) by (intros i j Hi Hj; unfold elem; cbn [me]; now rewrite mget_mtab).
    split; [intros i j Hi Hj; rewrite El by auto; apply fl_iff; now apply Z|]. split; [reflexivity|]. split; [cbn [mage]; lia|]. split; [now apply orthogonal_mul|].
    intros i Hi. destruct (Z i Hi) as [_ E]. eapply Rle_trans; [|eapply Rle_trans; [exact E|]].
    - apply Req_le, norm_ext. intros j Hj. unfold mco. rewrite El by auto. reflexivity.
    - apply Req_le. rewrite (S_INR (S k)). ring. }
  destruct t as [x|x], u as [X|X]; cbn [turn_for] in T; try contradiction; destruct T as (Dx & Vx & Ax & OX & Cx); cbn [do_turn obind exact_turn].
  - apply (G x (fun l j => elem (H := B64 m) x l j) X); auto. intros i j Hi Hj. apply fl_iff. auto.
  - apply (G x (fun l j => elem (H := B64 m) x j l) (mtr X)); auto; [now apply orthogonal_tr|intros i j Hi Hj; apply fl_iff; auto|intros i j Hi Hj; unfold mtr; now apply Cx].
Qed.
Lemma turns_ok m n ts us : forall P A k, (0 < n)%nat -> (Z.of_nat n <= 2 ^ 20)%Z -> (k + length ts <= 18)%nat -> good_turn m n P A k -> Forall2 (turn_for m n) ts us ->
  exists Q, fold_left (do_turn m n) ts (Ret P) = Ret Q /\ good_turn m n Q (fold_left (exact_turn n) us A) (k + length ts).
Proof.
  revert us. induction ts as [|t ts IH]; intros us P A k N0 N1 K G F; inversion F; subst; cbn [fold_left length] in *.
  - exists P. rewrite Nat.add_0_r. auto.
  - destruct (turn_ok m n P A k t y N0 N1 ltac:(lia) G) as (Q & E & GQ); auto. rewrite E. destruct (IH l' Q (exact_turn n A y) (S k) N0 N1 ltac:(lia) GQ) as (Q' & E' & GQ'); auto.
    exists Q'. split; auto. now replace (k + S (length ts))%nat with (S k + length ts)%nat by lia.
Qed.
Lemma good_start m n M O : (0 < n)%nat -> (Z.of_nat n <= 2 ^ 20)%Z -> stands_for m n M O -> good_turn m n M O 0.
Proof.
  intros N0 N1 (D & V & A & OO & C). split; auto. split; auto. split; auto. split; auto. intros i Hi. pose proof (dim_bound n N0 N1). nums.
  eapply Rle_trans; [apply (norm_mono n _ (fun _ => 4 * u64))|]; [intros j Hj; now apply C|]. eapply Rle_trans; [apply norm_const; lra|]. assert (INR n * u64 <= INR n * INR n * u64) by (apply Rmult_le_compat_r; [lra|]; nra). assert (0 <= INR n * u64) by (apply Rmult_le_pos; lra). cbn [INR]. lra.
Qed.
(** Rows close to orthonormal rows have inner products close to theirs. *)
Lemma inner_close n a b r s e : norm n r = 1 -> norm n s = 1 -> norm n (fun k => a k - r k) <= e -> norm n (fun k => b k - s k) <= e -> e <= / 10 ->
  Rabs (inner n a b - inner n r s) <= 3 * e.
Proof.
  intros Nr Ns Ea Eb Le. assert (E : inner n a b - inner n r s = inner n (fun k => a k - r k) b + inner n r (fun k => b k - s k)) by (rewrite inner_minus_l, inner_minus_r; ring). rewrite E.
  assert (Nb : norm n b <= 11 / 10).
  { pose proof (norm_triangle n (fun k => b k - s k) s) as T. assert (Q : norm n (fun i => b i - s i + s i) = norm n b) by (apply norm_ext; intros; ring). cbv beta in T. rewrite Q in T. lra. }
  assert (I : forall x y, Rabs (inner n x y) <= norm n x * norm n y) by (intros x y; unfold inner; eapply Rle_trans; [apply Rsum_abs|apply sum_abs_le]).
  eapply Rle_trans; [apply Rabs_triang|]. pose proof (I (fun k => a k - r k) b). pose proof (I r (fun k => b k - s k)). pose proof (norm_nonneg n (fun k => a k - r k)). pose proof (norm_nonneg n b).
  assert (norm n (fun k => a k - r k) * norm n b <= e * (11 / 10)) by (apply Rmult_le_compat; lra). rewrite Nr in *. lra.
Qed.
