(** Euler's product for the sine, by the integrals of cos (2 z t) cos^2m t over a quarter turn; and the reflection formula of the
    Gamma function. *)
From Coq Require Import Reals Lra Lia Psatz.
From Coquelicot Require Import Coquelicot.
From Verif Require Import GammaSpec.
Open Scope R_scope.

Definition cosint (z : R) (m : nat) : R := RInt (fun t => cos (2 * z * t) * cos t ^ (2 * m)) 0 (PI / 2).
Lemma cos_deriv z t : is_derive (fun t => cos (2 * z * t)) t (- (2 * z) * sin (2 * z * t)).
Proof. auto_derive; auto. ring. Qed.
Lemma cosint_cont z m t : continuous (fun t => cos (2 * z * t) * cos t ^ (2 * m)) t.
Proof. apply (ex_derive_continuous (fun t => cos (2 * z * t) * cos t ^ (2 * m))). auto_derive. auto. Qed.
Lemma cosint_ex z m a b : ex_RInt (fun t => cos (2 * z * t) * cos t ^ (2 * m)) a b.
Proof. apply (ex_RInt_continuous (V := R_CompleteNormedModule)). intros x _. apply cosint_cont. Qed.
Lemma cosint_step z m : INR (2 * (m + 1)) * (INR (2 * (m + 1)) - 1) * cosint z m = (INR (2 * (m + 1)) ^ 2 - 4 * z ^ 2) * cosint z (m + 1).
Proof.
  set (n := INR (2 * (m + 1))).
  set (F := fun t => - n * (cos t ^ (2 * m + 1) * sin t * cos (2 * z * t)) + 2 * z * (cos t ^ (2 * (m + 1)) * sin (2 * z * t))).
  set (f := fun t => n * (n - 1) * (cos (2 * z * t) * cos t ^ (2 * m)) - (n ^ 2 - 4 * z ^ 2) * (cos (2 * z * t) * cos t ^ (2 * (m + 1)))).
  assert (D : forall t, is_derive F t (f t)).
  { intros t. unfold F, f. auto_derive; auto. replace (pred (2 * m + 1)) with (2 * m)%nat by lia. replace (pred (m + 1 + (m + 1 + 0))) with (2 * m + 1)%nat by lia.
    replace (m + 1 + (m + 1 + 0))%nat with (S (S (2 * m))) by lia. replace (2 * (m + 1))%nat with (S (S (2 * m))) by lia. replace (m + (m + 0))%nat with (2 * m)%nat by lia. replace (2 * m + 1)%nat with (S (2 * m)) by lia.
    assert (N1 : INR (S (2 * m)) = n - 1) by (unfold n; replace (2 * (m + 1))%nat with (S (S (2 * m))) by lia; rewrite (S_INR (S (2 * m))); ring).
    assert (N2 : INR (S (S (2 * m))) = n) by (unfold n; f_equal; lia). rewrite N1, N2. cbn [pow Init.Nat.pred]. set (c := cos t). set (s := sin t).
    assert (E : s * s = 1 - c * c) by (unfold s, c; pose proof (sin2_cos2 t) as Q; unfold Rsqr in Q; lra).
    transitivity (n * (n - 1) * c ^ (2 * m) * (s * s) * cos (2 * z * t) + (- n + 4 * z ^ 2) * (c * (c * c ^ (2 * m))) * cos (2 * z * t)); [ring|]. rewrite E. ring. }
  assert (Cf : forall t, continuous f t).
  { intros t. apply (ex_derive_continuous f). unfold f. auto_derive. auto. }
  assert (I : is_RInt f 0 (PI / 2) (F (PI / 2) - F 0)).
  { apply (is_RInt_derive (V := R_CompleteNormedModule) F f); intros; auto. }
  assert (Z : F (PI / 2) - F 0 = 0).
  { unfold F. rewrite cos_PI2, (Rmult_0_r (2 * z)), !sin_0. rewrite !pow_i by lia. ring. }
  assert (L : RInt f 0 (PI / 2) = n * (n - 1) * cosint z m - (n ^ 2 - 4 * z ^ 2) * cosint z (m + 1)).
  { unfold f, cosint. rewrite (RInt_minus (V := R_CompleteNormedModule) (fun t => n * (n - 1) * (cos (2 * z * t) * cos t ^ (2 * m))) (fun t => (n ^ 2 - 4 * z ^ 2) * (cos (2 * z * t) * cos t ^ (2 * (m + 1))))).
    - rewrite (RInt_scal (V := R_CompleteNormedModule) _ _ _ (n * (n - 1))) by apply cosint_ex. rewrite (RInt_scal (V := R_CompleteNormedModule) _ _ _ (n ^ 2 - 4 * z ^ 2)) by apply cosint_ex. reflexivity.
    - apply (ex_RInt_scal (V := R_CompleteNormedModule)), cosint_ex.
    - apply (ex_RInt_scal (V := R_CompleteNormedModule)), cosint_ex. }
  rewrite (is_RInt_unique _ _ _ _ I), Z in L. lra.
Qed.
Lemma cosint_base z : z <> 0 -> cosint z 0 = sin (PI * z) / (2 * z).
Proof.
  intros Hz. unfold cosint. apply is_RInt_unique.
  replace (sin (PI * z) / (2 * z)) with (minus ((fun t => sin (2 * z * t) / (2 * z)) (PI / 2)) ((fun t => sin (2 * z * t) / (2 * z)) 0)).
  - apply (is_RInt_derive (V := R_CompleteNormedModule) (fun t => sin (2 * z * t) / (2 * z))).
    + intros t _. auto_derive; auto. change (2 * 0)%nat with 0%nat. change (0 + (0 + 0))%nat with 0%nat. rewrite ?pow_O. field. auto.
    + intros t _. apply cosint_cont.
  - unfold minus, plus, opp. cbn. rewrite Rmult_0_r, sin_0. replace (2 * z * (PI / 2)) with (PI * z) by field. field. auto.
Qed.
Lemma cosint_zero_base : cosint 0 0 = PI / 2.
Proof.
  unfold cosint. rewrite (RInt_ext _ (fun _ => 1)). { rewrite RInt_const. unfold scal; cbn; unfold mult; cbn. lra. }
  intros x _. cbn. rewrite Rmult_0_r, Rmult_0_l, cos_0. ring.
Qed.
Lemma cosint_zero_pos m : 0 < cosint 0 m.
Proof.
  induction m as [|m IH]; [rewrite cosint_zero_base; pose proof PI_RGT_0; lra|].
  pose proof (cosint_step 0 m) as E. replace (S m) with (m + 1)%nat by lia. set (n := INR (2 * (m + 1))) in *.
  assert (2 <= n). { unfold n. rewrite mult_INR, plus_INR. pose proof (pos_INR m). cbn. lra. }
  apply Rmult_lt_reg_l with (n * n); [nra|]. rewrite Rmult_0_r. replace (n * n * cosint 0 (m + 1)) with (n * (n - 1) * cosint 0 m) by (rewrite E; ring). apply Rmult_lt_0_compat; [nra|auto].
Qed.
Lemma tcos_le_sin t : 0 <= t <= PI / 2 -> t * cos t <= sin t.
Proof.
  intros [A B]. destruct (Rle_lt_or_eq_dec 0 t A) as [P|<-]; [|rewrite sin_0; lra].
  destruct (MVT_gen (fun t => sin t - t * cos t) 0 t (fun t => t * sin t)) as (c & Hc & E).
  - intros x _. auto_derive; auto. ring.
  - intros x _. apply continuity_pt_filterlim. apply (ex_derive_continuous (fun t => sin t - t * cos t)). auto_derive. auto.
  - rewrite sin_0 in E. rewrite Rmin_left, Rmax_right in Hc by lra. assert (0 <= sin c) by (apply sin_ge_0; lra).
    assert (0 <= c * sin c * (t - 0)) by (repeat apply Rmult_le_pos; lra). lra.
Qed.
Lemma one_minus_cos x : 0 <= 1 - cos x <= x ^ 2 / 2.
Proof.
  replace x with (2 * (x / 2)) at 1 2 by field. rewrite cos_2a_sin. split; [pose proof (Rle_0_sqr (sin (x / 2))) as Q; unfold Rsqr in Q; lra|].
  assert (S : Rabs (sin (x / 2)) <= Rabs (x / 2)).
  { assert (G : forall y, 0 <= y -> Rabs (sin y) <= y).
    { intros y Hy. destruct (Rle_lt_or_eq_dec 0 y Hy) as [P|<-]; [|rewrite sin_0, Rabs_R0; lra]. pose proof (sin_lt_x y P). apply Rabs_le. split; [|lra].
      destruct (Rle_lt_dec y PI) as [L|L]; [pose proof (sin_ge_0 y Hy L); lra|]. pose proof (SIN_bound y). pose proof PI_RGT_0. pose proof PI2_3_2. lra. }
    destruct (Rle_lt_dec 0 (x / 2)) as [P|P]; [rewrite (Rabs_pos_eq (x / 2)) by auto; auto|]. rewrite <- (Rabs_Ropp (sin _)), <- sin_neg, (Rabs_left (x / 2)) by auto. apply G. lra. }
  assert (Q : sin (x / 2) * sin (x / 2) <= (x / 2) * (x / 2)).
  { rewrite <- (Rabs_pos_eq (sin _ * _)) by (apply Rle_0_sqr). rewrite <- (Rabs_pos_eq (x / 2 * _)) by (apply Rle_0_sqr). rewrite !Rabs_mult. apply Rmult_le_compat; auto using Rabs_pos. }
  nra.
Qed.
(** The integral concentrates at 0. *)
Lemma cosint_near z m : (1 - 2 * z ^ 2 / (INR (2 * (m + 1)) - 1)) * cosint 0 (m + 1) <= cosint z (m + 1) <= cosint 0 (m + 1).
Proof.
  set (n := INR (2 * (m + 1))). assert (Hn : 2 <= n). { unfold n. rewrite mult_INR, plus_INR. pose proof (pos_INR m). cbn. lra. } pose proof PI_RGT_0 as Pp.
  assert (K : cosint 0 m - cosint 0 (m + 1) = cosint 0 (m + 1) / (n - 1)).
  { pose proof (cosint_step 0 m) as E. fold n in E. assert (cosint 0 m = n / (n - 1) * cosint 0 (m + 1)).
    { apply Rmult_eq_reg_l with (n * (n - 1)); [|nra]. rewrite E. field. lra. } rewrite H. field. lra. }
  split.
  - assert (B : cosint 0 (m + 1) - cosint z (m + 1) <= 2 * z ^ 2 * (cosint 0 m - cosint 0 (m + 1))).
    { unfold cosint at 1 2. rewrite <- (RInt_minus (V := R_CompleteNormedModule)) by apply cosint_ex. unfold cosint. rewrite <- (RInt_minus (V := R_CompleteNormedModule)) by apply cosint_ex.
      rewrite <- (RInt_scal (V := R_CompleteNormedModule)).
      2:{ apply (ex_RInt_minus (V := R_CompleteNormedModule)); apply cosint_ex. }
      apply RInt_le; [lra| | |].
      - apply (ex_RInt_minus (V := R_CompleteNormedModule)); apply cosint_ex.
      - apply (ex_RInt_scal (V := R_CompleteNormedModule)). apply (ex_RInt_minus (V := R_CompleteNormedModule)); apply cosint_ex.
      - intros t Ht. unfold scal, minus, plus, opp; cbn -[pow Nat.mul]; unfold mult; cbn -[pow Nat.mul]. rewrite !Rmult_0_r, !Rmult_0_l, cos_0, !Rmult_1_l.
        replace (2 * (m + 1))%nat with (S (S (2 * m))) by lia. cbn [pow]. set (c := cos t). assert (C : 0 <= c) by (apply cos_ge_0; lra). pose proof (pow_le c (2 * m) C) as P.
        pose proof (one_minus_cos (2 * z * t)) as [O1 O2]. pose proof (tcos_le_sin t ltac:(lra)) as T. fold c in T.
        assert (Q : t * c * (t * c) <= sin t * sin t). { apply Rmult_le_compat; try apply Rmult_le_pos; lra. }
        assert (S2 : sin t * sin t = 1 - c * c) by (unfold c; pose proof (sin2_cos2 t) as W; unfold Rsqr in W; lra).
        assert ((1 - cos (2 * z * t)) * (c * (c * c ^ (2 * m))) <= 2 * z ^ 2 * (t * c * (t * c)) * c ^ (2 * m)).
        { assert ((1 - cos (2 * z * t)) * (c * (c * c ^ (2 * m))) <= (2 * z * t) ^ 2 / 2 * (c * (c * c ^ (2 * m)))) by (apply Rmult_le_compat_r; auto; repeat apply Rmult_le_pos; auto). nra. }
        assert (2 * z ^ 2 * (t * c * (t * c)) * c ^ (2 * m) <= 2 * z ^ 2 * (1 - c * c) * c ^ (2 * m)).
        { apply Rmult_le_compat_r; auto. apply Rmult_le_compat_l; [nra|lra]. }
        nra. }
    rewrite K in B. assert (2 * z ^ 2 * (cosint 0 (m + 1) / (n - 1)) = 2 * z ^ 2 / (n - 1) * cosint 0 (m + 1)) by (field; lra). lra.
  - unfold cosint. apply RInt_le; [lra|apply cosint_ex|apply cosint_ex|]. intros t Ht. rewrite Rmult_0_r, Rmult_0_l, cos_0.
    assert (C : 0 <= cos t) by (apply cos_ge_0; lra). apply Rmult_le_compat_r; [now apply pow_le|]. apply COS_bound.
Qed.
Fixpoint sineprod (z : R) (n : nat) : R := match n with O => 1 | S k => sineprod z k * (1 - z ^ 2 / INR n ^ 2) end.
Lemma sineprod_ratio z m : cosint z 0 * cosint 0 m = cosint 0 0 * (sineprod z m * cosint z m).
Proof.
  induction m as [|m IH]; [cbn [sineprod]; ring|]. cbn [sineprod]. pose proof (cosint_step z m) as E. pose proof (cosint_step 0 m) as E0.
  replace (m + 1)%nat with (S m) in * by lia. assert (M : INR (2 * S m) = 2 * INR (S m)) by (rewrite mult_INR; reflexivity). rewrite M in *. set (k := INR (S m)) in *.
  assert (K : 1 <= k) by (unfold k; rewrite S_INR; pose proof (pos_INR m); lra).
  assert (A : (1 - z ^ 2 / k ^ 2) * cosint z (S m) = (2 * k - 1) / (2 * k) * cosint z m).
  { apply Rmult_eq_reg_l with (4 * k ^ 2); [|nra]. transitivity (((2 * k) ^ 2 - 4 * z ^ 2) * cosint z (S m)); [field; lra|]. rewrite <- E. field. lra. }
  assert (A0 : cosint 0 (S m) = (2 * k - 1) / (2 * k) * cosint 0 m).
  { apply Rmult_eq_reg_l with ((2 * k) ^ 2); [|nra]. transitivity (((2 * k) ^ 2 - 4 * 0 ^ 2) * cosint 0 (S m)); [ring|]. rewrite <- E0. field. lra. }
  rewrite Rmult_assoc, A, A0. transitivity ((2 * k - 1) / (2 * k) * (cosint z 0 * cosint 0 m)); [ring|]. rewrite IH. ring.
Qed.
Theorem sine_product z : z <> 0 -> is_lim_seq (sineprod z) (sin (PI * z) / (PI * z)).
Proof.
  intros Hz. pose proof PI_RGT_0 as Pp.
  set (r := fun m => cosint z (m + 1) / cosint 0 (m + 1)).
  assert (R1 : is_lim_seq r 1).
  { apply (is_lim_seq_le_le (fun m => 1 - 2 * z ^ 2 / (INR (2 * (m + 1)) - 1)) r (fun _ => 1)).
    - intros m. unfold r. pose proof (cosint_near z m) as [A B]. pose proof (cosint_zero_pos (m + 1)) as P. split.
      + apply Rle_div_r; auto.
      + apply Rle_div_l; auto; lra.
    - replace 1 with (1 - 0) at 1 by ring. apply is_lim_seq_minus'; [apply is_lim_seq_const|].
      replace 0 with (2 * z ^ 2 * 0) by ring. apply (is_lim_seq_scal_l _ (2 * z ^ 2) 0).
      apply (is_lim_seq_le_le (fun _ => 0) _ (fun m => / INR (S m))).
      + intros m. rewrite mult_INR, plus_INR, (S_INR m). change (INR 2) with 2. change (INR 1) with 1. pose proof (pos_INR m). split; [left; apply Rinv_0_lt_compat; lra|]. apply Rinv_le_contravar; lra.
      + apply is_lim_seq_const.
      + apply (is_lim_seq_incr_1 (fun m => / INR m)). replace (Finite 0) with (Rbar_inv p_infty) by reflexivity. apply is_lim_seq_inv; [apply is_lim_seq_INR|discriminate].
    - apply is_lim_seq_const. }
  assert (E : forall m, sin (PI * z) / (PI * z) = sineprod z (m + 1) * r m).
  { intros m. pose proof (sineprod_ratio z (m + 1)) as E. rewrite cosint_base, cosint_zero_base in E by auto. unfold r. pose proof (cosint_zero_pos (m + 1)).
    apply Rmult_eq_reg_r with (PI / 2 * cosint 0 (m + 1)); [|nra]. transitivity (sin (PI * z) / (2 * z) * cosint 0 (m + 1)); [field; lra|]. rewrite E. field. lra. }
  apply is_lim_seq_incr_1.
  assert (L : is_lim_seq (fun m => sin (PI * z) / (PI * z) / r m) (sin (PI * z) / (PI * z) / 1)).
  { apply is_lim_seq_div'; [apply is_lim_seq_const|exact R1|lra]. }
  replace (sin (PI * z) / (PI * z)) with (sin (PI * z) / (PI * z) / 1) by (field; split; auto; lra).
  apply (is_lim_seq_ext_loc (fun m => sin (PI * z) / (PI * z) / r m)); auto.
  assert (EV : eventually (fun m => r m <> 0)).
  { assert (P : eventually (fun m => 1 / 2 < r m)). { apply (R1 (fun x => 1 / 2 < x)). exists (mkposreal (1 / 2) ltac:(lra)). intros y Hy. unfold ball in Hy; cbn in Hy; unfold AbsRing_ball, abs, minus, plus, opp in Hy; cbn in Hy. apply Rabs_def2 in Hy. lra. }
    destruct P as [N P]. exists N. intros m Hm. specialize (P m Hm). lra. }
  destruct EV as [N EV]. exists N. intros m Hm. rewrite (E m). replace (m + 1)%nat with (S m) by lia. field. auto.
Qed.

(** * The reflection formula *)
Lemma rising_pair z n : rising z n * rising (1 - z) n = z * (INR n + 1 - z) * INR (fact n) ^ 2 * sineprod z n.
Proof.
  induction n as [|n IH]; [cbn; ring|]. cbn [rising sineprod]. rewrite fact_simpl, mult_INR. assert (K : INR (S n) <> 0) by (apply not_0_INR; lia).
  transitivity (rising z n * rising (1 - z) n * ((z + INR (S n)) * (1 - z + INR (S n)))); [ring|]. rewrite IH, (S_INR n) in *. field. auto.
Qed.
Lemma rising_nz z n : (forall k, z <> - INR k) -> rising z n <> 0.
Proof. intros Hz. induction n as [|n IH]; cbn [rising]; [specialize (Hz 0%nat); cbn in Hz; lra|]. apply Rmult_integral_contrapositive. split; auto. specialize (Hz (S n)). lra. Qed.
Lemma sine_pole z : sin (PI * z) <> 0 -> forall k : nat, z <> - INR k /\ 1 - z <> - INR k.
Proof.
  intros H k. split; intros E; apply H.
  - rewrite E, INR_IZR_INZ, <- opp_IZR. apply sin_eq_0_1. eexists. apply Rmult_comm.
  - replace z with (INR k + 1) by lra. rewrite INR_IZR_INZ, <- plus_IZR. apply sin_eq_0_1. eexists. apply Rmult_comm.
Qed.
Theorem gamma_reflection z g h : sin (PI * z) <> 0 -> is_Gamma z g -> is_Gamma (1 - z) h -> g * h = PI / sin (PI * z).
Proof.
  intros Hs G H. pose proof PI_RGT_0 as Pp. assert (Hz : z <> 0) by (intros ->; rewrite Rmult_0_r, sin_0 in Hs; lra). pose proof (sine_pole z Hs) as Po.
  assert (L : is_lim_seq (fun n => INR (fact n) * Rpower (INR n) z / rising z n * (INR (fact n) * Rpower (INR n) (1 - z) / rising (1 - z) n)) (g * h)) by (now apply is_lim_seq_mult').
  assert (M : is_lim_seq (fun n => INR n / (INR n + 1 - z) * / (z * sineprod z n)) (1 * / (z * (sin (PI * z) / (PI * z))))).
  { apply is_lim_seq_mult'.
    - assert (N : is_lim_seq (fun n => 1 + (z - 1) * / (INR n + (1 - z))) (1 + (z - 1) * 0)).
      { apply is_lim_seq_plus'; [apply is_lim_seq_const|]. apply (is_lim_seq_scal_l _ (z - 1) 0). replace (Finite 0) with (Rbar_inv p_infty) by reflexivity. apply is_lim_seq_inv; [|discriminate].
        apply (is_lim_seq_plus _ _ p_infty (1 - z)); [apply is_lim_seq_INR|apply is_lim_seq_const|reflexivity]. }
      rewrite Rmult_0_r, Rplus_0_r in N. apply (is_lim_seq_ext (fun n => 1 + (z - 1) * / (INR n + (1 - z)))); auto. intros n. destruct (Po n) as [_ Q]. field. lra.
    - apply (is_lim_seq_inv (fun n => z * sineprod z n) (z * (sin (PI * z) / (PI * z)))).
      + apply (is_lim_seq_scal_l (sineprod z) z (sin (PI * z) / (PI * z))). now apply sine_product.
      + intros E. injection E as E. apply Hs. apply Rmult_eq_reg_r with (/ PI); [|apply Rinv_neq_0_compat; lra]. rewrite Rmult_0_l, <- E. field. lra. }
  replace (1 * / (z * (sin (PI * z) / (PI * z)))) with (PI / sin (PI * z)) in M by (field; repeat split; auto; lra).
  assert (E : Finite (g * h) = Finite (PI / sin (PI * z))); [|now injection E].
  rewrite <- (is_lim_seq_unique _ _ L), <- (is_lim_seq_unique _ _ M). apply Lim_seq_ext_loc. exists 1%nat. intros n Hn.
  assert (Pn : 0 < INR n) by (apply lt_0_INR; lia). assert (R1 : rising z n <> 0) by (apply rising_nz; intros k; apply Po). assert (R2 : rising (1 - z) n <> 0) by (apply rising_nz; intros k; apply Po).
  pose proof (rising_pair z n) as RP. assert (F : INR (fact n) <> 0) by apply INR_fact_neq_0. assert (Q : INR n + 1 - z <> 0) by (destruct (Po n); lra).
  assert (S : sineprod z n <> 0). { intros S. rewrite S, Rmult_0_r in RP. apply Rmult_integral in RP. tauto. }
  transitivity (INR (fact n) ^ 2 * (Rpower (INR n) z * Rpower (INR n) (1 - z)) / (rising z n * rising (1 - z) n)); [field; auto|].
  rewrite RP, <- Rpower_plus. replace (z + (1 - z)) with 1 by ring. rewrite Rpower_1 by auto. field. auto.
Qed.
(** The Gamma function has a value below 1/2 as well, except at the poles. *)
Theorem gamma_reflected z h : sin (PI * z) <> 0 -> h <> 0 -> is_Gamma (1 - z) h -> is_Gamma z (PI / (sin (PI * z) * h)).
Proof.
  intros Hs Hh H. pose proof PI_RGT_0 as Pp. assert (Hz : z <> 0) by (intros ->; rewrite Rmult_0_r, sin_0 in Hs; lra). pose proof (sine_pole z Hs) as Po.
  assert (M : is_lim_seq (fun n => INR n / (INR n + 1 - z) * / (z * sineprod z n)) (1 * / (z * (sin (PI * z) / (PI * z))))).
  { apply is_lim_seq_mult'.
    - assert (N : is_lim_seq (fun n => 1 + (z - 1) * / (INR n + (1 - z))) (1 + (z - 1) * 0)).
      { apply is_lim_seq_plus'; [apply is_lim_seq_const|]. apply (is_lim_seq_scal_l _ (z - 1) 0). replace (Finite 0) with (Rbar_inv p_infty) by reflexivity. apply is_lim_seq_inv; [|discriminate].
        apply (is_lim_seq_plus _ _ p_infty (1 - z)); [apply is_lim_seq_INR|apply is_lim_seq_const|reflexivity]. }
      rewrite Rmult_0_r, Rplus_0_r in N. apply (is_lim_seq_ext (fun n => 1 + (z - 1) * / (INR n + (1 - z)))); auto. intros n. destruct (Po n) as [_ Q]. field. lra.
    - apply (is_lim_seq_inv (fun n => z * sineprod z n) (z * (sin (PI * z) / (PI * z)))).
      + apply (is_lim_seq_scal_l (sineprod z) z (sin (PI * z) / (PI * z))). now apply sine_product.
      + intros E. injection E as E. apply Hs. apply Rmult_eq_reg_r with (/ PI); [|apply Rinv_neq_0_compat; lra]. rewrite Rmult_0_l, <- E. field. lra. }
  unfold is_Gamma in *. pose proof (is_lim_seq_div' _ _ _ _ M H Hh) as L.
  replace (1 * / (z * (sin (PI * z) / (PI * z))) / h) with (PI / (sin (PI * z) * h)) in L by (field; repeat split; auto; lra).
  eapply is_lim_seq_ext_loc; [|exact L]. exists 1%nat. intros n Hn.
  assert (Pn : 0 < INR n) by (apply lt_0_INR; lia). assert (R1 : rising z n <> 0) by (apply rising_nz; intros k; apply Po). assert (R2 : rising (1 - z) n <> 0) by (apply rising_nz; intros k; apply Po).
  pose proof (rising_pair z n) as RP. assert (F : INR (fact n) <> 0) by apply INR_fact_neq_0. assert (Q : INR n + 1 - z <> 0) by (destruct (Po n); lra).
  assert (S : sineprod z n <> 0). { intros S. rewrite S, Rmult_0_r in RP. apply Rmult_integral in RP. tauto. }
  assert (PP : 0 < Rpower (INR n) z) by apply exp_pos. assert (P1 : 0 < Rpower (INR n) (1 - z)) by apply exp_pos.
  assert (PE : Rpower (INR n) z * Rpower (INR n) (1 - z) = INR n) by (rewrite <- Rpower_plus; replace (z + (1 - z)) with 1 by ring; now apply Rpower_1).
  rewrite <- PE at 1. apply Rmult_eq_reg_l with (rising z n * rising (1 - z) n); [|apply Rmult_integral_contrapositive; auto]. rewrite RP at 1. field. repeat split; auto; lra.
Qed.
