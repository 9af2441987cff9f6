(** The integral of exp (-t^2 / 2), and the tail of the normal distribution (C61). *)
From Coq Require Import ZArith Reals List Lra Lia Psatz.
From Coquelicot Require Import Coquelicot.
From Verif Require Import ProbSpec ProbProofs6 ProbProofs7.
Open Scope R_scope.

Definition bell (t : R) : R := exp (- t ^ 2 / 2).
Lemma bell_pos t : 0 < bell t.
Proof. apply exp_pos. Qed.
Lemma bell_derive (t : R) : is_derive bell t (- t * bell t).
Proof. unfold bell. auto_derive; auto. unfold Rdiv. simpl. field. Qed.
Lemma bell_continuous t : continuous bell t.
Proof. apply (ex_derive_continuous bell). eexists. apply bell_derive. Qed.
Lemma bell_int x y : ex_RInt bell x y.
Proof. apply (ex_RInt_continuous (V := R_CompleteNormedModule)). intros z _. apply bell_continuous. Qed.

Definition half_bell (x : R) : R := RInt bell 0 x.
Definition kern (x t : R) : R := exp (- x ^ 2 * (1 + t ^ 2) / 2) / (1 + t ^ 2).
Definition rest (x : R) : R := RInt (kern x) 0 1.

Lemma sq1 t : 0 < 1 + t ^ 2.
Proof. pose proof (pow2_ge_0 t). lra. Qed.
Lemma kern_derive (x t : R) : is_derive (fun u => kern u t) x (- x * exp (- x ^ 2 * (1 + t ^ 2) / 2)).
Proof. unfold kern. pose proof (sq1 t). auto_derive; [nra|]. unfold Rdiv. simpl. simpl in H. field. nra. Qed.
Lemma kern_int x a b : ex_RInt (kern x) a b.
Proof.
  apply (ex_RInt_continuous (V := R_CompleteNormedModule)). intros z _. apply (ex_derive_continuous (kern x)). unfold kern. pose proof (sq1 z). auto_derive. simpl in *. lra.
Qed.
Lemma rest_derive (x : R) : is_derive rest x (- (bell x * half_bell x)).
Proof.
  unfold rest. evar_last.
  - apply is_derive_RInt_param.
    + exists (mkposreal 1 Rlt_0_1). intros y _ t _. eexists. apply kern_derive.
    + intros t _. apply continuity_2d_pt_ext with (f := fun u v => - u * exp (- u ^ 2 * (1 + v ^ 2) / 2)).
      { intros u v. symmetry. apply is_derive_unique, kern_derive. }
      apply continuity_2d_pt_mult.
      * apply continuity_2d_pt_opp, continuity_2d_pt_id1.
      * apply (continuity_1d_2d_pt_comp exp (fun u v => - u ^ 2 * (1 + v ^ 2) / 2)).
        { apply derivable_continuous_pt, derivable_pt_exp. }
        apply continuity_2d_pt_ext with (f := fun u v => (- (u * u)) * (1 + v * v) * / 2). { intros u v. unfold Rdiv. simpl. ring. }
        repeat first [apply continuity_2d_pt_mult|apply continuity_2d_pt_plus|apply continuity_2d_pt_opp|apply continuity_2d_pt_id1|apply continuity_2d_pt_id2|apply continuity_2d_pt_const].
    + exists (mkposreal 1 Rlt_0_1). intros y _. apply kern_int.
  - transitivity (RInt (fun t => - bell x * (x * bell (x * t + 0))) 0 1).
    + apply RInt_ext. intros t _. transitivity (- x * exp (- x ^ 2 * (1 + t ^ 2) / 2)); [apply is_derive_unique, kern_derive|]. unfold bell.
      assert (E : forall a b : R, - a ^ 2 * (1 + b ^ 2) / 2 = - a ^ 2 / 2 + - (a * b + 0) ^ 2 / 2) by (intros; simpl; field). rewrite E, exp_plus. match goal with |- @eq _ ?a ?b => change (@eq R a b) end. ring.
    + assert (S : is_RInt (fun t => scal x (bell (x * t + 0))) 0 1 (half_bell x)).
      { apply (is_RInt_comp_lin bell x 0 0 1). replace (x * 0 + 0) with 0 by ring. replace (x * 1 + 0) with x by ring. apply (RInt_correct (V := R_CompleteNormedModule)), bell_int. }
      apply is_RInt_unique. apply (is_RInt_scal _ _ _ (- bell x)) in S. revert S. match goal with |- is_RInt _ _ _ ?p -> is_RInt _ _ _ ?q => replace p with q; [auto|] end. unfold scal; cbn; unfold mult; cbn. ring.
Qed.
Lemma half_bell_derive (x : R) : is_derive half_bell x (bell x).
Proof.
  apply (is_derive_RInt bell half_bell 0 x).
  - exists (mkposreal 1 Rlt_0_1). intros y _. apply (RInt_correct (V := R_CompleteNormedModule)), bell_int.
  - apply bell_continuous.
Qed.
Lemma rest_0 : rest 0 = PI / 4.
Proof.
  unfold rest. apply is_RInt_unique. rewrite <- atan_1. replace (atan 1) with (minus (atan 1) (atan 0)) by (rewrite atan_0; unfold minus, plus, opp; cbn; ring).
  apply (is_RInt_ext (fun t => / (1 + t²))).
  { intros t _. unfold kern. replace (- 0 ^ 2 * (1 + t ^ 2) / 2) with 0 by (simpl; field). rewrite exp_0. unfold Rsqr, Rdiv. simpl. rewrite Rmult_1_r, Rmult_1_l. reflexivity. }
  apply (is_RInt_derive atan (fun t => / (1 + t²))).
  - intros t _. apply is_derive_Reals. evar_last; [apply derivable_pt_lim_atan|unfold Rsqr; simpl; rewrite Rmult_1_r; reflexivity].
  - intros t _. apply (ex_derive_continuous (fun t => / (1 + t²))). unfold Rsqr. pose proof (sq1 t). auto_derive. simpl in *. nra.
Qed.
Lemma bell_circle x : half_bell x ^ 2 / 2 + rest x = PI / 4.
Proof.
  rewrite <- rest_0. assert (E : forall y : R, is_derive (fun y => half_bell y ^ 2 / 2 + rest y) y 0).
  { intros y. auto_derive; [repeat split; auto; eexists; [apply half_bell_derive|apply rest_derive]|].
    rewrite (is_derive_unique (fun x : R => half_bell x) y _ (half_bell_derive y)), (is_derive_unique (fun x : R => rest x) y _ (rest_derive y)). simpl. field. }
  set (g := fun y => half_bell y ^ 2 / 2 + rest y) in *. assert (Z : g 0 = rest 0). { unfold g, half_bell. rewrite RInt_point. change zero with 0. simpl. field. }
  change (g x = rest 0). rewrite <- Z. destruct (MVT_gen g 0 x (fun _ => 0)) as (c & _ & M); [intros y _; apply E|intros y _; apply continuity_pt_filterlim, (ex_derive_continuous g); eexists; apply E|]. lra.
Qed.
Lemma rest_bounds x : 0 < rest x <= PI / 4 * bell x.
Proof.
  assert (I : forall t, 0 < t < 1 -> 0 < kern x t) by (intros t _; unfold kern; apply Rdiv_lt_0_compat; [apply exp_pos|apply sq1]).
  split.
  - apply RInt_gt_0; auto; [lra|]. intros t _. apply (ex_derive_continuous (kern x)). unfold kern. pose proof (sq1 t). auto_derive. simpl in *. lra.
  - rewrite <- rest_0. unfold rest. rewrite Rmult_comm. assert (A : is_RInt (fun t => scal (bell x) (kern 0 t)) 0 1 (scal (bell x) (RInt (kern 0) 0 1))) by (apply (is_RInt_scal (kern 0)), (RInt_correct (V := R_CompleteNormedModule)), kern_int).
    change (bell x * RInt (kern 0) 0 1) with (scal (bell x) (RInt (kern 0) 0 1)). rewrite <- (is_RInt_unique _ _ _ _ A). apply RInt_le; [lra|apply kern_int|eexists; exact A|]. intros t _. unfold scal; cbn; unfold mult; cbn. unfold kern, bell. pose proof (sq1 t).
    replace (- 0 ^ 2 * (1 + t ^ 2) / 2) with 0 by (simpl; field). rewrite exp_0. unfold Rdiv. rewrite Rmult_1_l. apply Rmult_le_compat_r; [left; now apply Rinv_0_lt_compat|]. apply exp_mono. pose proof (pow2_ge_0 x). pose proof (pow2_ge_0 t). nra.
Qed.
Lemma half_bell_nonneg x : 0 <= x -> 0 <= half_bell x.
Proof. intros Hx. apply RInt_ge_0; auto; [apply bell_int|]. intros t _. left. apply bell_pos. Qed.

(** * The tail of the standard normal distribution *)
Definition dens (x : R) : R := bell x / sqrt (2 * PI).
Lemma root_pos : 0 < sqrt (2 * PI).
Proof. apply sqrt_lt_R0. pose proof PI_RGT_0. lra. Qed.
Lemma dens_pos x : 0 < dens x.
Proof. apply Rdiv_lt_0_compat; [apply bell_pos|apply root_pos]. Qed.
Definition ntail (x : R) : R := 1 / 2 - half_bell x / sqrt (2 * PI).
Lemma ntail_derive (x : R) : is_derive ntail x (- dens x).
Proof.
  unfold ntail. auto_derive; [eexists; apply half_bell_derive|]. rewrite (is_derive_unique (fun x : R => half_bell x) x _ (half_bell_derive x)). unfold dens, Rdiv. ring.
Qed.
Lemma dens_derive (x : R) : is_derive dens x (- x * dens x).
Proof. unfold dens. auto_derive; [eexists; apply bell_derive|]. rewrite (is_derive_unique (fun x : R => bell x) x _ (bell_derive x)). unfold Rdiv. ring. Qed.
Lemma ntail_bounds x : 0 <= x -> 0 < ntail x <= bell x / 2.
Proof.
  intros Hx. pose proof (bell_circle x) as C. pose proof (rest_bounds x) as (R0 & R1). pose proof (half_bell_nonneg x Hx) as H. pose proof root_pos as S. pose proof PI_RGT_0 as P. assert (SS : sqrt (2 * PI) * sqrt (2 * PI) = 2 * PI) by (apply sqrt_sqrt; lra).
  unfold ntail. set (e := half_bell x / sqrt (2 * PI)). assert (E : half_bell x = e * sqrt (2 * PI)) by (unfold e; field; lra). assert (E0 : 0 <= e) by (unfold e; apply Rmult_le_pos; auto; left; now apply Rinv_0_lt_compat).
  assert (Q : e ^ 2 * PI + rest x = PI / 4). { rewrite <- C, E. replace ((e * sqrt (2 * PI)) ^ 2) with (e ^ 2 * (sqrt (2 * PI) * sqrt (2 * PI))) by (simpl; ring). rewrite SS. field. }
  assert (F : (1 / 2 - e) * (1 / 2 + e) * PI = rest x) by (simpl in Q; lra). assert (D : 0 < 1 / 2 - e) by (apply Rnot_le_lt; intros L; assert ((1 / 2 - e) * (1 / 2 + e) <= 0) by nra; nra). split; auto.
  assert ((1 / 2 - e) * (1 / 2) <= (1 / 2 - e) * (1 / 2 + e)) by nra. assert ((1 / 2 - e) * (1 / 2) * PI <= PI / 4 * bell x) by nra. nra.
Qed.
Lemma normal_standard tail x : normal_tail 0 1 tail -> tail x = ntail x.
Proof.
  intros (T0 & T). specialize (T 0 x). rewrite T0 in T. unfold ntail. assert (I : is_RInt (fun t => scal (/ sqrt (2 * PI)) (bell t)) 0 x (scal (/ sqrt (2 * PI)) (half_bell x))) by (apply (is_RInt_scal bell), (RInt_correct (V := R_CompleteNormedModule)), bell_int).
  assert (J : is_RInt (normal_density 0 1) 0 x (scal (/ sqrt (2 * PI)) (half_bell x))).
  { revert I. apply is_RInt_ext. intros t _. unfold normal_density, bell, scal; cbn; unfold mult; cbn. rewrite Rabs_R1, Rmult_1_l. replace ((t - 0) / 1) with t by field. unfold Rdiv. apply Rmult_comm. }
  apply (is_RInt_unique (V := R_CompleteNormedModule)) in T. apply (is_RInt_unique (V := R_CompleteNormedModule)) in J. rewrite J in T. change (/ sqrt (2 * PI) * half_bell x = 1 / 2 - tail x) in T. replace (half_bell x / sqrt (2 * PI)) with (/ sqrt (2 * PI) * half_bell x) by apply Rmult_comm. rewrite T. ring.
Qed.
Lemma normal_shift mean stddev tail : 0 < stddev -> normal_tail mean stddev tail -> forall x, tail (mean + stddev * x) = ntail x.
Proof.
  intros Hs (T0 & T) x. assert (N : normal_tail 0 1 (fun y => tail (mean + stddev * y))).
  { split; [replace (mean + stddev * 0) with mean by ring; exact T0|]. intros a b. specialize (T (stddev * a + mean) (stddev * b + mean)). rewrite !(Rplus_comm mean).
    apply (is_RInt_comp_lin (normal_density mean stddev)) in T. revert T. apply is_RInt_ext. intros t _. unfold normal_density, scal; cbn; unfold mult; cbn. rewrite Rabs_R1, Rmult_1_l, Rabs_pos_eq by lra. replace ((stddev * t + mean - mean) / stddev) with ((t - 0) / 1) by (field; lra). pose proof root_pos. field. split; lra. }
  now rewrite <- (normal_standard _ x N).
Qed.
Lemma normal_at mean stddev x : 0 < stddev -> normal_density mean stddev x = dens ((x - mean) / stddev) / stddev.
Proof. intros Hs. unfold normal_density, dens, bell. rewrite Rabs_pos_eq by lra. pose proof root_pos. field. split; lra. Qed.
Lemma ntail_mirror x : ntail (- x) = 1 - ntail x.
Proof.
  assert (E : half_bell (- x) = - half_bell x); [|unfold ntail; rewrite E; pose proof root_pos; field; lra]. unfold half_bell.
  assert (I : is_RInt (fun t => scal (- 1) (bell (- 1 * t + 0))) 0 x (RInt bell 0 (- x))). { apply (is_RInt_comp_lin bell (- 1) 0 0 x). replace (- 1 * 0 + 0) with 0 by ring. replace (- 1 * x + 0) with (- x) by ring. apply (RInt_correct (V := R_CompleteNormedModule)), bell_int. }
  apply (is_RInt_unique (V := R_CompleteNormedModule)) in I. rewrite <- I. transitivity (RInt (fun t => scal (- 1) (bell t)) 0 x); [apply RInt_ext; intros t _; unfold bell; f_equal; f_equal; simpl; field|]. assert (S : is_RInt (fun t => scal (- 1) (bell t)) 0 x (scal (- 1) (RInt bell 0 x))) by (apply (is_RInt_scal bell), (RInt_correct (V := R_CompleteNormedModule)), bell_int). apply (is_RInt_unique (V := R_CompleteNormedModule)) in S. rewrite S. change (- 1 * RInt bell 0 x = - RInt bell 0 x). ring.
Qed.
Lemma dens_mirror x : dens (- x) = dens x.
Proof. unfold dens, bell. do 2 f_equal. simpl. field. Qed.
