(** The continued fraction for the tail of the normal distribution (C61). *)
From Coq Require Import ZArith Reals List Lra Lia Psatz.
From Coquelicot Require Import Coquelicot.
From Verif Require Import ProbSpec ProbProofs6 ProbProofs7 GaussInt.
Open Scope R_scope.

(** the integral of (t - x)^k times the density over t > x *)
Fixpoint mom (k : nat) (x : R) : R :=
  match k with
  | O => ntail x
  | S j => match j with O => dens x - x * ntail x | S i => INR j * mom i x - x * mom j x end
  end.
Lemma mom_SS k x : mom (S (S k)) x = INR (S k) * mom k x - x * mom (S k) x.
Proof. reflexivity. Qed.
Lemma derive_comb (f g : R -> R) (a x df dg : R) : is_derive f x df -> is_derive g x dg -> is_derive (fun x => a * f x - x * g x) x (a * df - g x - x * dg).
Proof.
  intros F G. auto_derive; [repeat split; eexists; [exact F|exact G]|]. rewrite (is_derive_unique (fun x : R => f x) x _ F), (is_derive_unique (fun x : R => g x) x _ G). ring.
Qed.
Lemma mom_derive_both k : (forall x : R, is_derive (mom (S k)) x (- INR (S k) * mom k x)) /\ (forall x : R, is_derive (mom (S (S k))) x (- INR (S (S k)) * mom (S k) x)).
Proof.
  assert (D0 : forall x : R, is_derive (mom 1) x (- INR 1 * mom 0 x)).
  { intros x. apply (is_derive_ext (fun x => 1 * dens x - x * ntail x)); [intros t; cbn [mom]; now rewrite Rmult_1_l|]. evar_last; [apply derive_comb; [apply dens_derive|apply ntail_derive]|]. cbn [INR mom]. ring. }
  induction k as [|k (IH1 & IH2)].
  - split; auto. intros x. apply (is_derive_ext (fun x => INR 1 * ntail x - x * mom 1 x)); [intros; reflexivity|]. evar_last; [apply derive_comb; [apply ntail_derive|apply D0]|]. cbn [mom INR]. ring.
  - split; auto. intros x. apply (is_derive_ext (fun x => INR (S (S k)) * mom (S k) x - x * mom (S (S k)) x)); [intros; reflexivity|]. evar_last; [apply derive_comb; [apply IH1|apply IH2]|].
    rewrite (mom_SS k x), !(S_INR (S (S k))), (S_INR (S k)). ring.
Qed.
Lemma mom_derive k (x : R) : is_derive (mom (S k)) x (- INR (S k) * mom k x).
Proof. apply (proj1 (mom_derive_both k)). Qed.

(** they vanish at infinity *)
Lemma mom_bound_both k : exists c, 0 <= c /\ forall x, 0 <= x -> Rabs (mom k x) <= c * (1 + x) ^ k * bell x /\ Rabs (mom (S k) x) <= c * (1 + x) ^ S k * bell x.
Proof.
  assert (Z : / sqrt (2 * PI) <= 1). { rewrite <- Rinv_1. apply Rinv_le_contravar; [lra|]. rewrite <- sqrt_1. apply sqrt_le_1; pose proof PI_RGT_0; pose proof PI2_3_2; lra. }
  induction k as [|k (c & C & IH)].
  - exists 2. split; [lra|]. intros x Hx. pose proof (ntail_bounds x Hx) as (N0 & N1). pose proof (bell_pos x). assert (D : 0 < dens x <= bell x). { split; [apply dens_pos|]. unfold dens, Rdiv. nra. }
    cbn [mom pow]. split; [rewrite Rabs_pos_eq; lra|]. apply Rabs_le. nra.
  - set (n := INR (S k)). assert (N : 0 <= n) by apply pos_INR. exists (c + c * n + c). split; [nra|]. intros x Hx. destruct (IH x Hx) as (A & B). pose proof (bell_pos x) as P. assert (P1 : 0 < (1 + x) ^ k) by (apply pow_lt; lra). assert (P2 : 0 <= c * (1 + x) ^ k * bell x) by (apply Rmult_le_pos; [apply Rmult_le_pos|]; lra).
    split.
    + eapply Rle_trans; [exact B|]. apply Rmult_le_compat_r; [lra|]. apply Rmult_le_compat_r; [apply pow_le; lra|nra].
    + rewrite mom_SS. fold n. eapply Rle_trans; [apply Rabs_triang|]. rewrite Rabs_Ropp, !Rabs_mult, (Rabs_pos_eq n), (Rabs_pos_eq x) by lra. cbn [pow] in B |- *. set (W := c * (1 + x) ^ k * bell x) in *.
      replace (c * ((1 + x) * (1 + x) ^ k) * bell x) with ((1 + x) * W) in B by (unfold W; ring). replace ((c + c * n + c) * ((1 + x) * ((1 + x) * (1 + x) ^ k)) * bell x) with ((1 + n + 1) * ((1 + x) * (1 + x)) * W) by (unfold W; ring).
      assert (n * Rabs (mom k x) <= n * W) by (apply Rmult_le_compat_l; lra). assert (x * Rabs (mom (S k) x) <= x * ((1 + x) * W)) by (apply Rmult_le_compat_l; lra). assert (n * W <= n * ((1 + x) * (1 + x) * W)). { apply Rmult_le_compat_l; [lra|]. assert (0 <= (x * x + 2 * x) * W) by (apply Rmult_le_pos; nra). lra. }
      assert (x * ((1 + x) * W) <= (1 + x) * (1 + x) * W). { assert (0 <= (1 + x) * W) by (apply Rmult_le_pos; lra). nra. } assert (0 <= (1 + x) * (1 + x) * W) by (apply Rmult_le_pos; nra). lra.
Qed.
Lemma pow_exp k x : 0 <= x -> x ^ k <= INR (fact k) * exp x.
Proof.
  intros Hx. assert (F := INR_fact_lt_0 k). assert (Q : x ^ k / INR (fact k) <= exp x); [|apply Rmult_le_reg_r with (/ INR (fact k)); [now apply Rinv_0_lt_compat|]; replace (INR (fact k) * exp x * / INR (fact k)) with (exp x) by (field; lra); exact Q].
  assert (S := is_exp_Reals x). unfold is_pseries in S. pose proof (is_series_ext (fun n => scal (pow_n x n) (/ INR (fact n))) (fun n => x ^ n / INR (fact n)) (exp x)) as E.
  assert (S' : is_series (fun n => x ^ n / INR (fact n)) (exp x)) by (apply E; auto; intros n; rewrite pow_n_pow; reflexivity). clear S E.
  assert (L : x ^ k / INR (fact k) <= sum_n (fun n => x ^ n / INR (fact n)) k).
  { assert (T : forall n, 0 <= sum_n (fun n => x ^ n / INR (fact n)) n). { induction n as [|n IH]; [rewrite sum_O; cbn; lra|]. rewrite sum_Sn. change (@plus R_AbelianGroup) with Rplus. assert (0 <= x ^ S n / INR (fact (S n))) by (apply Rmult_le_pos; [now apply pow_le|left; apply Rinv_0_lt_compat, INR_fact_lt_0]). lra. }
    destruct k as [|k]; [rewrite sum_O; lra|]. rewrite sum_Sn. change (@plus R_AbelianGroup) with Rplus. specialize (T k). lra. }
  eapply Rle_trans; [exact L|]. apply (is_lim_seq_le_loc (fun _ => sum_n (fun n => x ^ n / INR (fact n)) k) (sum_n (fun n => x ^ n / INR (fact n))) (sum_n (fun n => x ^ n / INR (fact n)) k) (exp x)); [|apply is_lim_seq_const|exact S'].
  exists k. intros n Hn. induction Hn as [|n Hn IH]; [lra|]. rewrite sum_Sn. change (@plus R_AbelianGroup) with Rplus. assert (0 <= x ^ S n / INR (fact (S n))) by (apply Rmult_le_pos; [now apply pow_le|left; apply Rinv_0_lt_compat, INR_fact_lt_0]). lra.
Qed.
Lemma mom_vanish k d y0 : 0 < d -> exists y, y0 <= y /\ 0 <= y /\ Rabs (mom k y) < d.
Proof.
  intros Hd. destruct (mom_bound_both k) as (c & C & B). set (K := c * 2 ^ k * INR (fact (S k))). assert (PK : 0 <= K) by (unfold K; apply Rmult_le_pos; [apply Rmult_le_pos; auto; apply pow_le; lra|left; apply INR_fact_lt_0]).
  set (y := Rmax (Rmax y0 2) (K / d + 1)). exists y. pose proof (Rmax_l (Rmax y0 2) (K / d + 1)) as M1. pose proof (Rmax_r (Rmax y0 2) (K / d + 1)) as M2. pose proof (Rmax_l y0 2) as M3. pose proof (Rmax_r y0 2) as M4. fold y in M1, M2. split; [lra|]. split; [lra|].
  destruct (B y ltac:(lra)) as (B0 & _). eapply Rle_lt_trans; [exact B0|]. assert (P : bell y <= / exp y). { unfold bell. rewrite <- exp_Ropp. apply exp_mono. simpl. nra. }
  assert (E := pow_exp (S k) y ltac:(lra)). assert (PE := exp_pos y). assert (Q : (1 + y) ^ k <= 2 ^ k * y ^ k). { rewrite <- Rpow_mult_distr. apply pow_incr. lra. }
  assert (Y : 0 < y) by lra. assert (Yk : 0 < y ^ k) by (apply pow_lt; lra).
  assert (L : c * (1 + y) ^ k * bell y <= K / y).
  { apply Rle_trans with (c * (2 ^ k * y ^ k) * / exp y).
    - apply Rmult_le_compat; [apply Rmult_le_pos; auto; apply pow_le; lra|left; apply bell_pos|apply Rmult_le_compat_l; auto|exact P].
    - apply Rmult_le_reg_r with (y * exp y); [nra|]. replace (c * (2 ^ k * y ^ k) * / exp y * (y * exp y)) with (c * 2 ^ k * y ^ S k) by (simpl; field; lra). replace (K / y * (y * exp y)) with (K * exp y) by (field; lra). unfold K. rewrite Rmult_assoc. rewrite (Rmult_assoc (c * 2 ^ k)). rewrite <- Rmult_assoc. apply Rmult_le_compat_l; [apply Rmult_le_pos; auto; apply pow_le; lra|exact E]. }
  eapply Rle_lt_trans; [exact L|]. apply Rmult_lt_reg_r with y; auto. unfold Rdiv. rewrite Rmult_assoc, Rinv_l, Rmult_1_r by lra. assert (K / d * d = K) by (field; lra). nra.
Qed.
Lemma mom_pos k : forall x, 0 <= x -> 0 < mom k x.
Proof.
  induction k as [|k IH]; intros x Hx; [apply ntail_bounds; auto|].
  assert (Dec : forall a b, 0 <= a -> a < b -> mom (S k) b < mom (S k) a).
  { intros a b Ha Hab. destruct (MVT_gen (mom (S k)) a b (fun t => - INR (S k) * mom k t)) as (t & Ht & E).
    - intros t _. apply mom_derive.
    - intros t _. apply continuity_pt_filterlim, (ex_derive_continuous (mom (S k))). eexists. apply mom_derive.
    - rewrite Rmin_left, Rmax_right in Ht by lra. pose proof (IH t ltac:(lra)). assert (0 < INR (S k)) by (apply lt_0_INR; lia). assert (0 < INR (S k) * mom k t * (b - a)) by (apply Rmult_lt_0_compat; [nra|lra]). lra. }
  apply Rnot_le_lt. intros L. pose proof (Dec x (x + 1) Hx ltac:(lra)) as D. set (d := - mom (S k) (x + 1)). assert (Pd : 0 < d) by (unfold d; lra).
  destruct (mom_vanish (S k) d (x + 2) Pd) as (y & Y1 & Y2 & Y3). pose proof (Dec (x + 1) y ltac:(lra) ltac:(lra)) as D2. apply Rabs_def2 in Y3. unfold d in Y3. lra.
Qed.
