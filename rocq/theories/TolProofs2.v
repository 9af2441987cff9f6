(** rotation(from, to) with a positive tolerance and no condition on Dot and Cross. *)
From Coq Require Import Reals Lra Lia List Bool Psatz ZArith NArith.
From Flocq Require Import Core.Zaux Core.Raux.
From Verif Require Import Base Scalar ConstModel VecModel RotModel QuatModel RSpec RLib VecSpec VecProofs VecProofs2 VecProofs4 RotSpec QuatSpec QuatProofs QuatProofs2 QuatProofs3 QuatProofs6 MotionSpec DriftProofs AngleProofs TolProofs.
Import ListNotations.
Open Scope R_scope.

Section F.
Context (eps : Epsilon).
Variables from to : vector R.
Hypothesis Df : dims 3 from.
Hypothesis Dt : dims 3 to.
Hypothesis He : 0 < (eps : R).
Let f := norm 3 (co from).
Let t := norm 3 (co to).
Let p := f * t.
Let c := inner 3 (co from) (co to) / p.
Let dl := 2 * eps / Rmax f t.
Hypothesis Hp : eps <= p.

Lemma ft_pos : 0 < f /\ 0 < t /\ 0 < p.
Proof. assert (0 <= f) by apply norm_nonneg. assert (0 <= t) by apply norm_nonneg. assert (0 < p) by lra. unfold p in *. repeat split; nra. Qed.
Lemma ft_min : 2 * eps * Rmin f t = dl * p.
Proof. destruct ft_pos as (F & T & P). unfold dl, p, Rmin, Rmax. destruct (Rle_dec f t); field; lra. Qed.
Lemma ft_delta : 0 < dl.
Proof. destruct ft_pos as (F & T & P). unfold dl. apply Rdiv_lt_0_compat; [lra|]. eapply Rlt_le_trans; [exact F|apply Rmax_l]. Qed.
Lemma ft_dot : dot 3 from to = inner 3 (co from) (co to) \/ (dot 3 from to = 0 /\ Rabs c <= dl).
Proof.
  destruct ft_pos as (F & T & P). pose proof (dot_error eps 3 from to f t ltac:(lia) ltac:(lra) Df Dt (fun i Hi => coord_norm 3 (co from) i Hi) (fun i Hi => coord_norm 3 (co to) i Hi)) as E.
  rewrite ft_min in E. destruct (dot_exact_or_zero eps 3 from to) as [D|D]; [left; exact D|right]. split; [exact D|]. rewrite D, Rminus_0_l, Rabs_Ropp in E.
  unfold c, Rdiv. rewrite Rabs_mult, Rabs_inv, (Rabs_pos_eq p) by lra. apply Rmult_le_reg_r with p; [exact P|]. rewrite Rmult_assoc, Rinv_l by lra. lra.
Qed.
Lemma ft_cross i : (i < 3)%nat -> Rabs (co (cross3 from to) i - cross_coord (co from) (co to) i) <= dl * p /\ Rabs (cross_coord (co from) (co to) i) <= p.
Proof.
  intros Hi. destruct ft_pos as (F & T & P). split.
  - rewrite <- ft_min. apply (cross3_error eps); auto; try lra; intros k Hk; apply (coord_norm 3); auto.
  - eapply Rle_trans; [apply (coord_norm 3 (cross_coord (co from) (co to))); auto|]. unfold norm. rewrite cross_norm. pose proof (sqrt_mul_norm (co from) (co to)) as E. fold f t p in E. rewrite <- E. apply sqrt_le_1_alt. assert (0 <= inner 3 (co from) (co to) * inner 3 (co from) (co to)) by nra. lra.
Qed.
(** the rotation that is meant *)
Definition halfway : quat R := let w := sqrt ((c + 1) / 2) in mkQ w (mkC (tab 3 (fun i => cross_coord (co from) (co to) i / (2 * p * w))) (valid from && valid to)) (valid from && valid to) 1.
Lemma halfway_good : 0 < c + 1 -> halfway_ok from to halfway.
Proof.
  intros K. destruct ft_pos as (F & T & P). assert (W : sqrt ((c + 1) / 2) * sqrt ((c + 1) / 2) = (c + 1) / 2) by (apply sqrt_sqrt; lra). assert (Wp : 0 < sqrt ((c + 1) / 2)) by (apply sqrt_lt_R0; lra).
  unfold halfway_ok, halfway. cbn [qw qv qvalid qage]. fold f t. fold p. fold c. repeat split; auto; [lra|]. intros i Hi. rewrite co_tab by auto. reflexivity.
Qed.
(** ... takes from to the direction of to *)
Lemma halfway_spin i : 0 < c + 1 -> (i < 3)%nat -> spin (q4 halfway) (co from) i = f / t * co to i.
Proof.
  intros K Hi. pose proof (halfway_good K) as G. pose proof (halfway_unit _ _ _ G) as U. destruct ft_pos as (F & T & P).
  rewrite <- formula_spin by auto. unfold halfway, formula. cbv zeta. set (w := sqrt ((c + 1) / 2)).
  assert (W : w * w = (c + 1) / 2) by (apply sqrt_sqrt; lra). assert (Wp : 0 < w) by (apply sqrt_lt_R0; lra).
  unfold q4. cbn [qw qv hw]. rewrite !co_tab by lia. set (k := 2 * p * w). assert (Kp : 0 < k) by (unfold k; nra).
  assert (I : inner 3 (fun j => hpart (mkH w (cross_coord (co from) (co to) 0 / k) (cross_coord (co from) (co to) 1 / k) (cross_coord (co from) (co to) 2 / k)) j) (co from) = 0).
  { unfold inner. cbn [Rsum hpart hx hy hz cross_coord]. field. lra. }
  rewrite I, Rmult_0_r, Rplus_0_r.
  assert (C : cross_coord (fun j => hpart (mkH w (cross_coord (co from) (co to) 0 / k) (cross_coord (co from) (co to) 1 / k) (cross_coord (co from) (co to) 2 / k)) j) (co from) i = (f * f * co to i - p * c * co from i) / k).
  { assert (F2 : f * f = norm2 3 (co from)) by apply norm_sqr. assert (D : p * c = inner 3 (co from) (co to)) by (unfold c; field; lra). rewrite F2, D, norm2_3. unfold inner. cbn [Rsum].
    destruct i as [|[|[|]]]; try lia; cbn [cross_coord hpart hx hy hz]; field; lra. }
  rewrite C. assert (W2 : 2 * w * w - 1 = c) by lra. rewrite W2. unfold k. unfold p. field. repeat split; lra.
Qed.
Lemma from_to_near old q : quat_from_to old from to = Ret q -> qvalid q = true -> 0 < c + 1 -> dl <= / 20 ->
  qdims q /\ hnear (q4 q) (q4 halfway) (2 * dl / sqrt (c + 1)).
Proof.
  intros E V K Hd. destruct ft_pos as (F & T & P). pose proof ft_delta as D0. unfold quat_from_to in E. rewrite !sqr_mag_norm2 in E. cbn [nltb Rnum neps nsqrt nmul ndiv nadd] in E. rewrite sqrt_mul_norm in E. fold f t in E. fold p in E.
  rewrite Rlt_bool_false in E by lra. unfold n1, n2 in E. cbn [nofZ Rnum] in E. destruct (Rlt_bool_spec (dot 3 from to / p + 1) eps) as [L|L]; [discriminate|]. injection E as <-.
  split; [apply dims_tab|]. set (w' := sqrt ((dot 3 from to / p + 1) / 2)). set (w := sqrt ((c + 1) / 2)).
  assert (W' : w' * w' = (dot 3 from to / p + 1) / 2) by (apply sqrt_sqrt; lra). assert (Wp' : 0 < w') by (apply sqrt_lt_R0; lra).
  assert (W : w * w = (c + 1) / 2) by (apply sqrt_sqrt; lra). assert (Wp : 0 < w) by (apply sqrt_lt_R0; lra).
  set (s := sqrt (c + 1)). assert (S : s * s = c + 1) by (apply sqrt_sqrt; lra). assert (Sp : 0 < s) by (apply sqrt_lt_R0; lra).
  (* the scalar part and its inverse *)
  assert (A : Rabs (w' - w) <= 3 / 4 * (dl / s) /\ Rabs (/ w' - / w) <= 2 * (dl / s) /\ / (2 * w') <= 72 / 100 * / s * (104 / 100)).
  { destruct ft_dot as [Ed|[Ed Ec]].
    - assert (w' = w) as ->. { unfold w', w, c. rewrite Ed. reflexivity. } rewrite !Rminus_diag_eq, Rabs_R0 by auto. assert (0 <= dl / s) by (apply Rlt_le, Rdiv_lt_0_compat; auto). split; [lra|]. split; [lra|].
      assert (B : s * (70 / 100) <= w). { apply root_lower; [nra|lra|]. replace (s * (70 / 100) * (s * (70 / 100))) with (s * s * (49 / 100)) by field. rewrite S, W. lra. }
      assert (I : / (2 * w) <= / (s * (140 / 100))) by (apply Rinv_le_contravar; nra). replace (/ (s * (140 / 100))) with (/ s * (100 / 140)) in I by (field; lra). assert (0 < / s) by (apply Rinv_0_lt_compat; auto). lra.
    - rewrite Ed in W'. assert (Z0 : 0 / p = 0) by (unfold Rdiv; ring). rewrite Z0 in W'. apply Rabs_le_inv in Ec.
      assert (B1 : 7 / 10 <= w') by (apply root_lower; lra). assert (B1' : w' <= 71 / 100) by (apply root_lower; lra). assert (B2 : 68 / 100 <= w) by (apply root_lower; lra).
      assert (S1 : s <= 103 / 100) by (apply root_lower; lra). assert (S0 : 97 / 100 <= s) by (apply root_lower; lra).
      assert (I1 : s * / s = 1) by (apply Rinv_r; lra). assert (I0 : 0 < / s) by (apply Rinv_0_lt_compat; auto). assert (I2 : 97 / 100 <= / s) by nra.
      assert (X : Rabs (w' - w) <= 37 / 100 * dl).
      { assert (Q : (w' - w) * (w' + w) = - (c / 2)) by lra. apply Rabs_le. split; nra. }
      assert (G : 97 / 100 * dl <= dl / s) by (unfold Rdiv; nra). split; [lra|]. split.
      + replace (/ w' - / w) with ((w - w') * / (w' * w)) by (field; lra). rewrite Rabs_mult, Rabs_inv, (Rabs_pos_eq (w' * w)) by nra. rewrite Rabs_minus_sym.
        assert (J : / (w' * w) <= / (47 / 100)) by (apply Rinv_le_contravar; nra). assert (J0 : 0 < / (w' * w)) by (apply Rinv_0_lt_compat; nra). pose proof (Rabs_pos (w' - w)).
        assert (Rabs (w' - w) * / (w' * w) <= 37 / 100 * dl * / (47 / 100)) by (apply Rmult_le_compat; auto; lra). lra.
      + assert (I : / (2 * w') <= / (14 / 10)) by (apply Rinv_le_contravar; lra). lra. }
  destruct A as (A1 & A2 & A3). assert (I0 : 0 < / s) by (apply Rinv_0_lt_compat; auto). assert (G0 : 0 < dl / s) by (apply Rdiv_lt_0_compat; auto).
  replace (2 * dl / s) with (2 * (dl / s)) by (unfold Rdiv; ring).
  split; [cbn [q4 hw qw halfway]; fold w w'; lra|].
  intros i Hi. rewrite !q4_part by auto. cbn [qv halfway]. unfold vec_div. rewrite !co_tab by auto. toco. fold w. fold w'.
  destruct (ft_cross i Hi) as [C1 C2]. set (x' := co (cross3 from to) i) in *. set (x := cross_coord (co from) (co to) i) in *.
  replace (x' / (2 * p * w') - x / (2 * p * w)) with ((x' - x) / p * / (2 * w') + x / p * / 2 * (/ w' - / w)) by (field; repeat split; lra).
  assert (B1 : Rabs ((x' - x) / p) <= dl). { unfold Rdiv. rewrite Rabs_mult, Rabs_inv, (Rabs_pos_eq p) by lra. apply Rmult_le_reg_r with p; [exact P|]. rewrite Rmult_assoc, Rinv_l by lra. lra. }
  assert (B2 : Rabs (x / p) <= 1). { unfold Rdiv. rewrite Rabs_mult, Rabs_inv, (Rabs_pos_eq p) by lra. apply Rmult_le_reg_r with p; [exact P|]. rewrite Rmult_assoc, Rinv_l by lra. lra. }
  assert (J0 : 0 < / (2 * w')) by (apply Rinv_0_lt_compat; lra).
  assert (T1 : Rabs ((x' - x) / p * / (2 * w')) <= dl * (72 / 100 * / s * (104 / 100))). { rewrite Rabs_mult, (Rabs_pos_eq (/ (2 * w'))) by lra. apply Rmult_le_compat; auto using Rabs_pos; lra. }
  assert (T2 : Rabs (x / p * / 2 * (/ w' - / w)) <= 1 * / 2 * (2 * (dl / s))). { rewrite !Rabs_mult. rewrite (Rabs_pos_eq (/ 2)) by lra. apply Rmult_le_compat; auto using Rabs_pos; [|apply Rmult_le_compat_r; lra]. apply Rmult_le_pos; [apply Rabs_pos|lra]. }
  apply Rabs_le_inv in T1. apply Rabs_le_inv in T2. unfold Rdiv in *. apply Rabs_le. split; nra.
Qed.
Lemma from_to_tol old q : quat_from_to old from to = Ret q -> qvalid q = true -> 0 < c + 1 -> 200 * dl <= sqrt (c + 1) ->
  Rabs (hnorm2 (q4 q) - 1) <= 9 * (dl / sqrt (c + 1)) /\
  dist 3 (co (vec_rotate_q from q)) (fun i => f / t * co to i) <= (64 * (dl / sqrt (c + 1)) + 17 * eps) * f.
Proof.
  intros E V K H. destruct ft_pos as (F & T & P). pose proof ft_delta as D0. set (s := sqrt (c + 1)) in *.
  assert (Sp : 0 < s) by (apply sqrt_lt_R0; lra).
  assert (c <= 1).
  { unfold c. apply Rmult_le_reg_r with p; [exact P|]. unfold Rdiv. rewrite Rmult_assoc, Rinv_l by lra. pose proof (inner_le_norm 3 (co from) (co to)) as I. fold f t in I. fold p in I. lra. }
  assert (S2 : s <= 3 / 2). { apply root_lower; [lra|lra|]. unfold s. rewrite sqrt_sqrt; lra. }
  destruct (from_to_near old q E V K ltac:(lra)) as [Dq N]. fold s in N. replace (2 * dl / s) with (2 * (dl / s)) in N by (unfold Rdiv; ring).
  assert (G : 0 < dl / s <= / 200). { split; [apply Rdiv_lt_0_compat; auto|]. unfold Rdiv. apply Rmult_le_reg_r with s; [exact Sp|]. rewrite Rmult_assoc, Rinv_l by lra. lra. }
  pose proof (halfway_unit _ _ _ (halfway_good K)) as U. unfold unit_quat in U. set (g := dl / s) in *. split.
  - destruct (norm_near _ _ (2 * g) ltac:(lra) U N) as [X _]. nra.
  - pose proof (rotate_near eps q _ (2 * g) from ltac:(lra) ltac:(lra) Dq Df U N) as X. fold f in X.
    rewrite (dist_ext 3 _ _ (co (vec_rotate_q from q)) (fun i => f / t * co to i)) in X by (auto; intros i Hi; apply halfway_spin; auto). lra.
Qed.
End F.
