(** C66: Angle, Parallel and Perpendicular. *)
From Coq Require Import Reals Lra Lia List Bool Psatz ZArith SpecFloat.
From Flocq Require Import Core.Zaux Core.Raux.
From Verif Require Import Base Scalar ConstModel VecModel RSpec RLib VecSpec VecProofs VecProofs4 ConstProofs AngleProofs.
Import ListNotations.
Open Scope R_scope.

(** ** Tolerance 0 *)
Theorem C66_angle_exact : forall n (v u : vector R), (0 < n)%nat -> dims n v -> dims n u -> 0 < norm n (co v) -> 0 < norm n (co u) ->
  0 <= angle (H := Rnum 0) n v u <= PI /\ cos (angle (H := Rnum 0) n v u) * (norm n (co v) * norm n (co u)) = inner n (co v) (co u).
Proof.
  intros n v u Hn Dv Du Pv Pu.
  assert (Q : forall w : vector R, 0 < norm n (co w) -> 0 < norm2 n (co w)) by (intros w Hw; rewrite <- norm_sqr; nra).
  destruct (angle_cos 0 n v u (Q _ Pv) (Q _ Pu)) as [B E]. split; [exact B|]. rewrite E. rewrite (dot_def 0). unfold scale_eps_arr. rewrite (scale_eps_eps0 0). rewrite Rle_bool_true; [reflexivity|apply Rabs_pos].
Qed.
Print Assumptions C66_angle_exact.

(** Parallel holds exactly of vectors on one line through the origin, and same_dir tells the two halves of the line apart. *)
Theorem C66_parallel_exact : forall n (a b : vector R), (0 < n)%nat -> dims n a -> dims n b ->
  let r := parallel (H := Rnum 0) n a b in
  (fst r = true <-> (forall i, (i < n)%nat -> co b i = 0) \/ exists k, forall i, (i < n)%nat -> co a i = k * co b i) /\
  (fst r = true -> (exists i, (i < n)%nat /\ co b i <> 0) ->
   (snd r = true <-> exists k, 0 < k /\ forall i, (i < n)%nat -> co a i = k * co b i)).
Proof.
  intros n a b Hn Da Db r. destruct (parallel_exact 0 n eq_refl a b Hn Da Db) as [F S]. fold r in F, S.
  assert (Zb : norm2 n (co b) = 0 <-> forall i, (i < n)%nat -> co b i = 0).
  { split; [apply norm2_zero|]. intros Z. apply Rsum_zero. intros i Hi. rewrite (Z i Hi). ring. }
  pose proof (norm2_nonneg n (co b)) as Nb. split.
  - rewrite F. split.
    + intros E. destruct Nb as [P|Z]; [right|left; apply Zb; auto]. exists (inner n (co a) (co b) / norm2 n (co b)). apply collinear; auto.
    + intros [Z|[k K]].
      * assert (I : inner n (co a) (co b) = 0) by (apply Rsum_zero; intros i Hi; rewrite (Z i Hi); ring). rewrite I, (proj2 Zb Z). ring.
      * destruct (inner_multiple n _ _ k K) as [-> ->]. ring.
  - intros E (i & Hi & Bi). assert (P : 0 < norm2 n (co b)) by (destruct Nb as [|Z]; auto; exfalso; apply Bi; apply (proj1 Zb); auto).
    rewrite S. apply F in E. split.
    + intros I. exists (inner n (co a) (co b) / norm2 n (co b)). split; [apply Rdiv_lt_0_compat; auto|apply collinear; auto].
    + intros (k & Pk & K). rewrite (proj1 (inner_multiple n _ _ k K)). apply Rmult_lt_0_compat; auto.
Qed.
Print Assumptions C66_parallel_exact.

(** ** Any tolerance *)
(** The angle does not depend on the order, and its cosine is that of the true angle up to twice the tolerance over
    the longer of the two lengths.  Missing: a bound that does not grow for short vectors, see the next theorem. *)
Theorem C66_angle_partial : forall (eps : Epsilon) n (v u : vector R), 0 <= (eps : R) -> (0 < n)%nat -> dims n v -> dims n u -> 0 < norm n (co v) -> 0 < norm n (co u) ->
  0 <= angle n v u <= PI /\ angle n v u = angle n u v /\
  Rabs (cos (angle n v u) - inner n (co v) (co u) / (norm n (co v) * norm n (co u))) <= 2 * eps / Rmax (norm n (co v)) (norm n (co u)).
Proof.
  intros eps n v u He Hn Dv Du Pv Pu.
  assert (Q : forall w : vector R, 0 < norm n (co w) -> 0 < norm2 n (co w)) by (intros w Hw; rewrite <- norm_sqr; nra).
  destruct (angle_cos eps n v u (Q _ Pv) (Q _ Pu)) as [B E]. split; [exact B|]. split; [apply angle_sym|].
  pose proof (dot_error eps n v u (norm n (co v)) (norm n (co u)) Hn He Dv Du (fun i Hi => coord_norm n (co v) i Hi) (fun i Hi => coord_norm n (co u) i Hi)) as D.
  rewrite <- E in D. set (c := cos (angle n v u)) in *. set (x := norm n (co v)) in *. set (y := norm n (co u)) in *. set (d := inner n (co v) (co u)) in *.
  assert (P : 0 < x * y) by (apply Rmult_lt_0_compat; auto).
  replace (c - d / (x * y)) with ((c * (x * y) - d) / (x * y)) by (field; split; lra). unfold Rdiv at 1. rewrite Rabs_mult, Rabs_inv, (Rabs_pos_eq (x * y)) by lra.
  apply Rmult_le_reg_r with (x * y); [auto|]. rewrite Rmult_assoc, Rinv_l, Rmult_1_r by lra. eapply Rle_trans; [exact D|]. apply Req_le.
  unfold Rmin, Rmax. destruct (Rle_dec x y); field; lra.
Qed.
Print Assumptions C66_angle_partial.
(** For every positive tolerance there is a vector that makes a right angle with itself. *)
Theorem C66_angle_self_refuted : forall (eps : Epsilon) n, 0 < (eps : R) -> (0 < n)%nat ->
  exists v : vector R, valid v = true /\ dims n v /\ 0 < norm n (co v) /\ angle n v v = PI / 2 /\ perpendicular n v v = true /\ snd (parallel n v v) = false.
Proof.
  intros eps n He Hn. destruct (dot_self_short eps n Hn He) as [D P]. exists (axis_vec n (eps / 2)). set (v := axis_vec n (eps / 2)) in *.
  rewrite sqr_mag_norm2 in P. split; [reflexivity|]. split; [apply dims_tab|]. split; [apply norm_pos; auto|]. split; [|split].
  - rewrite angle_value by auto. rewrite D. unfold Rdiv. rewrite Rmult_0_l. rewrite acos_0. reflexivity.
  - unfold perpendicular. rewrite D. cbn [nltb nabs nldexp neps nfrexp Rnum]. rewrite Rabs_R0. apply Rltb_iff. apply Rmult_lt_0_compat; [exact He|apply bpow_gt_0].
  - rewrite parallel_snd, D. apply Rlt_bool_false. lra.
Qed.
Print Assumptions C66_angle_self_refuted.

(** Vectors with |a|^2 |b|^2 above the tolerance: parallel as far as the tolerance tells, and the right direction.
    (The squared sine of the angle is 1 - inner^2 / (|a|^2 |b|^2).)  Missing: shorter vectors, see below. *)
Theorem C66_parallel_partial : forall (eps : Epsilon) n (a b : vector R), 0 <= (eps : R) <= / 4 -> (0 < n)%nat -> dims n a -> dims n b ->
  let lengths := norm2 n (co a) * norm2 n (co b) in let d := inner n (co a) (co b) in
  eps < lengths ->
  (fst (parallel n a b) = true -> (1 - 2 * eps) * lengths <= d * d /\ (snd (parallel n a b) = true <-> 0 < d)) /\
  ((1 - eps / 2) * lengths <= d * d -> fst (parallel n a b) = true) /\
  fst (parallel n a b) = fst (parallel n b a).
Proof.
  intros eps n a b He Hn Da Db lengths d HL. split; [|split].
  - intros E. destruct (parallel_sound eps n a b He HL E) as [S D]. split; [exact S|]. rewrite parallel_snd, D. apply Rltb_iff.
  - apply parallel_complete; auto.
  - rewrite !parallel_fst, (dot_comm eps n b a), (Rmult_comm (norm2 n (co b))). reflexivity.
Qed.
Print Assumptions C66_parallel_partial.
(** Two short vectors at a right angle are parallel: |a|^2 |b|^2 is compared with 0, and the tolerance around 0 is not relative. *)
Theorem C66_parallel_refuted : forall eps : Epsilon, 0 < (eps : R) <= 1 ->
  exists a b : vector R, valid a = true /\ valid b = true /\ 0 < norm 2 (co a) /\ 0 < norm 2 (co b) /\ inner 2 (co a) (co b) = 0 /\ fst (parallel 2 a b) = true.
Proof.
  intros eps He. exists (mkC [(eps : R); 0] true), (mkC [0; (eps : R)] true).
  assert (A : norm2 2 (co (mkC [(eps : R); 0] true)) = eps * eps) by (unfold norm2, inner; cbn [Rsum]; unfold co; cbn [el nth]; ring).
  assert (B : norm2 2 (co (mkC [0; (eps : R)] true)) = eps * eps) by (unfold norm2, inner; cbn [Rsum]; unfold co; cbn [el nth]; ring).
  assert (I : inner 2 (co (mkC [(eps : R); 0] true)) (co (mkC [0; (eps : R)] true)) = 0) by (unfold inner; cbn [Rsum]; unfold co; cbn [el nth]; ring).
  split; [reflexivity|]. split; [reflexivity|]. split; [apply norm_pos; nra|]. split; [apply norm_pos; nra|]. split; [exact I|].
  rewrite parallel_fst, A, B. assert (dot 2 (mkC [(eps : R); 0] true) (mkC [0; (eps : R)] true) = 0) as -> by (destruct (dot_exact_or_zero eps 2 (mkC [(eps : R); 0] true) (mkC [0; (eps : R)] true)); congruence).
  rewrite Rmult_0_r. apply (equal_R_zero eps); [auto|]. assert (0 <= eps * eps <= 1) by nra. rewrite Rminus_0_l, Rabs_Ropp, Rabs_pos_eq by nra. nra.
Qed.
Print Assumptions C66_parallel_refuted.
(** The same in doubles, with vectors of length 2^-13 (more than a ten-thousandth). *)
Theorem C66_parallel_double_refuted : forall m : libm, let x := SFldexp prec64 emax64 (b64_ofZ 1) (-13) in let o := b64_ofZ 0 in
  parallel (H := B64 m) 2 (mkC [x; o] true) (mkC [o; x] true) = (true, false).
Proof. intros m. vm_compute. reflexivity. Qed.
Print Assumptions C66_parallel_double_refuted.

(** Perpendicular: it holds when the cosine is at most eps / n, and when it holds the cosine is at most 4 eps, provided
    one of the vectors is not shorter than a half.  Missing: two shorter vectors, see below. *)
Theorem C66_perpendicular_partial : forall (eps : Epsilon) n (a b : vector R), 0 < (eps : R) -> (0 < n)%nat -> dims n a -> dims n b ->
  0 < norm n (co a) -> 0 < norm n (co b) -> let cosine := inner n (co a) (co b) / (norm n (co a) * norm n (co b)) in
  (Rabs cosine <= eps / INR n -> perpendicular n a b = true) /\
  (perpendicular n a b = true -> / 2 <= norm n (co a) \/ / 2 <= norm n (co b) -> Rabs cosine <= 4 * eps) /\
  perpendicular n a b = perpendicular n b a.
Proof.
  intros eps n a b He Hn Da Db Pa Pb cosine.
  assert (Q : forall w : vector R, 0 < norm n (co w) -> 0 < norm2 n (co w)) by (intros w Hw; rewrite <- norm_sqr; nra).
  assert (N : 1 <= INR n) by (change 1 with (INR 1); apply le_INR; lia).
  assert (P : 0 < norm n (co a) * norm n (co b)) by (apply Rmult_lt_0_compat; auto).
  assert (C : Rabs (inner n (co a) (co b)) = Rabs cosine * (norm n (co a) * norm n (co b))).
  { unfold cosine, Rdiv. rewrite Rabs_mult, Rabs_inv, (Rabs_pos_eq (norm n (co a) * norm n (co b))) by lra. field. split; lra. }
  split; [|split].
  - intros L. apply perp_complete; auto. rewrite C. rewrite <- Rmult_assoc. apply Rmult_le_compat_r; [lra|].
    apply Rmult_le_reg_l with (/ INR n); [apply Rinv_0_lt_compat; lra|]. rewrite <- Rmult_assoc, Rinv_l, Rmult_1_l by lra. unfold Rdiv in L. lra.
  - intros E L. pose proof (perp_sound eps n a b Hn He Da Db (Q _ Pa) (Q _ Pb) E L) as B. rewrite C in B. apply Rmult_le_reg_r with (norm n (co a) * norm n (co b)); auto.
  - unfold perpendicular. rewrite (dot_comm eps n a b), Z.add_comm. reflexivity.
Qed.
Print Assumptions C66_perpendicular_partial.
(** The zero vector is perpendicular to every vector. *)
Theorem C66_perpendicular_zero : forall (eps : Epsilon) n (b : vector R), 0 < (eps : R) -> perpendicular n (vec_zero n) b = true /\ perpendicular n b (vec_zero n) = true.
Proof.
  intros eps n b He. assert (Z : forall i, (i < n)%nat -> co (vec_zero (H := Rnum eps) n) i = 0) by (intros i Hi; unfold vec_zero; rewrite co_tab by auto; reflexivity).
  split; apply perp_zero; auto; apply Rsum_zero; intros i Hi; rewrite (Z i Hi); ring.
Qed.
Print Assumptions C66_perpendicular_zero.
(** Doubles: a vector of length 2^-60 is perpendicular to itself. *)
Theorem C66_perpendicular_double_refuted : forall m : libm, let x := SFldexp prec64 emax64 (b64_ofZ 1) (-60) in let o := b64_ofZ 0 in
  perpendicular (H := B64 m) 2 (mkC [x; o] true) (mkC [x; o] true) = true.
Proof. intros m. vm_compute. reflexivity. Qed.
Print Assumptions C66_perpendicular_double_refuted.

(** (3, 4) and (6, 8), (4, -3): the hypotheses hold, and both answers occur. *)
Example C66_example : forall eps : Epsilon, 0 < (eps : R) <= / 100 ->
  let a := mkC [3; 4] true in let b := mkC [6; 8] true in let c := mkC [4; -3] true in
  norm 2 (co a) = 5 /\ eps < norm2 2 (co a) * norm2 2 (co b) /\ parallel 2 a b = (true, true) /\ fst (parallel 2 a c) = false /\ perpendicular 2 a c = true /\ perpendicular 2 a b = false.
Proof.
  intros eps He a b c.
  assert (Na : norm2 2 (co a) = 25) by (unfold norm2, inner, co, a; cbn [Rsum el nth]; ring).
  assert (Nb : norm2 2 (co b) = 100) by (unfold norm2, inner, co, b; cbn [Rsum el nth]; ring).
  assert (Nc : norm2 2 (co c) = 25) by (unfold norm2, inner, co, c; cbn [Rsum el nth]; ring).
  assert (Iab : inner 2 (co a) (co b) = 50) by (unfold inner, co, a, b; cbn [Rsum el nth]; ring).
  assert (Iac : inner 2 (co a) (co c) = 0) by (unfold inner, co, a, c; cbn [Rsum el nth]; ring).
  assert (A5 : norm 2 (co a) = 5) by (unfold norm; rewrite Na; replace 25 with (5 * 5) by ring; apply sqrt_square; lra).
  assert (B5 : norm 2 (co b) = 10) by (unfold norm; rewrite Nb; replace 100 with (10 * 10) by ring; apply sqrt_square; lra).
  split; [exact A5|]. split; [rewrite Na, Nb; lra|].
  assert (Pab : fst (parallel 2 a b) = true). { apply (C66_parallel_partial eps 2 a b ltac:(lra) ltac:(lia) eq_refl eq_refl); rewrite Na, Nb; [lra|]. rewrite Iab. lra. }
  split.
  - rewrite (surjective_pairing (parallel 2 a b)), Pab. f_equal. apply (C66_parallel_partial eps 2 a b ltac:(lra) ltac:(lia) eq_refl eq_refl); auto; [rewrite Na, Nb; lra|]. rewrite Iab. lra.
  - split; [|split].
    + destruct (fst (parallel 2 a c)) eqn:E; auto. exfalso. apply (C66_parallel_partial eps 2 a c ltac:(lra) ltac:(lia) eq_refl eq_refl) in E; rewrite Na, Nc in *; [|lra]. rewrite Iac in E. lra.
    + apply perp_zero; [lra|exact Iac].
    + destruct (perpendicular 2 a b) eqn:E; auto. exfalso. apply (perp_sound eps 2 a b ltac:(lia) ltac:(lra) eq_refl eq_refl) in E; [|lra|lra|lra]. rewrite Iab, A5, B5, Rabs_pos_eq in E by lra. lra.
Qed.
