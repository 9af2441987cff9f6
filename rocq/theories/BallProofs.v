(** Balls: proofs. *)
From Coq Require Import ZArith NArith Reals Bool List Lia Lra Psatz SpecFloat.
From Flocq Require Import Core.Raux.
From Verif Require Import Base Scalar ConstModel VecModel RotModel QuatModel ShapeModel IntersectModel RSpec VecSpec RotSpec ShapeSpec RLib OrdLib B64Lib ConstProofs VecProofs VecProofs4 ShapeProofs ShapeProofs2 ShapeProofs3.
Import ListNotations.
Open Scope R_scope.

Lemma div_le_1 a b : 0 < b -> a <= b -> a / b <= 1.
Proof. intros. apply Rmult_le_reg_r with b; auto. unfold Rdiv. rewrite Rmult_assoc, Rinv_l; lra. Qed.
Lemma div_lt_1 a b : 0 < b -> a < b -> a / b < 1.
Proof. intros. apply Rmult_lt_reg_r with b; auto. unfold Rdiv. rewrite Rmult_assoc, Rinv_l; lra. Qed.

(** ** Geometry of R^n *)
Section Geo.
Variable n : nat.

Lemma norm_scal k a : norm n (fun i => k * a i) = Rabs k * norm n a.
Proof.
  unfold norm. rewrite norm2_scal. rewrite sqrt_mult by (try apply norm2_nonneg; nra). f_equal.
  replace (k * k) with (Rsqr k) by reflexivity. apply sqrt_Rsqr_abs.
Qed.
Lemma norm_ext a b : (forall i, (i < n)%nat -> a i = b i) -> norm n a = norm n b.
Proof. intros E. unfold norm, norm2. f_equal. now apply inner_ext. Qed.
Lemma dist_ext a b c d : pteq n a c -> pteq n b d -> dist n a b = dist n c d.
Proof. intros E F. unfold dist, dist2. f_equal. apply inner_ext; intros; rewrite E, F by auto; auto. Qed.
Lemma dist_norm a b : dist n a b = norm n (fun i => a i - b i). Proof. reflexivity. Qed.
Lemma dist_nonneg a b : 0 <= dist n a b. Proof. apply sqrt_pos. Qed.
Lemma dist_sqr a b : dist n a b * dist n a b = dist2 n a b. Proof. apply sqrt_sqrt. apply dist2_nonneg. Qed.
Lemma dist_refl a : dist n a a = 0.
Proof. unfold dist. replace (dist2 n a a) with 0; [apply sqrt_0|]. symmetry. unfold dist2, norm2, inner. apply Rsum_zero. intros. ring. Qed.
Lemma dist_0 a b : dist n a b = 0 -> pteq n a b.
Proof.
  intros E i Hi. unfold dist in E. apply sqrt_eq_0 in E; [|apply dist2_nonneg]. pose proof (norm2_zero n _ E i Hi). cbn in H. lra.
Qed.
Lemma coord_le_dist a b i : (i < n)%nat -> Rabs (a i - b i) <= dist n a b.
Proof.
  intros Hi. unfold dist. rewrite <- (sqrt_Rsqr_abs (a i - b i)). apply sqrt_le_1_alt. apply (norm2_coord_le n (fun i => a i - b i) i Hi).
Qed.

(** The point a fraction t on the way from a to b. *)
Definition lerp (a b : pt) (t : R) : pt := fun i => (1 - t) * a i + t * b i.
Lemma dist_lerp a b t : 0 <= t -> dist n a (lerp a b t) = t * dist n a b.
Proof.
  intros Ht. rewrite !dist_norm. replace (t * norm n (fun i => a i - b i)) with (Rabs t * norm n (fun i => a i - b i)) by (rewrite (Rabs_pos_eq t); auto).
  rewrite <- norm_scal. apply norm_ext. intros i _. unfold lerp. ring.
Qed.
Lemma dist_lerp_r a b t : t <= 1 -> dist n (lerp a b t) b = (1 - t) * dist n a b.
Proof.
  intros Ht. rewrite !dist_norm. replace ((1 - t) * norm n (fun i => a i - b i)) with (Rabs (1 - t) * norm n (fun i => a i - b i)) by (rewrite (Rabs_pos_eq (1 - t)); lra).
  rewrite <- norm_scal. apply norm_ext. intros i _. unfold lerp. ring.
Qed.
Lemma dist_lerp_bound c a b t : 0 <= t <= 1 -> dist n c (lerp a b t) <= (1 - t) * dist n c a + t * dist n c b.
Proof.
  intros Ht. rewrite !dist_norm.
  replace ((1 - t) * norm n (fun i => c i - a i)) with (Rabs (1 - t) * norm n (fun i => c i - a i)) by (rewrite (Rabs_pos_eq (1 - t)); lra).
  replace (t * norm n (fun i => c i - b i)) with (Rabs t * norm n (fun i => c i - b i)) by (rewrite (Rabs_pos_eq t); lra).
  rewrite <- !norm_scal. eapply Rle_trans; [|apply norm_triangle]. right. apply norm_ext. intros i _. unfold lerp. ring.
Qed.

Lemma balls_meet (c d : pt) r s : 0 <= r -> 0 <= s -> ((exists x, dist n c x <= r /\ dist n d x <= s) <-> dist n c d <= r + s).
Proof.
  intros Hr Hs. split.
  - intros (x & X & Y). pose proof (dist_triangle n c x d). rewrite (dist_sym n x d) in H. lra.
  - intros E. destruct (Rle_lt_dec (r + s) 0) as [Z|P].
    + exists c. rewrite dist_refl. pose proof (dist_nonneg c d). rewrite (dist_sym n d c). lra.
    + exists (lerp c d (r / (r + s))).
      assert (0 <= r / (r + s) <= 1) by (split; [apply Rmult_le_pos; [lra|left; apply Rinv_0_lt_compat; lra]|apply div_le_1; lra]).
      pose proof (dist_nonneg c d). rewrite dist_lerp by lra. rewrite (dist_sym n d), dist_lerp_r by lra.
      replace (1 - r / (r + s)) with (s / (r + s)) by (field; lra).
      assert (0 <= s / (r + s)) by (apply Rmult_le_pos; [lra|left; apply Rinv_0_lt_compat; lra]).
      split; eapply Rle_trans; [apply Rmult_le_compat_l; [|exact E]; lra| |apply Rmult_le_compat_l; [|exact E]; lra|]; right; field; lra.
Qed.
Lemma balls_meet_open (c d : pt) r s : 0 < r -> 0 < s -> ((exists x, dist n c x < r /\ dist n d x < s) <-> dist n c d < r + s).
Proof.
  intros Hr Hs. split.
  - intros (x & X & Y). pose proof (dist_triangle n c x d). rewrite (dist_sym n x d) in H. lra.
  - intros E. exists (lerp c d (r / (r + s))).
    assert (0 < r / (r + s)) by (apply Rdiv_lt_0_compat; lra).
    assert (0 < s / (r + s)) by (apply Rdiv_lt_0_compat; lra).
    assert (EQ : 1 - r / (r + s) = s / (r + s)) by (field; lra).
    pose proof (dist_nonneg c d). rewrite dist_lerp by lra. rewrite (dist_sym n d), dist_lerp_r, EQ by lra.
    split; eapply Rlt_le_trans; [apply Rmult_lt_compat_l; [|exact E]; lra| |apply Rmult_lt_compat_l; [|exact E]; lra|]; right; field; lra.
Qed.

(** A point at distance r from d, directly away from c. *)
Lemma far_point (c d : pt) r : (0 < n)%nat -> 0 <= r -> exists x, dist n d x = r /\ dist n c x = dist n c d + r.
Proof.
  intros Hn Hr. destruct (Req_dec (dist n c d) 0) as [Z|P].
  - exists (fun i => d i + r * delta 0 i).
    assert (E : dist n d (fun i => d i + r * delta 0 i) = r).
    { rewrite dist_norm. rewrite (norm_ext _ (fun i => (- r) * delta 0 i)) by (intros; ring). rewrite norm_scal, Rabs_Ropp, Rabs_pos_eq by auto.
      unfold norm, norm2, inner. rewrite Rsum_delta_l by auto. rewrite delta_same, sqrt_1. ring. }
    split; auto. rewrite Z, Rplus_0_l, <- E at 1. apply dist_ext; [|intros i _; reflexivity]. now apply dist_0.
  - pose proof (dist_nonneg c d). assert (0 < dist n c d) by lra.
    exists (fun i => d i + r / dist n c d * (d i - c i)).
    set (k := r / dist n c d). assert (0 <= k) by (apply Rmult_le_pos; [lra|left; apply Rinv_0_lt_compat; lra]).
    assert (K : k * dist n c d = r) by (unfold k; field; lra). split.
    + rewrite dist_norm. rewrite (norm_ext _ (fun i => k * (c i - d i))) by (intros; ring). rewrite norm_scal, Rabs_pos_eq by auto. exact K.
    + rewrite dist_norm. rewrite (norm_ext _ (fun i => (1 + k) * (c i - d i))) by (intros; ring).
      rewrite norm_scal, Rabs_pos_eq by lra. rewrite <- dist_norm. lra.
Qed.
Lemma ball_incl (c d : pt) ro ri : (0 < n)%nat -> 0 <= ri -> ((forall x, dist n d x <= ri -> dist n c x <= ro) <-> dist n c d + ri <= ro).
Proof.
  intros Hn Hr. split.
  - intros I. destruct (far_point c d ri Hn Hr) as (x & X & Y). rewrite <- Y. apply I. lra.
  - intros E x X. pose proof (dist_triangle n c d x). lra.
Qed.
Lemma ball_incl_open (c d : pt) ro ri : (0 < n)%nat -> 0 <= ri -> ((forall x, dist n d x <= ri -> dist n c x < ro) <-> dist n c d + ri < ro).
Proof.
  intros Hn Hr. split.
  - intros I. destruct (far_point c d ri Hn Hr) as (x & X & Y). rewrite <- Y. apply I. lra.
  - intros E x X. pose proof (dist_triangle n c d x). lra.
Qed.
End Geo.

Section R.
Context (eps : Epsilon).
Variable n : nat.

Lemma in_ball_sqr (b : ball R) x : 0 <= radius b -> (in_ball n b x <-> dist2 n (co (center b)) x <= radius b * radius b).
Proof. intros. unfold in_ball, dist. apply sqrt_le_iff; auto. apply dist2_nonneg. Qed.
Lemma in_ball_open_sqr (b : ball R) x : 0 <= radius b -> (in_ball_open n b x <-> dist2 n (co (center b)) x < radius b * radius b).
Proof. intros. unfold in_ball_open, dist. apply sqrt_lt_iff; auto. apply dist2_nonneg. Qed.

(** What SquaredDistance loses: nothing is added, and at most 2*eps*B is dropped. *)
Lemma sqd_le (p q : coords R) : squared_distance n p q <= dist2 n (co p) (co q).
Proof. destruct (sqd_exact_or_zero eps n p q) as [->| ->]; [lra|apply dist2_nonneg]. Qed.
Lemma arr_bound_any (p q : coords R) B : 0 <= (eps : R) -> 1 <= B -> dims n p -> dims n q -> bounded_by n p B -> bounded_by n q B ->
  scale_eps_arr (el p) (el q) eps <= 2 * eps * B.
Proof.
  intros He HB Dp Dq Bp Bq.
  destruct (Req_dec (max_abs (el p)) 0) as [Z|Np]; [unfold scale_eps_arr; rewrite scale_eps_zero by auto; nra|].
  destruct (Req_dec (max_abs (el q)) 0) as [Z|Nq]; [unfold scale_eps_arr; rewrite scale_eps_zero by auto; nra|].
  unfold scale_eps_arr. pose proof (scale_eps_bounds eps _ _ eps He Np Nq) as [_ U]. eapply Rle_trans; [exact U|].
  apply Rmult_le_compat_l; [lra|]. eapply Rle_trans; [apply Rmin_l|].
  rewrite Rabs_pos_eq by apply max_abs_nonneg. apply (max_abs_bound eps n); auto. lra.
Qed.
Lemma sqd_ge (p q : coords R) B : 0 <= (eps : R) -> 1 <= B -> dims n p -> dims n q -> bounded_by n p B -> bounded_by n q B ->
  dist2 n (co p) (co q) <= squared_distance n p q + 2 * eps * B.
Proof.
  intros He HB Dp Dq Bp Bq. rewrite sqd_def. pose proof (arr_bound_any p q B He HB Dp Dq Bp Bq).
  destruct (Rle_bool_spec (scale_eps_arr (el p) (el q) eps) (dist2 n (co p) (co q))); nra.
Qed.

(** ** Ball and box *)
Definition outside (c l h : R) : R := if Rlt_bool c l then c - l else if Rlt_bool h c then c - h else 0.
Lemma ball_box_fold (b : ball R) (a : axisbox R) :
  fold_left (fun acc i => if (at_ (center b) i <? at_ (low a) i)%num then let d := (at_ (center b) i - at_ (low a) i)%num in (acc + d * d)%num
      else if (at_ (center b) i >? at_ (high a) i)%num then let d := (at_ (center b) i - at_ (high a) i)%num in (acc + d * d)%num
      else acc) (seq 0 n) n0 = Rsum n (fun i => let d := outside (co (center b) i) (co (low a) i) (co (high a) i) in d * d).
Proof.
  rewrite <- (nsum_Rsum eps). unfold nsum. generalize (seq 0 n) as l. generalize (n0 : R) as acc.
  intros acc l. revert acc. induction l as [|i l IH]; intros acc; cbn [fold_left]; auto. rewrite IH. f_equal.
  rewrite !at_co. cbn [nltb nsub nadd nmul Rnum]. unfold outside.
  destruct (Rlt_bool (co (center b) i) (co (low a) i)); auto. destruct (Rlt_bool (co (high a) i) (co (center b) i)); auto. lra.
Qed.
(** The nearest point of the box. *)
Definition nearest (c : pt) (a : axisbox R) : pt := fun i => c i - outside (c i) (co (low a) i) (co (high a) i).
Lemma nearest_in c a : box_ordered n a -> in_box n a (nearest c a).
Proof.
  intros O i Hi. specialize (O i Hi). unfold nearest, outside.
  destruct (Rlt_bool_spec (c i) (co (low a) i)); [lra|]. destruct (Rlt_bool_spec (co (high a) i) (c i)); lra.
Qed.
Lemma nearest_dist c a : dist2 n c (nearest c a) = Rsum n (fun i => let d := outside (c i) (co (low a) i) (co (high a) i) in d * d).
Proof. unfold dist2, norm2, inner. apply Rsum_ext. intros i _. unfold nearest. cbn zeta. ring. Qed.
Lemma nearest_least c a x : in_box n a x -> dist2 n c (nearest c a) <= dist2 n c x.
Proof.
  intros X. rewrite nearest_dist. unfold dist2, norm2, inner. apply Rsum_le. intros i Hi. specialize (X i Hi). cbn zeta. unfold outside.
  destruct (Rlt_bool_spec (c i) (co (low a) i)); [nra|]. pose proof (Rle_0_sqr (c i - x i)) as Q. unfold Rsqr in Q.
  destruct (Rlt_bool_spec (co (high a) i) (c i)); [nra|lra].
Qed.

Lemma ball_box (b : ball R) a : box_ordered n a -> 0 <= radius b -> (i_ball_box n b a false = true <-> meet (in_ball n b) (in_box n a)).
Proof.
  intros O Hr. unfold i_ball_box. rewrite ball_box_fold. rewrite <- (nearest_dist (co (center b)) a), less_eq_false. cbn [nmul Rnum].
  split.
  - intros E. exists (nearest (co (center b)) a). split; [now apply in_ball_sqr|now apply nearest_in].
  - intros (x & X & Y). apply in_ball_sqr in X; auto. pose proof (nearest_least (co (center b)) a x Y). lra.
Qed.
Lemma ball_box_proper (b : ball R) a : box_ordered n a -> 0 <= radius b -> (i_ball_box n b a true = true <-> meet (in_ball_open n b) (in_box n a)).
Proof.
  intros O Hr. unfold i_ball_box. rewrite ball_box_fold. rewrite <- (nearest_dist (co (center b)) a), less_eq_proper. cbn [nmul Rnum].
  split.
  - intros E. exists (nearest (co (center b)) a). split; [now apply in_ball_open_sqr|now apply nearest_in].
  - intros (x & X & Y). apply in_ball_open_sqr in X; auto. pose proof (nearest_least (co (center b)) a x Y). lra.
Qed.
(** If an open ball reaches a box with interior, it reaches the interior. *)
Lemma open_reaches (b : ball R) a : box_thick n a -> meet (in_ball_open n b) (in_box n a) -> meet (in_ball_open n b) (in_box_open n a).
Proof.
  intros Th (x & X & Y). unfold in_ball_open in X. set (c := co (center b)) in *.
  set (m := fun i => (co (low a) i + co (high a) i) / 2).
  pose proof (dist_nonneg n c x). pose proof (dist_nonneg n c m).
  set (s := radius b - dist n c x). set (t := s / (s + dist n c m + 1)).
  assert (0 < s) by (unfold s; lra).
  assert (T : 0 < t < 1). { unfold t. split; [apply Rdiv_lt_0_compat; lra|]. apply div_lt_1; lra. }
  exists (lerp x m t). split.
  - unfold in_ball_open. fold c. eapply Rle_lt_trans; [apply dist_lerp_bound; lra|].
    assert (t * dist n c m < s). { unfold t. replace (s / (s + dist n c m + 1) * dist n c m) with (s * (dist n c m / (s + dist n c m + 1))) by (field; lra).
      rewrite <- (Rmult_1_r s) at 3. apply Rmult_lt_compat_l; auto. apply div_lt_1; lra. }
    assert (0 <= t * dist n c x) by (apply Rmult_le_pos; lra). unfold s in H2. lra.
  - intros i Hi. specialize (Y i Hi). specialize (Th i Hi). unfold lerp, m. split; nra.
Qed.

(** Ball containing a box: the furthest corner decides. *)
Lemma ball_contains_fold (b : ball R) (a : axisbox R) :
  nsum n (fun i => let f := float_max (nabs (at_ (center b) i - at_ (low a) i)%num) (nabs (at_ (center b) i - at_ (high a) i)%num) in (f * f)%num)
  = Rsum n (fun i => let f := Rmax (Rabs (co (center b) i - co (low a) i)) (Rabs (co (center b) i - co (high a) i)) in f * f).
Proof. rewrite nsum_Rsum. apply Rsum_ext. intros i Hi. rewrite fmax, !at_co. reflexivity. Qed.
Definition furthest (c : pt) (a : axisbox R) : pt :=
  fun i => if Rle_dec (Rabs (c i - co (low a) i)) (Rabs (c i - co (high a) i)) then co (high a) i else co (low a) i.
Lemma furthest_in c a : box_ordered n a -> in_box n a (furthest c a).
Proof. intros O i Hi. specialize (O i Hi). unfold furthest. destruct Rle_dec; lra. Qed.
Lemma furthest_dist c a : dist2 n c (furthest c a) = Rsum n (fun i => let f := Rmax (Rabs (c i - co (low a) i)) (Rabs (c i - co (high a) i)) in f * f).
Proof.
  unfold dist2, norm2, inner. apply Rsum_ext. intros i _. unfold furthest, Rmax. cbn zeta.
  assert (Q : forall x, x * x = Rabs x * Rabs x) by (intros x; unfold Rabs; destruct Rcase_abs; ring).
  destruct Rle_dec; apply Q.
Qed.
Lemma furthest_most c a x : in_box n a x -> dist2 n c x <= dist2 n c (furthest c a).
Proof.
  intros X. rewrite furthest_dist. unfold dist2, norm2, inner. apply Rsum_le. intros i Hi. specialize (X i Hi). cbn zeta.
  assert (Q : forall x, x * x = Rabs x * Rabs x) by (intros y; unfold Rabs; destruct Rcase_abs; ring).
  rewrite Q. assert (Rabs (c i - x i) <= Rmax (Rabs (c i - co (low a) i)) (Rabs (c i - co (high a) i))).
  { unfold Rmax. destruct Rle_dec as [r|r]; unfold Rabs in *; repeat destruct Rcase_abs; lra. }
  pose proof (Rabs_pos (c i - x i)). apply Rmult_le_compat; auto.
Qed.
Lemma ball_contains_box (b : ball R) a : box_ordered n a -> 
  (c_ball_box n b a false = true <-> forall x, in_box n a x -> dist2 n (co (center b)) x <= radius b * radius b * (1 + eps)).
Proof.
  intros O. unfold c_ball_box. rewrite ball_contains_fold, <- (furthest_dist (co (center b)) a), less_eq_false. cbn [nmul nadd n1 nofZ neps Rnum].
  split.
  - intros E x X. pose proof (furthest_most (co (center b)) a x X). lra.
  - intros E. apply E. now apply furthest_in.
Qed.
Lemma ball_contains_box_proper (b : ball R) a : box_ordered n a -> 
  (c_ball_box n b a true = true <-> forall x, in_box n a x -> dist2 n (co (center b)) x < radius b * radius b * (1 + eps)).
Proof.
  intros O. unfold c_ball_box. rewrite ball_contains_fold, <- (furthest_dist (co (center b)) a), less_eq_proper. cbn [nmul nadd n1 nofZ neps Rnum].
  split.
  - intros E x X. pose proof (furthest_most (co (center b)) a x X). lra.
  - intros E. apply E. now apply furthest_in.
Qed.

(** Box containing a ball: the extreme points along the axes decide. *)
Lemma extreme_point (c : pt) r i : (i < n)%nat -> 0 <= r ->
  dist n c (fun j => c j + r * delta i j) = r /\ dist n c (fun j => c j - r * delta i j) = r.
Proof.
  intros Hi Hr. rewrite !dist_norm.
  assert (U : norm n (fun j => delta i j) = 1).
  { unfold norm, norm2, inner. rewrite Rsum_delta_l by auto. rewrite delta_same. apply sqrt_1. }
  split.
  - rewrite (norm_ext n _ (fun j => (- r) * delta i j)) by (intros; ring). rewrite norm_scal, Rabs_Ropp, Rabs_pos_eq by auto. change (r * norm n (fun j => delta i j) = r). rewrite U. ring.
  - rewrite (norm_ext n _ (fun j => r * delta i j)) by (intros; ring). rewrite norm_scal, Rabs_pos_eq by auto. change (r * norm n (fun j => delta i j) = r). rewrite U. ring.
Qed.
Lemma box_contains_ball (a : axisbox R) b : 0 <= radius b ->
  (c_box_ball n a b false = true <-> incl (in_ball n b) (near_box n eps a)).
Proof.
  intros Hr. unfold c_box_ball. rewrite all_below_iff. split.
  - intros E x X i Hi. specialize (E i Hi). apply neg_or in E. rewrite less_false, greater_false, !at_co in E. cbn [nsub nadd Rnum] in E.
    unfold in_ball in X. pose proof (coord_le_dist n (co (center b)) x i Hi). pose proof (Rabs_le_inv _ _ (Rle_trans _ _ _ H X)). lra.
  - intros I i Hi. apply neg_or. rewrite less_false, greater_false, !at_co. cbn [nsub nadd Rnum].
    destruct (extreme_point (co (center b)) (radius b) i Hi Hr) as [P M].
    pose proof (I (fun j => co (center b) j + radius b * delta i j)) as IP. pose proof (I (fun j => co (center b) j - radius b * delta i j)) as IM.
    unfold in_ball in IP, IM. specialize (IP ltac:(lra) i Hi). specialize (IM ltac:(lra) i Hi). cbn beta in IP, IM. rewrite delta_same in IP, IM. lra.
Qed.
Lemma box_contains_ball_proper (a : axisbox R) b : 0 <= radius b ->
  (c_box_ball n a b true = true <-> incl (in_ball n b) (in_box_open n a)).
Proof.
  intros Hr. unfold c_box_ball. rewrite all_below_iff. split.
  - intros E x X i Hi. specialize (E i Hi). apply neg_or in E. rewrite less_proper, greater_proper, !at_co in E. cbn [nsub nadd Rnum] in E.
    unfold in_ball in X. pose proof (coord_le_dist n (co (center b)) x i Hi). pose proof (Rabs_le_inv _ _ (Rle_trans _ _ _ H X)). lra.
  - intros I i Hi. apply neg_or. rewrite less_proper, greater_proper, !at_co. cbn [nsub nadd Rnum].
    destruct (extreme_point (co (center b)) (radius b) i Hi Hr) as [P M].
    pose proof (I (fun j => co (center b) j + radius b * delta i j)) as IP. pose proof (I (fun j => co (center b) j - radius b * delta i j)) as IM.
    unfold in_ball in IP, IM. specialize (IP ltac:(lra) i Hi). specialize (IM ltac:(lra) i Hi). cbn beta in IP, IM. rewrite delta_same in IP, IM. lra.
Qed.
End R.

Lemma sqd0 n (p q : coords R) : squared_distance (H := Rnum 0) n p q = dist2 n (co p) (co q).
Proof. rewrite (sqd_def 0). unfold scale_eps_arr. rewrite (scale_eps_eps0 0). rewrite Rle_bool_true by apply norm2_nonneg. reflexivity. Qed.

(** ** Doubles: the order of the operands does not matter *)
Section D.
Variable m : libm.
Lemma SFmul_sqr_abs x y : SFabs x = SFabs y -> SFmul prec64 emax64 x x = SFmul prec64 emax64 y y.
Proof.
  destruct x as [[]|[]| |[] mx ex], y as [[]|[]| |[] my ey]; intros E; try discriminate; try reflexivity; injection E as -> ->; reflexivity.
Qed.
Lemma SFadd_comm x y : SFadd prec64 emax64 x y = SFadd prec64 emax64 y x.
Proof.
  destruct x as [sx|sx| |sx mx ex], y as [sy|sy| |sy my ey]; try reflexivity; try (destruct sx, sy; reflexivity).
  unfold SFadd. rewrite (Z.min_comm ex ey), Z.add_comm. reflexivity.
Qed.
Lemma sqd_b64_sym n p q : squared_distance (H := B64 m) n p q = squared_distance (H := B64 m) n q p.
Proof.
  unfold squared_distance.
  assert (E : nsum (H := B64 m) n (fun i => let diff := nsub (Num := B64 m) (at_ (H := B64 m) p i) (at_ (H := B64 m) q i) in nmul (Num := B64 m) diff diff)
            = nsum (H := B64 m) n (fun i => let diff := nsub (Num := B64 m) (at_ (H := B64 m) q i) (at_ (H := B64 m) p i) in nmul (Num := B64 m) diff diff)).
  { unfold nsum. generalize (n0 (H := B64 m)). induction (seq 0 n) as [|i l IH]; intros acc; cbn [fold_left]; auto.
    rewrite IH. f_equal. cbn [nsub nmul nadd B64]. f_equal. apply SFmul_sqr_abs, abs_sub_sym. }
  cbv zeta in *. rewrite E. unfold scale_eps_arr. rewrite scale_eps_b64_sym by apply max_abs_b64. reflexivity.
Qed.
Lemma ball_ball_b64_sym n a b proper : i_ball_ball (H := B64 m) n a b proper = i_ball_ball (H := B64 m) n b a proper.
Proof.
  unfold i_ball_ball. rewrite sqd_b64_sym. cbn [nadd B64]. rewrite SFadd_comm. reflexivity.
Qed.
End D.
