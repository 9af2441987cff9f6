(** Segments against balls and segments: proofs (exact comparisons). *)
From Coq Require Import ZArith NArith Reals Bool List Lia Lra Psatz.
From Flocq Require Import Core.Raux.
From Verif Require Import Base Scalar ConstModel VecModel RotModel QuatModel ShapeModel IntersectModel RSpec VecSpec RotSpec ShapeSpec RLib OrdLib ConstProofs VecProofs VecProofs4 ShapeProofs ShapeProofs2 ShapeProofs3 BallProofs SegProofs SegProofs2.
Import ListNotations.
Open Scope R_scope.

Lemma dist2_ext' n a b c : pteq n b c -> dist2 n a b = dist2 n a c.
Proof. intros E. unfold dist2, norm2. apply inner_ext; intros i Hi; now rewrite E. Qed.

Section Z.
Variable n : nat.
Existing Instance Ez.
Notation dif a b := (fun i => a i - b i).

Lemma seg_contains_box_proper s b : ~ pteq n (co (end1 s)) (co (end2 s)) -> box_ordered n b ->
  (c_seg_box n s b true = true <-> incl (in_box n b) (in_segment_open n s)).
Proof.
  intros Ne O. unfold c_seg_box. pose proof (box_axes n b) as A. destruct (box_ends' n b O) as [Lo Hi'].
  destruct (fold_left _ _ _) as [[]|].
  - destruct A as (k & Hk & F). rewrite andb_true_iff, !seg_point_proper by auto. split; [|intros I; split; now apply I].
    intros [L H] x X. apply (on_convex_open n _ _ _ _ x L H). eapply thin_box; eauto.
  - rewrite andb_true_r, seg_point_proper by auto. split; [|intros I; now apply I]. intros L x X. apply (on_open_ext n _ _ (co (low b))); auto.
    intros i Hi. symmetry. now apply (flat_box n b x).
  - split; [discriminate|]. intros I. exfalso. destruct A as (i & j & Hi & Hj & Nij & Di & Dj).
    assert (W : forall x, in_box n b x -> on n (co (end1 s)) (co (end2 s)) x).
    { intros x X. destruct (I x X) as (t & Ht & E). exists t. split; [lra|auto]. }
    apply (not_collinear n (co (end1 s)) (co (end2 s)) (co (low b)) i j (co (high b) i - co (low b) i) (co (high b) j - co (low b) j)); auto; try lra;
      apply W; now apply corner_step.
Qed.

(** ** Ball *)
Lemma dist2_at (s : segment R) (c : pt) t : let L := fun i => co (end2 s) i - co (end1 s) i in let o := fun i => c i - co (end1 s) i in
  dist2 n c (seg_at s t) = norm2 n o - 2 * t * inner n L o + t * t * norm2 n L.
Proof.
  intros L o. unfold dist2. unfold norm2.
  rewrite (inner_ext n _ _ (fun i => o i - t * L i) (fun i => o i - t * L i)) by (intros i Hi; unfold o, L, seg_at; ring).
  pose proof (norm2_minus n o (fun i => t * L i)) as Q. unfold norm2 in Q. rewrite Q. rewrite inner_scal_r. rewrite inner_scal_l, inner_scal_r. rewrite (inner_comm n o L). ring.
Qed.
Lemma cmp_ball_point (b : ball R) p proper : i_ball_point n b p proper = less_eq_ (dist2 n (co (center b)) (co p)) (radius b * radius b) proper.
Proof. unfold i_ball_point. unfold Ez. rewrite (sqd0 n). cbn [nmul nadd n1 nofZ neps Rnum]. unfold n1, epsilon, Ez. cbn [nofZ Rnum]. f_equal. change (IZR 1) with 1. ring. Qed.
Lemma seg_ball_nearest s (b : ball R) : exists t0, 0 <= t0 <= 1 /\
  (forall proper, i_seg_ball n s b proper = less_eq_ (dist2 n (co (center b)) (seg_at s t0)) (radius b * radius b) proper) /\
  (forall t, 0 <= t <= 1 -> dist2 n (co (center b)) (seg_at s t0) <= dist2 n (co (center b)) (seg_at s t)).
Proof.
  set (c := co (center b)). set (L := fun i => co (end2 s) i - co (end1 s) i). set (o := fun i => c i - co (end1 s) i).
  pose proof (dist2_at s c) as D. cbn zeta in D. fold L o in D. set (P := inner n L o) in *. set (N := norm2 n L) in *.
  assert (E : forall proper, i_seg_ball n s b proper = if Rle_bool P 0 then less_eq_ (dist2 n c (co (end1 s))) (radius b * radius b) proper
     else if Rle_bool N P then less_eq_ (dist2 n c (co (end2 s))) (radius b * radius b) proper
     else less_eq_ (dist2 n c (seg_at s (P / N))) (radius b * radius b) proper).
  { intros proper. unfold i_seg_ball. rewrite dot_sub. fold c L o P. rewrite sqr_sub. fold L N. cbn [nleb Rnum]. unfold n0. cbn [nofZ Rnum]. change (IZR 0) with 0.
    rewrite !cmp_ball_point. fold c. destruct (Rle_bool P 0); auto. destruct (Rle_bool N P); auto. f_equal. rewrite sqr_mag_norm2. unfold dist2, norm2.
    apply inner_ext; intros i Hi; rewrite sub_co by auto; unfold vec_scale; rewrite co_tab, sub_co, at_co, sub_co by auto; cbn [nmul ndiv Rnum]; unfold seg_at; fold c; ring. }
  pose proof (norm2_nonneg n L) as HN. fold N in HN.
  destruct (Rle_bool_spec P 0) as [P0|P0].
  - exists 0. split; [lra|]. split.
    + intros proper. rewrite E. f_equal. apply dist2_ext'; intros i Hi. unfold seg_at. ring.
    + intros t Ht. rewrite !D. assert (0 <= t * (- P)) by (apply Rmult_le_pos; lra). assert (0 <= t * t * N) by (apply Rmult_le_pos; [apply Rmult_le_pos|]; lra). lra.
  - destruct (Rle_bool_spec N P) as [PN|PN].
    + exists 1. split; [lra|]. split.
      * intros proper. rewrite E. f_equal. apply dist2_ext'; intros i Hi. unfold seg_at. ring.
      * intros t Ht. rewrite !D. assert (0 <= (1 - t) * (2 * P - (1 + t) * N)); [|lra]. apply Rmult_le_pos; [lra|]. assert ((1 + t) * N <= 2 * N) by (apply Rmult_le_compat_r; lra). lra.
    + assert (0 < N) by lra. exists (P / N). split; [split; [left; apply Rdiv_lt_0_compat; lra|apply div_le_1; lra]|]. split; auto.
      intros t Ht. rewrite !D. assert (Q : P / N * N = P) by (field; lra). set (k := P / N) in *.
      assert (0 <= (t - k) * (t - k) * N) by (apply Rmult_le_pos; [apply Rle_0_sqr|lra]). rewrite <- Q. lra.
Qed.
Lemma seg_ball s (b : ball R) : 0 <= radius b -> (i_seg_ball n s b false = true <-> meet (in_segment n s) (in_ball n b)).
Proof.
  intros Hr. destruct (seg_ball_nearest s b) as (t0 & Ht & E & M). rewrite E, less_eq_false. split.
  - intros L. exists (seg_at s t0). split; [exists t0; split; auto; intros i Hi; reflexivity|]. now apply in_ball_sqr.
  - intros (x & (t & Ht' & X) & B). apply in_ball_sqr in B; auto. specialize (M t Ht').
    rewrite (dist2_ext' n _ x (seg_at s t)) in B by auto. lra.
Qed.
Lemma seg_ball_proper s (b : ball R) : 0 <= radius b -> (i_seg_ball n s b true = true <-> meet (in_segment_open n s) (in_ball_open n b)).
Proof.
  intros Hr. destruct (seg_ball_nearest s b) as (t0 & Ht & E & M). rewrite E, less_eq_proper. split.
  - intros L. set (c := co (center b)) in *.
    assert (X : dist n c (seg_at s t0) < radius b) by (unfold dist; apply sqrt_lt_iff; auto; apply dist2_nonneg).
    set (g := radius b - dist n c (seg_at s t0)). set (m := seg_at s (1 / 2)). pose proof (dist_nonneg n c m). pose proof (dist_nonneg n c (seg_at s t0)).
    set (u := g / (g + dist n c m + 1)). assert (0 < g) by (unfold g; lra).
    assert (U : 0 < u < 1) by (unfold u; split; [apply Rdiv_lt_0_compat; lra|apply div_lt_1; lra]).
    exists (lerp (seg_at s t0) m u). split.
    + exists ((1 - u) * t0 + u * (1 / 2)). split.
      * pose proof (Rmult_le_pos (1 - u) t0 ltac:(lra) ltac:(lra)). pose proof (Rmult_le_pos (1 - u) (1 - t0) ltac:(lra) ltac:(lra)). lra.
      * intros i Hi. unfold lerp, m, seg_at. field.
    + unfold in_ball_open. fold c. eapply Rle_lt_trans; [apply dist_lerp_bound; lra|].
      assert (u * dist n c m < g). { unfold u. replace (g / (g + dist n c m + 1) * dist n c m) with (g * (dist n c m / (g + dist n c m + 1))) by (field; lra).
        rewrite <- (Rmult_1_r g) at 3. apply Rmult_lt_compat_l; auto. apply div_lt_1; lra. }
      assert (0 <= u * dist n c (seg_at s t0)) by (apply Rmult_le_pos; lra). unfold g in H2. lra.
  - intros (x & (t & Ht' & X) & B). apply in_ball_open_sqr in B; auto. specialize (M t ltac:(lra)).
    rewrite (dist2_ext' n _ x (seg_at s t)) in B by auto. lra.
Qed.
Lemma ball_contains_seg (b : ball R) s : 0 <= radius b -> (c_ball_seg n b s false = true <-> incl (in_segment n s) (in_ball n b)).
Proof.
  intros Hr. unfold c_ball_seg. rewrite andb_true_iff, !cmp_ball_point, !less_eq_false, <- !in_ball_sqr by auto. split.
  - intros [A B] x (t & Ht & E). unfold in_ball in *. rewrite (dist_ext n _ x (co (center b)) (lerp (co (end1 s)) (co (end2 s)) t)) by (auto; intros i Hi; reflexivity).
    eapply Rle_trans; [now apply dist_lerp_bound|]. nra.
  - intros I. split; apply I; apply (on_ends n (co (end1 s)) (co (end2 s))).
Qed.
Lemma ball_contains_seg_proper (b : ball R) s : 0 <= radius b -> (c_ball_seg n b s true = true <-> incl (in_segment n s) (in_ball_open n b)).
Proof.
  intros Hr. unfold c_ball_seg. rewrite andb_true_iff, !cmp_ball_point, !less_eq_proper, <- !in_ball_open_sqr by auto. split.
  - intros [A B] x (t & Ht & E). unfold in_ball_open in *. rewrite (dist_ext n _ x (co (center b)) (lerp (co (end1 s)) (co (end2 s)) t)) by (auto; intros i Hi; reflexivity).
    eapply Rle_lt_trans; [now apply dist_lerp_bound|].
    pose proof (mix_pos t (radius b - dist n (co (center b)) (co (end1 s))) (radius b - dist n (co (center b)) (co (end2 s))) Ht ltac:(lra) ltac:(lra)). lra.
  - intros I. split; apply I; apply (on_ends n (co (end1 s)) (co (end2 s))).
Qed.
(** In two and more dimensions a segment contains only balls of radius 0. *)
Lemma seg_contains_ball s (b : ball R) : (2 <= n)%nat -> 0 <= radius b -> (c_seg_ball n s b false = true <-> incl (in_ball n b) (in_segment n s)).
Proof.
  intros Hn Hr. unfold c_seg_ball. rewrite andb_true_iff, seg_point. unfold n0. cbn [neqb nofZ Rnum]. rewrite Reqb_iff. change (IZR 0) with 0. split.
  - intros [Z I] x X. unfold in_ball in X. rewrite Z in X. pose proof (dist_nonneg n (co (center b)) x). assert (Q : dist n (co (center b)) x = 0) by lra. apply dist_0 in Q.
    now apply (on_ext n _ _ (co (center b))).
  - intros I. assert (C : in_segment n s (co (center b))) by (apply I; unfold in_ball; rewrite dist_refl; auto). split; auto.
    destruct (Req_dec (radius b) 0) as [|NZ]; auto. exfalso.
    apply (not_collinear n (co (end1 s)) (co (end2 s)) (co (center b)) 0 1 (radius b) (radius b)); auto; try lia;
      apply I; unfold in_ball; right; apply extreme_point; auto; lia.
Qed.
Lemma seg_contains_ball_proper s (b : ball R) : ~ pteq n (co (end1 s)) (co (end2 s)) -> (2 <= n)%nat -> 0 <= radius b ->
  (c_seg_ball n s b true = true <-> incl (in_ball n b) (in_segment_open n s)).
Proof.
  intros Ne Hn Hr. unfold c_seg_ball. rewrite andb_true_iff, seg_point_proper by auto. unfold n0. cbn [neqb nofZ Rnum]. rewrite Reqb_iff. change (IZR 0) with 0. split.
  - intros [Z I] x X. unfold in_ball in X. rewrite Z in X. pose proof (dist_nonneg n (co (center b)) x). assert (Q : dist n (co (center b)) x = 0) by lra. apply dist_0 in Q.
    now apply (on_open_ext n _ _ (co (center b))).
  - intros I. assert (C : in_segment_open n s (co (center b))) by (apply I; unfold in_ball; rewrite dist_refl; auto). split; auto.
    destruct (Req_dec (radius b) 0) as [|NZ]; auto. exfalso.
    assert (W : forall x, in_ball n b x -> on n (co (end1 s)) (co (end2 s)) x) by (intros x X; destruct (I x X) as (t & Ht & E); exists t; split; [lra|auto]).
    apply (not_collinear n (co (end1 s)) (co (end2 s)) (co (center b)) 0 1 (radius b) (radius b)); auto; try lia;
      apply W; unfold in_ball; try (rewrite dist_refl; lra); right; apply extreme_point; auto; lia.
Qed.

(** ** Segment in a segment, point *)
Lemma seg_contains_seg s1 s2 : c_seg_seg n s1 s2 false = true <-> incl (in_segment n s2) (in_segment n s1).
Proof.
  unfold c_seg_seg. rewrite andb_true_iff, !seg_point. split.
  - intros [A B] x X. exact (on_convex n _ _ _ _ x A B X).
  - intros I. split; apply I; apply (on_ends n (co (end1 s2)) (co (end2 s2))).
Qed.
Lemma seg_contains_seg_proper s1 s2 : ~ pteq n (co (end1 s1)) (co (end2 s1)) -> (c_seg_seg n s1 s2 true = true <-> incl (in_segment n s2) (in_segment_open n s1)).
Proof.
  intros Ne. unfold c_seg_seg. rewrite andb_true_iff, !seg_point_proper by auto. split.
  - intros [A B] x X. exact (on_convex_open n _ _ _ _ x A B X).
  - intros I. split; apply I; apply (on_ends n (co (end1 s2)) (co (end2 s2))).
Qed.
End Z.
