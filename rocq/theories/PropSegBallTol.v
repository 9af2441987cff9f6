(** C44: a segment against a ball, with any comparison epsilon. *)
From Coq Require Import ZArith NArith Reals Bool List Lia Lra Psatz.
From Flocq Require Import Core.Raux.
From Verif Require Import Base Scalar ConstModel VecModel RotModel QuatModel ShapeModel IntersectModel RSpec VecSpec RotSpec ShapeSpec RLib OrdLib ConstProofs VecProofs VecProofs4 ShapeProofs ShapeProofs2 ShapeProofs3 BallProofs SegProofs SegProofs3 SegPointTol.
Import ListNotations.
Open Scope R_scope.

Section Tol.
Variable eps : Epsilon.
Variable n : nat.
Hypothesis Hn : (0 < n)%nat.
Hypothesis He : 0 <= (eps : R).
Variables (s : segment R) (b : ball R) (B : R).
Hypothesis HB : 1 <= B.
Hypothesis Dc : dims n (center b).
Hypothesis D1 : dims n (end1 s).
Hypothesis D2 : dims n (end2 s).
Hypothesis Bc : bounded_by n (center b) B.
Hypothesis B1 : bounded_by n (end1 s) B.
Hypothesis B2 : bounded_by n (end2 s) B.
Let c := co (center b).
Let L := fun i => co (end2 s) i - co (end1 s) i.
Let o := fun i => c i - co (end1 s) i.
Let I := inner n L o.
Let N := norm2 n L.
Let P := dot n (vec_sub n (end2 s) (end1 s)) (vec_sub n (center b) (end1 s)).
Lemma at0 : dist2 n c (co (end1 s)) = dist2 n c (seg_at s 0). Proof. apply dist2_ext'. intros i Hi. unfold seg_at. ring. Qed.
Lemma at1 : dist2 n c (co (end2 s)) = dist2 n c (seg_at s 1). Proof. apply dist2_ext'. intros i Hi. unfold seg_at. ring. Qed.
Lemma P_cases : P = I \/ P = 0 /\ I * I <= 4 * eps * eps * N.
Proof.
  assert (SL : forall i, (i < n)%nat -> co (vec_sub n (end2 s) (end1 s)) i = L i) by (intros; now apply (sub_co eps)).
  assert (SO : forall i, (i < n)%nat -> co (vec_sub n (center b) (end1 s)) i = o i) by (intros; now apply (sub_co eps)).
  destruct (dot_exact_or_zero eps n (vec_sub n (end2 s) (end1 s)) (vec_sub n (center b) (end1 s))) as [X|X].
  - left. etransitivity; [exact X|]. now apply inner_ext.
  - right. split; [exact X|].
    pose proof (dot_error eps n (vec_sub n (end2 s) (end1 s)) (vec_sub n (center b) (end1 s)) _ _ Hn He ltac:(unfold dims, vec_sub; apply tab_length) ltac:(unfold dims, vec_sub; apply tab_length) (bound_norm n _) (bound_norm n _)) as Q.
    rewrite X in Q. rewrite (inner_ext n _ _ L o SL SO) in Q. fold I in Q. replace (0 - I) with (- I) in Q by ring. rewrite Rabs_Ropp in Q.
    assert (M : Rmin (norm n (co (vec_sub n (end2 s) (end1 s)))) (norm n (co (vec_sub n (center b) (end1 s)))) <= sqrt N).
    { eapply Rle_trans; [apply Rmin_l|]. right. unfold norm. f_equal. unfold N, norm2. now apply inner_ext. }
    assert (PN : 0 <= N) by apply norm2_nonneg. assert (Rabs I <= 2 * eps * sqrt N) by (eapply Rle_trans; [exact Q|]; apply Rmult_le_compat_l; [lra|exact M]).
    replace (I * I) with (Rabs I * Rabs I) by (rewrite <- Rabs_mult; apply Rabs_pos_eq; nra). rewrite <- (sqrt_sqrt N PN). pose proof (Rabs_pos I). replace (4 * eps * eps * (sqrt N * sqrt N)) with (2 * eps * sqrt N * (2 * eps * sqrt N)) by ring. apply Rmult_le_compat; auto.
Qed.
(** The decision is a comparison at a point of the segment that is nearest to the centre, up to 4 eps^2. *)
Lemma decides : exists t0, 0 <= t0 <= 1 /\ (forall t, 0 <= t <= 1 -> dist2 n c (seg_at s t0) <= dist2 n c (seg_at s t) + 4 * eps * eps) /\
  (dist2 n c (seg_at s t0) <= radius b * radius b -> i_seg_ball n s b false = true) /\ (dist2 n c (seg_at s t0) < radius b * radius b -> i_seg_ball n s b true = true) /\
  (forall proper, i_seg_ball n s b proper = true -> dist2 n c (seg_at s t0) <= radius b * radius b * (1 + eps) + 2 * eps * B).
Proof.
  pose proof (dist2_at n s c) as D. cbn zeta in D. fold L o in D. fold I N in D. assert (HN : 0 <= N) by apply norm2_nonneg. assert (RR : 0 <= radius b * radius b * eps) by (apply Rmult_le_pos; [nra|lra]). assert (EB : 0 <= eps * B) by (apply Rmult_le_pos; lra). assert (EE : 0 <= eps * eps) by nra.
  assert (PT : forall p, dims n p -> bounded_by n p B -> (dist2 n c (co p) <= radius b * radius b -> i_ball_point n b p false = true) /\ (dist2 n c (co p) < radius b * radius b -> i_ball_point n b p true = true) /\
     (forall proper, i_ball_point n b p proper = true -> dist2 n c (co p) <= radius b * radius b * (1 + eps) + 2 * eps * B)).
  { intros p Dp Bp. unfold i_ball_point. pose proof (sqd_le eps n (center b) p) as Le. pose proof (sqd_ge eps n (center b) p B He HB Dc Dp Bc Bp) as Ge. fold c in Le, Ge. split; [|split].
    - intros Q. rewrite (less_eq_false eps). cbn [nmul nadd n1 nofZ neps Rnum]. change (IZR 1) with 1. lra.
    - intros Q. rewrite (less_eq_proper eps). cbn [nmul nadd n1 nofZ neps Rnum]. change (IZR 1) with 1. lra.
    - intros [] Q; [rewrite (less_eq_proper eps) in Q|rewrite (less_eq_false eps) in Q]; cbn [nmul nadd n1 nofZ neps Rnum] in Q; change (IZR 1) with 1 in Q; lra. }
  assert (SQ : sqr_mag n (vec_sub n (end2 s) (end1 s)) = N) by apply (sqr_e eps).
  unfold i_seg_ball. fold P. rewrite SQ. cbn [nleb Rnum]. unfold n0. cbn [nofZ Rnum]. change (IZR 0) with 0.
  destruct (Rle_bool_spec P 0) as [P0|P0].
  - exists 0. split; [lra|]. split.
    + intros t Ht. rewrite !D. destruct P_cases as [E|[E Q]].
      * assert (0 <= t * (- I)) by (apply Rmult_le_pos; lra). assert (0 <= t * t * N) by (apply Rmult_le_pos; [apply Rmult_le_pos|]; lra). lra.
      * assert (K : 2 * t * I <= t * t * N + 4 * eps * eps); [|lra]. destruct (Req_dec N 0) as [Z|NZ]; [rewrite Z in *; assert (I = 0) by (clear - Q; nra); rewrite H; lra|]. assert (0 < N) by lra.
        apply Rmult_le_reg_r with N; [lra|]. pose proof (Rle_0_sqr (t * N - I)) as W. unfold Rsqr in W. lra.
    + rewrite <- at0. apply PT; auto.
  - destruct P_cases as [E|[E Q]]; [|lra]. rewrite E in *. destruct (Rle_bool_spec N I) as [PN|PN].
    + exists 1. split; [lra|]. split.
      * intros t Ht. rewrite !D. assert (0 <= (1 - t) * (2 * I - (1 + t) * N)); [|lra]. apply Rmult_le_pos; [lra|]. assert ((1 + t) * N <= 2 * N) by (apply Rmult_le_compat_r; lra). lra.
      * rewrite <- at1. apply PT; auto.
    + assert (0 < N) by lra. exists (I / N). split; [split; [left; apply Rdiv_lt_0_compat; lra|apply div_le_1; lra]|]. split.
      * intros t Ht. rewrite !D. assert (Q : I / N * N = I) by (field; lra). set (k := I / N) in *. assert (0 <= (t - k) * (t - k) * N) by (apply Rmult_le_pos; [apply Rle_0_sqr|lra]). rewrite <- Q. lra.
      * assert (X : sqr_mag n (vec_sub n (vec_sub n (center b) (end1 s)) (vec_scale n (vec_sub n (end2 s) (end1 s)) (ndiv I N))) = dist2 n c (seg_at s (I / N))).
        { rewrite (sqr_mag_norm2 eps n). unfold dist2, norm2. apply inner_ext; intros i Hi; rewrite (sub_co eps) by auto; unfold vec_scale; rewrite co_tab, sub_co, at_co, sub_co by auto; cbn [nmul ndiv Rnum]; unfold seg_at; fold c; ring. }
        rewrite X. split; [intros Q; now rewrite (less_eq_false eps)|]. split; [intros Q; now rewrite (less_eq_proper eps)|].
        intros [] Q; [rewrite (less_eq_proper eps) in Q|rewrite (less_eq_false eps) in Q]; cbn [nmul Rnum] in Q; lra.
Qed.
End Tol.

(** A segment with a point inside the ball by a margin of 4 eps^2 (squared) is accepted; an accepted one has a point in a slightly larger ball. *)
Theorem C44_ball_tolerance : forall (eps : Epsilon) n (s : segment R) (b : ball R) B, (0 < n)%nat -> 0 <= (eps : R) -> 1 <= B ->
  dims n (center b) -> dims n (end1 s) -> dims n (end2 s) -> bounded_by n (center b) B -> bounded_by n (end1 s) B -> bounded_by n (end2 s) B ->
  (forall x, in_segment n s x -> dist2 n (co (center b)) x <= radius b * radius b - 4 * eps * eps -> i_seg_ball (H := Rnum eps) n s b false = true) /\
  (forall x, in_segment n s x -> dist2 n (co (center b)) x < radius b * radius b - 4 * eps * eps -> i_seg_ball (H := Rnum eps) n s b true = true) /\
  (forall proper, i_seg_ball (H := Rnum eps) n s b proper = true -> exists x, in_segment n s x /\ dist2 n (co (center b)) x <= radius b * radius b * (1 + eps) + 2 * eps * B).
Proof.
  intros eps n s b B Hn He HB Dc D1 D2 Bc B1 B2. destruct (decides eps n Hn He s b B HB Dc D1 D2 Bc B1 B2) as (t0 & Ht & M & A1 & A2 & A3). split; [|split].
  - intros x (t & T & E) Q. apply A1. specialize (M t T). rewrite (dist2_ext' n _ x (seg_at s t)) in Q by exact E. lra.
  - intros x (t & T & E) Q. apply A2. specialize (M t T). rewrite (dist2_ext' n _ x (seg_at s t)) in Q by exact E. lra.
  - intros proper Q. exists (seg_at s t0). split; [exists t0; split; [exact Ht|intros i Hi; reflexivity]|]. apply (A3 proper). exact Q.
Qed.
Print Assumptions C44_ball_tolerance.
Example C44_ball_tolerance_example : let s := mkS (mkC [0; 0] true) (mkC [4; 4] true) in let b := mkBall (mkC [2; 1] true) 1 in
  in_segment 2 s (fun _ => 3 / 2) /\ dist2 2 (co (center b)) (fun _ => 3 / 2) < radius b * radius b - 4 * (1 / 100) * (1 / 100) /\ bounded_by 2 (center b) 4 /\ bounded_by 2 (end1 s) 4 /\ bounded_by 2 (end2 s) 4.
Proof.
  cbn zeta. split; [exists (3 / 8); split; [lra|]; intros [|[|i]] Hi; [unfold seg_at, co; cbn; lra|unfold seg_at, co; cbn; lra|lia]|].
  split; [unfold dist2, norm2, inner, co; cbn; lra|]. repeat split; intros [|[|i]] Hi; try lia; unfold co; cbn; apply Rabs_le; lra.
Qed.
