(** A segment against a point, with any comparison epsilon: proofs. *)
From Coq Require Import ZArith NArith Reals Bool List Lia Lra Psatz.
From Verif Require Import Base Scalar ConstModel VecModel RotModel QuatModel ShapeModel IntersectModel RSpec VecSpec RotSpec ShapeSpec RLib OrdLib ConstProofs VecProofs VecProofs4 ShapeProofs ShapeProofs2 ShapeProofs3 BallProofs SegProofs.
Import ListNotations.
Open Scope R_scope.

Section Tol.
Variable eps : R.
Variable n : nat.
Hypothesis Hn : (0 < n)%nat.
Hypothesis He : 0 < eps <= 1 / 16.
Local Instance E : Num R := Rnum eps.

Lemma bound_norm (v : coords R) : bounded_by n v (norm n (co v)).
Proof.
  intros i Hi. unfold norm. rewrite <- sqrt_Rsqr_abs. apply sqrt_le_1_alt. apply norm2_coord_le. exact Hi.
Qed.
Lemma sub_e (a b : point R) : forall i, (i < n)%nat -> co (vec_sub n a b) i = co a i - co b i.
Proof. intros i Hi. apply (sub_co eps); auto. Qed.
Lemma sqr_e (a b : point R) : sqr_mag n (vec_sub n a b) = norm2 n (fun i => co a i - co b i).
Proof. rewrite (sqr_mag_norm2 eps n). unfold norm2. apply inner_ext; intros; now apply sub_e. Qed.

Variables (s : segment R) (p : point R).
Let a := co (end1 s). Let b := co (end2 s). Let q := co p.
Let I := inner n (fun i => a i - q i) (fun i => b i - q i).
Let m1 := norm2 n (fun i => a i - q i). Let m2 := norm2 n (fun i => b i - q i).
Let d := dot n (vec_sub n (end1 s) p) (vec_sub n (end2 s) p).

Lemma unfold_it proper : i_seg_point n s p proper = if greater_ d n0 proper then false else equal (d * d) (m1 * m2) eps.
Proof. unfold i_seg_point. fold d. rewrite !sqr_e. fold a b q. fold m1 m2. cbn [nmul neps Rnum E]. reflexivity. Qed.
Lemma d_cases : d = I \/ d = 0.
Proof.
  unfold d, I. destruct (dot_exact_or_zero eps n (vec_sub n (end1 s) p) (vec_sub n (end2 s) p)) as [X|X]; [left|right; exact X].
  etransitivity; [exact X|]. apply inner_ext; intros; now apply sub_e.
Qed.
Lemma d_err : Rabs (d - I) <= 2 * eps * Rmin (sqrt m1) (sqrt m2).
Proof.
  pose proof (dot_error eps n (vec_sub n (end1 s) p) (vec_sub n (end2 s) p) _ _ Hn ltac:(lra) ltac:(unfold dims, vec_sub; apply tab_length) ltac:(unfold dims, vec_sub; apply tab_length) (bound_norm _) (bound_norm _)) as X.
  fold d in X. unfold norm in X. rewrite <- !(sqr_mag_norm2 eps n), !sqr_e in X. fold a b q in X. fold m1 m2 in X.
  replace (inner n (co (vec_sub n (end1 s) p)) (co (vec_sub n (end2 s) p))) with I in X; [exact X|]. apply inner_ext; intros; symmetry; now apply sub_e.
Qed.
Lemma m1_pos : 0 <= m1. Proof. apply norm2_nonneg. Qed.
Lemma m2_pos : 0 <= m2. Proof. apply norm2_nonneg. Qed.
Lemma cs : I * I <= m1 * m2. Proof. apply cauchy_schwarz. Qed.

Lemma complete : in_segment n s q -> i_seg_point n s p false = true.
Proof.
  intros Hs. destruct (proj2 (seg_point_geo n a b q) Hs) as [L C]. fold I m1 m2 in L, C. rewrite unfold_it.
  assert (G : greater_ d n0 false = false).
  { apply (greater_false eps). unfold n0. cbn [nofZ Rnum E]. unfold epsilon. destruct d_cases as [-> | ->]; lra. }
  rewrite G. destruct d_cases as [D|D].
  - rewrite D, C. apply (equal_R_refl eps). lra.
  - rewrite D. replace (0 * 0) with 0 by ring. apply (equal_R_zero eps); [now left|].
    rewrite <- C. pose proof d_err as X. rewrite D in X. replace (0 - I) with (- I) in X by ring. rewrite Rabs_Ropp in X.
    pose proof m1_pos as P1. pose proof m2_pos as P2.
    set (A := sqrt m1) in *. set (B := sqrt m2) in *.
    assert (PA : 0 <= A) by apply sqrt_pos. assert (PB : 0 <= B) by apply sqrt_pos.
    assert (EA : A * A = m1) by (apply sqrt_sqrt; auto). assert (EB : B * B = m2) by (apply sqrt_sqrt; auto).
    assert (EI : Rabs I = A * B).
    { rewrite <- (sqrt_Rsqr (Rabs I)) by apply Rabs_pos. rewrite <- Rsqr_abs. unfold Rsqr. rewrite C. unfold A, B. apply sqrt_mult; auto. }
    replace (0 - I * I) with (- (Rabs I * Rabs I)) by (rewrite <- Rabs_mult, Rabs_right by nra; ring).
    rewrite Rabs_Ropp, Rabs_right by (pose proof (Rabs_pos I); nra). rewrite EI in *.
    assert (AB : A * B <= 4 * eps * eps).
    { destruct (Req_dec A 0) as [Z|NA]; [rewrite Z; nra|]. destruct (Req_dec B 0) as [Z|NB]; [rewrite Z; nra|].
      unfold Rmin in X. destruct (Rle_dec A B).
      - assert (B <= 2 * eps) by (apply Rmult_le_reg_l with A; lra). nra.
      - assert (A <= 2 * eps) by (apply Rmult_le_reg_l with B; lra). nra. }
    assert (0 <= A * B) by nra. assert (4 * eps * eps <= eps / 4) by nra. assert (A * B * (A * B) <= (eps / 4) * (eps / 4)) by (apply Rmult_le_compat; lra). nra.
Qed.

(** The foot of the perpendicular. *)
Lemma near_foot : I <= 0 -> 0 < m1 + m2 -> m1 * m2 - I * I <= 2 * eps * (m1 * m2) -> exists x, in_segment n s x /\ dist2 n q x <= 2 * eps * Rmin m1 m2.
Proof.
  intros LI PM Le. pose proof m1_pos as P1. pose proof m2_pos as P2.
  set (N := m1 + m2 - 2 * I). assert (PN : 0 < N) by (unfold N; lra). set (t := (m1 - I) / N).
  assert (T1 : 1 - t = (m2 - I) / N) by (unfold t, N in *; field; lra).
  assert (T : 0 <= t <= 1).
  { assert (0 <= (m2 - I) / N) by (apply Rmult_le_pos; [lra|left; now apply Rinv_0_lt_compat]).
    assert (0 <= t) by (unfold t; apply Rmult_le_pos; [lra|left; now apply Rinv_0_lt_compat]). lra. }
  exists (seg_at s t). split; [exists t; split; [exact T|intros i Hi; reflexivity]|].
  assert (Q : dist2 n q (seg_at s t) = (m1 * m2 - I * I) / N).
  { unfold dist2. transitivity (norm2 n (fun i => (1 - t) * (a i - q i) - (- t) * (b i - q i))).
    - unfold norm2. transitivity (inner n (fun i => (-1) * ((1 - t) * (a i - q i) - - t * (b i - q i))) (fun i => (-1) * ((1 - t) * (a i - q i) - - t * (b i - q i)))).
      + apply inner_ext; intros i Hi; unfold seg_at; fold a b; ring.
      + rewrite inner_scal_l, inner_scal_r. ring.
    - rewrite norm2_minus, !norm2_scal, inner_scal_l, inner_scal_r. fold m1 m2 I. rewrite T1. unfold t. unfold N in *. field. lra. }
  rewrite Q. apply Rmult_le_reg_r with N; [exact PN|]. unfold Rdiv. rewrite Rmult_assoc, Rinv_l, Rmult_1_r by lra.
  assert (M : m1 * m2 <= Rmin m1 m2 * N).
  { unfold N, Rmin. destruct (Rle_dec m1 m2); nra. }
  nra.
Qed.
Lemma sound proper : i_seg_point n s p proper = true ->
  (exists x, in_segment n s x /\ dist2 n q x <= 2 * eps * Rmin m1 m2) \/ m1 * m2 <= eps.
Proof.
  rewrite unfold_it. destruct (greater_ d n0 proper) eqn:G; [discriminate|]. intros Eq.
  pose proof m1_pos as P1. pose proof m2_pos as P2. pose proof cs as CS.
  assert (Ld : d <= eps).
  { destruct proper; [apply (greater_proper eps) in G; unfold n0 in G; cbn [nofZ Rnum E] in G; lra|
      apply (greater_false eps) in G; unfold n0 in G; cbn [nofZ Rnum E] in G; lra]. }
  destruct (Req_dec (m1 * m2) 0) as [Z|NZ]; [right; lra|]. assert (0 < m1 * m2) by nra.
  destruct (Req_dec d 0) as [D0|ND].
  { right. rewrite D0 in Eq. apply (equal_R_zero eps) in Eq; [|left; ring]. replace (0 * 0 - m1 * m2) with (- (m1 * m2)) in Eq by ring.
    rewrite Rabs_Ropp, Rabs_right in Eq by lra. exact Eq. }
  destruct d_cases as [D|D]; [|contradiction]. rewrite D in *.
  assert (0 < I * I) by nra.
  apply (equal_R_upper eps) in Eq; [|lra|nra|lra]. rewrite (Rabs_right (I * I)), (Rabs_right (m1 * m2)) in Eq by lra.
  rewrite Rmin_left in Eq by lra. rewrite Rabs_minus_sym, Rabs_right in Eq by lra.
  destruct (Rle_or_lt I 0) as [LI|PI]; [left|right; nra].
  apply near_foot; nra.
Qed.
(** With [proper] the product is negative, so it is not the clamped zero. *)
Lemma sound_proper : i_seg_point n s p true = true -> exists x, in_segment n s x /\ dist2 n q x <= 2 * eps * Rmin m1 m2.
Proof.
  rewrite unfold_it. destruct (greater_ d n0 true) eqn:G; [discriminate|]. intros Eq.
  apply (greater_proper eps) in G. unfold n0 in G. cbn [nofZ Rnum E] in G.
  pose proof m1_pos as P1. pose proof m2_pos as P2. pose proof cs as CS.
  destruct d_cases as [D|D]; [|lra]. rewrite D in *. assert (0 < I * I) by nra.
  apply (equal_R_upper eps) in Eq; [|lra|nra|nra]. rewrite (Rabs_right (I * I)), (Rabs_right (m1 * m2)) in Eq by lra.
  rewrite Rmin_left in Eq by lra. rewrite Rabs_minus_sym, Rabs_right in Eq by lra. apply near_foot; nra.
Qed.
Lemma complete_proper : in_segment_open n s q -> 4 * eps * eps < Rmax m1 m2 -> i_seg_point n s p true = true.
Proof.
  intros (t & Ht & Et) Far. assert (Hs : in_segment n s q) by (exists t; split; [lra|exact Et]).
  destruct (proj2 (seg_point_geo n a b q) Hs) as [L C]. fold I m1 m2 in L, C.
  destruct (at_t n a b q t Et) as (EI & E1 & E2). fold I m1 m2 in EI, E1, E2. set (N := norm2 n (fun i => b i - a i)) in *.
  assert (PN : 0 < N).
  { pose proof (norm2_nonneg n (fun i => b i - a i)) as PN. fold N in PN. destruct (Req_dec N 0) as [Z|]; [|lra]. exfalso. rewrite E1, E2, Z, !Rmult_0_r in Far. rewrite Rmax_left in Far by lra. nra. }
  assert (T : 0 < t * (1 - t)) by (apply Rmult_lt_0_compat; lra). assert (NI : I < 0) by nra.
  assert (0 < m1) by (rewrite E1; nra). assert (0 < m2) by (rewrite E2; apply Rmult_lt_0_compat; [nra|lra]).
  assert (D : d = I).
  { destruct d_cases as [D|D]; [exact D|]. exfalso. pose proof d_err as X. rewrite D in X. replace (0 - I) with (- I) in X by ring. rewrite Rabs_Ropp in X.
    set (A := sqrt m1) in *. set (B := sqrt m2) in *.
    assert (PA : 0 < A) by (apply sqrt_lt_R0; auto). assert (PB : 0 < B) by (apply sqrt_lt_R0; auto).
    assert (EA : A * A = m1) by (apply sqrt_sqrt; lra). assert (EB : B * B = m2) by (apply sqrt_sqrt; lra).
    assert (EAB : Rabs I = A * B).
    { rewrite <- (sqrt_Rsqr (Rabs I)) by apply Rabs_pos. rewrite <- Rsqr_abs. unfold Rsqr. rewrite C. unfold A, B. apply sqrt_mult; lra. }
    rewrite EAB in X. unfold Rmin in X. unfold Rmax in Far. destruct (Rle_dec A B), (Rle_dec m1 m2).
    - assert (B <= 2 * eps) by (apply Rmult_le_reg_l with A; lra). nra.
    - assert (B <= 2 * eps) by (apply Rmult_le_reg_l with A; lra). nra.
    - assert (A <= 2 * eps) by (apply Rmult_le_reg_l with B; lra). nra.
    - assert (A <= 2 * eps) by (apply Rmult_le_reg_l with B; lra). nra. }
  rewrite unfold_it. assert (G : greater_ d n0 true = false).
  { apply (greater_proper eps). unfold n0. cbn [nofZ Rnum E]. lra. }
  rewrite G, D, C. apply (equal_R_refl eps). lra.
Qed.
End Tol.
