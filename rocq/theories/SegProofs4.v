(** Two segments: proofs (exact comparisons). *)
From Coq Require Import ZArith NArith Reals Bool List Lia Lra Psatz.
From Flocq Require Import Core.Raux.
From Verif Require Import Base Scalar ConstModel VecModel RotModel QuatModel ShapeModel IntersectModel RSpec VecSpec RotSpec ShapeSpec RLib OrdLib ConstProofs VecProofs VecProofs4 ShapeProofs ShapeProofs2 ShapeProofs3 BallProofs SegProofs SegProofs2 SegProofs3.
Import ListNotations.
Open Scope R_scope.

Section G.
Variable n : nat.
Notation dif a b := (fun i => a i - b i).
(** Directions u and v are parallel (or one of them is zero). *)
Definition parallel (u v : pt) : Prop := forall i j, (i < n)%nat -> (j < n)%nat -> u i * v j = u j * v i.

Lemma parallel_sym u v : parallel u v -> parallel v u.
Proof. intros P i j Hi Hj. specialize (P j i Hj Hi). lra. Qed.
Lemma parallel_cs u v : parallel u v -> inner n u v * inner n u v = norm2 n u * norm2 n v.
Proof.
  intros P. unfold norm2, inner. rewrite <- !Rsum_scal_l.
  rewrite (Rsum_ext n _ (fun i => Rsum n (fun j => (u j * v j) * (u i * v i)))).
  - rewrite (Rsum_ext n (fun i => Rsum n (fun j => u j * u j) * (v i * v i)) (fun i => Rsum n (fun j => (u j * u j) * (v i * v i)))) by (intros; now rewrite Rsum_scal_r).
    apply Rsum_ext. intros i Hi. apply Rsum_ext. intros j Hj. specialize (P j i Hj Hi). transitivity ((u j * v i) * (u i * v j)); [ring|]. rewrite <- P. ring.
  - intros i Hi. now rewrite Rsum_scal_r.
Qed.
Lemma parallel_multiple u v : parallel u v -> 0 < norm2 n u -> exists k, forall i, (i < n)%nat -> v i = k * u i.
Proof.
  intros P N. exists (inner n v u / norm2 n u). intros i Hi. pose proof (cs_equal n v u) as C.
  rewrite (parallel_cs v u (parallel_sym _ _ P)) in C. specialize (C eq_refl i Hi). apply Rmult_eq_reg_l with (norm2 n u); [|lra]. rewrite C. field. lra.
Qed.
Lemma zero_dir a b : ~ 0 < norm2 n (dif b a) -> pteq n a b.
Proof.
  intros Z i Hi. pose proof (norm2_nonneg n (dif b a)). assert (E : norm2 n (dif b a) = 0) by lra. pose proof (norm2_zero n _ E i Hi) as Q. cbn beta in Q. lra.
Qed.
Lemma on_rev a b x : on n a b x -> on n b a x.
Proof. intros (t & Ht & E). exists (1 - t). split; [lra|]. intros i Hi. rewrite (E i Hi). unfold lerp. ring. Qed.
Lemma on_open_rev a b x : on_open n a b x -> on_open n b a x.
Proof. intros (t & Ht & E). exists (1 - t). split; [lra|]. intros i Hi. rewrite (E i Hi). unfold lerp. ring. Qed.

(** Parallel segments with a common point: an end of one lies on the other. *)
Lemma collinear_ends a b c d x : parallel (dif b a) (dif d c) -> on n a b x -> on n c d x ->
  on n a b c \/ on n a b d \/ on n c d a.
Proof.
  intros P (t & Ht & Et) (s & Hs & Es). destruct (Rlt_dec 0 (norm2 n (dif b a))) as [N|Z].
  2: { right. right. exists s. split; auto. apply zero_dir in Z. intros i Hi. specialize (Z i Hi). specialize (Et i Hi). specialize (Es i Hi). unfold lerp in *. rewrite <- Z in Et. lra. }
  destruct (parallel_multiple _ _ P N) as [k K].
  assert (C : forall i, (i < n)%nat -> c i = a i + (t - s * k) * (b i - a i)).
  { intros i Hi. specialize (K i Hi). specialize (Et i Hi). specialize (Es i Hi). unfold lerp in *. transitivity (x i - s * (d i - c i)); [lra|]. rewrite K, Et. ring. }
  assert (D : forall i, (i < n)%nat -> d i = a i + (t - s * k + k) * (b i - a i)).
  { intros i Hi. specialize (K i Hi). specialize (C i Hi). transitivity (c i + k * (b i - a i)); [lra|]. rewrite C. ring. }
  set (u := t - s * k) in *.
  destruct (Rle_dec 0 u) as [U0|U0]; [destruct (Rle_dec u 1) as [U1|U1]|].
  - left. exists u. split; [lra|]. intros i Hi. rewrite C by auto. unfold lerp. ring.
  - assert (k < 0) by (unfold u in *; nra). assert (u + k <= 1) by (unfold u in *; nra).
    destruct (Rle_dec 0 (u + k)) as [W|W].
    + right. left. exists (u + k). split; [lra|]. intros i Hi. rewrite D by auto. unfold lerp. ring.
    + right. right. exists (u / - k). split.
      * split; [left; apply Rdiv_lt_0_compat; lra|apply div_le_1; lra].
      * intros i Hi. unfold lerp. rewrite (D i Hi), (C i Hi). field. lra.
  - assert (0 < k) by (unfold u in *; nra). assert (0 <= u + k) by (unfold u in *; nra).
    destruct (Rle_dec (u + k) 1) as [W|W].
    + right. left. exists (u + k). split; [lra|]. intros i Hi. rewrite D by auto. unfold lerp. ring.
    + right. right. exists (- u / k). split.
      * split; [left; apply Rdiv_lt_0_compat; lra|apply div_le_1; lra].
      * intros i Hi. unfold lerp. rewrite (D i Hi), (C i Hi). field. lra.
Qed.

(** Open version: an end inside the other, or the same two ends. *)
Lemma collinear_open a b c d x : parallel (dif b a) (dif d c) -> 0 < norm2 n (dif b a) -> 0 < norm2 n (dif d c) -> on_open n a b x -> on_open n c d x ->
  on_open n a b c \/ on_open n a b d \/ on_open n c d a \/ on_open n c d b \/ (pteq n a c /\ pteq n b d) \/ (pteq n a d /\ pteq n b c).
Proof.
  intros P N N' (t & Ht & Et) (s & Hs & Es).
  destruct (parallel_multiple _ _ P N) as [k K].
  assert (C : forall i, (i < n)%nat -> c i = a i + (t - s * k) * (b i - a i)).
  { intros i Hi. specialize (K i Hi). specialize (Et i Hi). specialize (Es i Hi). unfold lerp in *. transitivity (x i - s * (d i - c i)); [lra|]. rewrite K, Et. ring. }
  assert (D : forall i, (i < n)%nat -> d i = a i + (t - s * k + k) * (b i - a i)).
  { intros i Hi. specialize (K i Hi). specialize (C i Hi). transitivity (c i + k * (b i - a i)); [lra|]. rewrite C. ring. }
  assert (Tu : t = (t - s * k) + s * k) by ring.
  set (u := t - s * k) in *. clearbody u.
  assert (Kn : k <> 0).
  { intros ->. unfold norm2 in N'. rewrite (inner_ext n _ _ (fun _ => 0) (fun _ => 0)) in N' by (intros i Hi; rewrite K by auto; ring).
    unfold inner in N'. rewrite Rsum_zero in N' by (intros; ring). lra. }
  destruct (Rlt_dec 0 u) as [U0|U0]; [destruct (Rlt_dec u 1) as [U1|U1]|].
  - left. exists u. split; [lra|]. intros i Hi. rewrite C by auto. unfold lerp. ring.
  - right. assert (k < 0) by nra. assert (u + k < 1) by nra.
    destruct (Rlt_dec 0 (u + k)) as [W|W]; [left; exists (u + k); split; [lra|]; intros i Hi; rewrite D by auto; unfold lerp; ring|]. right.
    destruct (Req_dec (u + k) 0) as [E|E].
    + destruct (Req_dec u 1) as [F|F].
      * right. right. right. split; intros i Hi; [rewrite D by auto; rewrite E; ring|rewrite C by auto; rewrite F; ring].
      * right. left. exists ((u - 1) / - k). split; [split; [apply Rdiv_lt_0_compat; lra|apply div_lt_1; lra]|]. intros i Hi. unfold lerp. rewrite (D i Hi), (C i Hi). field. lra.
    + left. exists (u / - k). split; [split; [apply Rdiv_lt_0_compat; lra|apply div_lt_1; lra]|]. intros i Hi. unfold lerp. rewrite (D i Hi), (C i Hi). field. lra.
  - right. assert (0 < k) by nra. assert (0 < u + k) by nra.
    destruct (Rlt_dec (u + k) 1) as [W|W]; [left; exists (u + k); split; [lra|]; intros i Hi; rewrite D by auto; unfold lerp; ring|]. right.
    destruct (Req_dec u 0) as [E|E].
    + destruct (Req_dec (u + k) 1) as [F|F].
      * right. right. left. split; intros i Hi; [rewrite C by auto; rewrite E; ring|rewrite D by auto; rewrite F; ring].
      * right. left. exists ((1 - u) / k). split; [split; [apply Rdiv_lt_0_compat; lra|apply div_lt_1; lra]|]. intros i Hi. unfold lerp. rewrite (D i Hi), (C i Hi). field. lra.
    + left. exists (- u / k). split; [split; [apply Rdiv_lt_0_compat; lra|apply div_lt_1; lra]|]. intros i Hi. unfold lerp. rewrite (D i Hi), (C i Hi). field. lra.
Qed.
(** An end inside the other segment: the open segments meet. *)
Lemma end_inside a b c d : parallel (dif b a) (dif d c) -> 0 < norm2 n (dif b a) -> on_open n a b c -> exists x, on_open n a b x /\ on_open n c d x.
Proof.
  intros P N (t & Ht & Et). destruct (parallel_multiple _ _ P N) as [k K].
  set (m := Rmin t (1 - t)). assert (M : 0 < m /\ m <= t /\ m <= 1 - t) by (unfold m, Rmin; destruct Rle_dec; lra).
  pose proof (Rabs_pos k) as A. pose proof (Rle_abs k) as B. pose proof (Rle_abs (- k)) as B'. rewrite Rabs_Ropp in B'.
  set (s := m / (2 * (Rabs k + 1))). assert (S : s * (2 * (Rabs k + 1)) = m) by (unfold s; field; lra).
  assert (S0 : 0 < s) by (unfold s; apply Rdiv_lt_0_compat; lra). clearbody s. assert (S1 : s < 1) by nra.
  assert (Q : - m < s * k < m) by (split; nra).
  exists (lerp c d s). split.
  - exists (t + s * k). split; [lra|]. intros i Hi. unfold lerp. specialize (K i Hi). specialize (Et i Hi). unfold lerp in Et. transitivity (c i + s * (d i - c i)); [ring|]. rewrite K, Et. ring.
  - exists s. split; [lra|]. intros i Hi. reflexivity.
Qed.
End G.

Section Z.
Variable n : nat.
Existing Instance Ez.
Notation dif a b := (fun i => a i - b i).

Definition dir (s : segment R) : pt := dif (co (end2 s)) (co (end1 s)).

(** The test unfolded: N1, N2, P, p1, p2, Q are the inner products it uses. *)
Lemma seg_seg_def s1 s2 proper :
  let N1 := norm2 n (dir s1) in let N2 := norm2 n (dir s2) in let P := inner n (dir s1) (dir s2) in
  let dl := dif (co (end1 s2)) (co (end1 s1)) in
  let p1 := inner n (dir s1) dl in let p2 := inner n (dir s2) dl in let denom := N1 * N2 - P * P in
  i_seg_seg n s1 s2 proper =
  if (2 <? n)%nat && negb (equal (N2 * p1 * p1 + N1 * p2 * p2) (2 * P * p1 * p2 + norm2 n dl * denom) 0) then false
  else if Rlt_bool 0 denom then
    let c1 := (N2 * p1 - P * p2) / denom in let c2 := - (N1 * p2 - P * p1) / denom in
    less_eq_ c1 0 proper && less_eq_ c1 1 proper && greater_eq_ c2 0 proper && greater_eq_ c2 1 proper
  else i_seg_point n s1 (end1 s2) proper || i_seg_point n s1 (end2 s2) proper || i_seg_point n s2 (end1 s1) proper || i_seg_point n s2 (end2 s1) proper
       || ((proper && negb (same n (end1 s1) (end2 s1)))
           && ((same n (end1 s1) (end1 s2) && same n (end2 s1) (end2 s2)) || (same n (end1 s1) (end2 s2) && same n (end2 s1) (end1 s2)))).
Proof.
  intros N1 N2 P dl p1 p2 denom. unfold i_seg_seg. rewrite !dot_sub, !sqr_sub. reflexivity.
Qed.
(** Segments whose lines meet pass the coplanarity test. *)
Lemma gram_zero s1 s2 t s : (forall i, (i < n)%nat -> co (end1 s2) i - co (end1 s1) i = t * dir s1 i - s * dir s2 i) ->
  let N1 := norm2 n (dir s1) in let N2 := norm2 n (dir s2) in let P := inner n (dir s1) (dir s2) in
  let dl := dif (co (end1 s2)) (co (end1 s1)) in
  let p1 := inner n (dir s1) dl in let p2 := inner n (dir s2) dl in
  p1 = t * N1 - s * P /\ p2 = t * P - s * N2 /\ norm2 n dl = t * t * N1 - 2 * t * s * P + s * s * N2.
Proof.
  intros E N1 N2 P dl p1 p2. assert (F : forall i, (i < n)%nat -> dl i = t * dir s1 i - s * dir s2 i) by exact E.
  assert (A : p1 = t * N1 - s * P). { unfold p1. rewrite (inner_ext n _ dl (dir s1) (fun i => t * dir s1 i - s * dir s2 i)) by auto.
    rewrite (inner_minus_r n (fun i => t * dir s1 i) (fun i => s * dir s2 i)), !inner_scal_r. reflexivity. }
  assert (B : p2 = t * P - s * N2). { unfold p2. rewrite (inner_ext n _ dl (dir s2) (fun i => t * dir s1 i - s * dir s2 i)) by auto.
    rewrite (inner_minus_r n (fun i => t * dir s1 i) (fun i => s * dir s2 i)), !inner_scal_r. rewrite (inner_comm n (dir s2) (dir s1)). reflexivity. }
  split; [|split]; auto.
  unfold norm2. rewrite (inner_ext n dl dl (fun i => t * dir s1 i - s * dir s2 i) (fun i => t * dir s1 i - s * dir s2 i)) by auto.
  pose proof (norm2_minus n (fun i => t * dir s1 i) (fun i => s * dir s2 i)) as Q. unfold norm2 in Q. rewrite Q. rewrite !inner_scal_l, !inner_scal_r. fold P. unfold N1, N2, norm2. ring.
Qed.
Lemma coplanar_passes s1 s2 t s : (forall i, (i < n)%nat -> co (end1 s2) i - co (end1 s1) i = t * dir s1 i - s * dir s2 i) ->
  let N1 := norm2 n (dir s1) in let N2 := norm2 n (dir s2) in let P := inner n (dir s1) (dir s2) in
  let dl := dif (co (end1 s2)) (co (end1 s1)) in
  let p1 := inner n (dir s1) dl in let p2 := inner n (dir s2) dl in
  equal (N2 * p1 * p1 + N1 * p2 * p2) (2 * P * p1 * p2 + norm2 n dl * (N1 * N2 - P * P)) 0 = true.
Proof.
  intros E N1 N2 P dl p1 p2. destruct (gram_zero s1 s2 t s E) as (A & B & C). fold N1 N2 P dl p1 p2 in A, B, C. apply (equal_R_exact0 0). rewrite A, B, C. ring.
Qed.
Lemma meet_lines s1 s2 t s x : pteq n x (seg_at s1 t) -> pteq n x (seg_at s2 s) -> forall i, (i < n)%nat -> co (end1 s2) i - co (end1 s1) i = t * dir s1 i - s * dir s2 i.
Proof. intros A B i Hi. specialize (A i Hi). specialize (B i Hi). unfold seg_at, dir in *. lra. Qed.

Lemma denom_zero s1 s2 : parallel n (dir s1) (dir s2) ->
  norm2 n (dir s1) * norm2 n (dir s2) - inner n (dir s1) (dir s2) * inner n (dir s1) (dir s2) = 0.
Proof. intros P. rewrite (parallel_cs n _ _ P). ring. Qed.
Lemma seg_seg_parallel s1 s2 : parallel n (dir s1) (dir s2) -> (i_seg_seg n s1 s2 false = true <-> meet (in_segment n s1) (in_segment n s2)).
Proof.
  intros P. rewrite (seg_seg_def s1 s2 false). cbn zeta. rewrite (denom_zero s1 s2 P). rewrite (Rlt_bool_false 0 0) by lra. cbn [andb]. rewrite orb_false_r.
  assert (Ends : i_seg_point n s1 (end1 s2) false || i_seg_point n s1 (end2 s2) false || i_seg_point n s2 (end1 s1) false || i_seg_point n s2 (end2 s1) false = true <-> meet (in_segment n s1) (in_segment n s2)).
  { rewrite !orb_true_iff, !seg_point. split.
    - pose proof (on_ends n (co (end1 s1)) (co (end2 s1))) as [A B]. pose proof (on_ends n (co (end1 s2)) (co (end2 s2))) as [C D].
      intros [[[X|X]|X]|X]; eexists; split; try exact X; auto.
    - intros (x & X & Y). destruct (collinear_ends n _ _ _ _ x P X Y) as [Z|[Z|Z]]; auto. }
  destruct (_ && _) eqn:G; auto. split; [discriminate|]. intros (x & (t & Ht & X) & (s & Hs & Y)). exfalso.
  apply andb_true_iff in G. destruct G as [_ G]. pose proof (coplanar_passes s1 s2 t s (meet_lines s1 s2 t s x X Y)) as Q. cbn zeta in Q. rewrite (denom_zero s1 s2 P) in Q.
  rewrite Q in G. discriminate.
Qed.

Lemma same_pt (p q : point R) : dims n p -> dims n q -> valid p = true -> valid q = true -> (same n p q = true <-> pteq n (co p) (co q)).
Proof.
  intros Dp Dq Vp Vq. unfold same. cbn [neps Rnum]. unfold epsilon, Ez. rewrite (vec_equal_exact 0 n) by auto. split; [intros [-> _] i Hi; reflexivity|].
  intros E. split; auto. apply (coords_eq n); auto. congruence.
Qed.
Definition seg_ok (s : segment R) : Prop := dims n (end1 s) /\ dims n (end2 s) /\ seg_valid s = true.

Lemma flat_or s : pteq n (co (end1 s)) (co (end2 s)) \/ 0 < norm2 n (dir s).
Proof. destruct (Rlt_dec 0 (norm2 n (dir s))); auto. left. now apply zero_dir. Qed.
Lemma pos_not_flat s : 0 < norm2 n (dir s) -> ~ pteq n (co (end1 s)) (co (end2 s)).
Proof.
  intros P E. unfold norm2 in P. rewrite (inner_ext n _ _ (fun _ => 0) (fun _ => 0)) in P by (intros i Hi; unfold dir; rewrite E by auto; ring).
  unfold inner in P. rewrite Rsum_zero in P by (intros; ring). lra.
Qed.
Lemma rev_parallel a b c d : parallel n (dif b a) (dif d c) -> parallel n (dif b a) (dif c d).
Proof. intros P i j Hi Hj. specialize (P i j Hi Hj). cbn beta in *. lra. Qed.

Lemma seg_seg_parallel_proper s1 s2 : seg_ok s1 -> seg_ok s2 -> parallel n (dir s1) (dir s2) -> ~ (pteq n (co (end1 s1)) (co (end2 s1)) /\ pteq n (co (end1 s2)) (co (end2 s2))) ->
  (i_seg_seg n s1 s2 true = true <-> meet (in_segment_open n s1) (in_segment_open n s2)).
Proof.
  intros (D1 & D1' & V1) (D2 & D2' & V2) P NF. unfold seg_valid in V1, V2. apply andb_true_iff in V1, V2. destruct V1 as [V1 V1'], V2 as [V2 V2'].
  rewrite (seg_seg_def s1 s2 true). cbn zeta. rewrite (denom_zero s1 s2 P). rewrite (Rlt_bool_false 0 0) by lra.
  match goal with |- (if ?g then false else ?e) = true <-> _ => set (G := g); set (E := e) end.
  assert (Ends : E = true <-> meet (in_segment_open n s1) (in_segment_open n s2)).
  { unfold E. cbn [andb]. rewrite !orb_true_iff, andb_true_iff, orb_true_iff, !andb_true_iff, negb_true_iff, <- not_true_iff_false, !same_pt by auto. split.
    - intros [[[[X|X]|X]|X]|[NF1 [[X Y]|[X Y]]]].
      + destruct (flat_or s1) as [F|N]; [now rewrite seg_point_flat in X|]. rewrite seg_point_proper in X by now apply pos_not_flat. exact (end_inside n _ _ _ _ P N X).
      + destruct (flat_or s1) as [F|N]; [now rewrite seg_point_flat in X|]. rewrite seg_point_proper in X by now apply pos_not_flat.
        destruct (end_inside n _ _ (co (end2 s2)) (co (end1 s2)) (rev_parallel _ _ _ _ P) N X) as (x & A & B). exists x. split; auto. now apply on_open_rev.
      + destruct (flat_or s2) as [F|N]; [now rewrite seg_point_flat in X|]. rewrite seg_point_proper in X by now apply pos_not_flat.
        destruct (end_inside n _ _ (co (end1 s1)) (co (end2 s1)) (parallel_sym n _ _ P) N X) as (x & A & B). exists x. auto.
      + destruct (flat_or s2) as [F|N]; [now rewrite seg_point_flat in X|]. rewrite seg_point_proper in X by now apply pos_not_flat.
        destruct (end_inside n _ _ (co (end2 s1)) (co (end1 s1)) (rev_parallel _ _ _ _ (parallel_sym n _ _ P)) N X) as (x & A & B). exists x. split; auto. now apply on_open_rev.
      + exists (seg_at s1 (1 / 2)). split; exists (1 / 2); (split; [lra|]); intros i Hi; [reflexivity|]. unfold seg_at. rewrite (X i Hi), (Y i Hi). reflexivity.
      + exists (seg_at s1 (1 / 2)). split; exists (1 / 2); (split; [lra|]); intros i Hi; [reflexivity|]. unfold seg_at. rewrite (X i Hi), (Y i Hi). field.
    - intros (x & X & Y). destruct (flat_or s1) as [F1|N1]; destruct (flat_or s2) as [F2|N2].
      + exfalso. auto.
      + left. left. right. rewrite seg_point_proper by now apply pos_not_flat. apply (on_open_ext n _ _ x); auto. destruct X as (t & _ & Xt).
        intros i Hi. rewrite (Xt i Hi). unfold seg_at. rewrite <- (F1 i Hi). ring.
      + left. left. left. left. rewrite seg_point_proper by now apply pos_not_flat. apply (on_open_ext n _ _ x); auto. destruct Y as (t & _ & Yt).
        intros i Hi. rewrite (Yt i Hi). unfold seg_at. rewrite <- (F2 i Hi). ring.
      + pose proof (pos_not_flat _ N1) as Q1. pose proof (pos_not_flat _ N2) as Q2. rewrite !seg_point_proper by auto.
        destruct (collinear_open n _ _ _ _ x P N1 N2 X Y) as [Z|[Z|[Z|[Z|[Z|Z]]]]]; auto; tauto. }
  destruct G eqn:Gg; auto. split; [discriminate|]. intros (x & (t & Ht & X) & (s & Hs & Y)). exfalso. unfold G in Gg.
  apply andb_true_iff in Gg. destruct Gg as [_ Gg]. pose proof (coplanar_passes s1 s2 t s (meet_lines s1 s2 t s x X Y)) as Q. cbn zeta in Q. rewrite (denom_zero s1 s2 P) in Q.
  rewrite Q in Gg. discriminate.
Qed.

(** Segments on lines that cross in one point: what the code computes. *)
Lemma seg_seg_crossing s1 s2 t s x proper : 0 < norm2 n (dir s1) * norm2 n (dir s2) - inner n (dir s1) (dir s2) * inner n (dir s1) (dir s2) ->
  pteq n x (seg_at s1 t) -> pteq n x (seg_at s2 s) ->
  i_seg_seg n s1 s2 proper = less_eq_ t 0 proper && less_eq_ t 1 proper && greater_eq_ s 0 proper && greater_eq_ s 1 proper.
Proof.
  intros Dn X Y. pose proof (meet_lines s1 s2 t s x X Y) as M. destruct (gram_zero s1 s2 t s M) as (A & B & _). pose proof (coplanar_passes s1 s2 t s M) as Q. cbn zeta in *.
  rewrite (seg_seg_def s1 s2 proper). cbn zeta. rewrite Q. cbn [negb]. rewrite andb_false_r. rewrite Rlt_bool_true by auto.
  rewrite A, B. set (N1 := norm2 n (dir s1)) in *. set (N2 := norm2 n (dir s2)) in *. set (P := inner n (dir s1) (dir s2)) in *.
  replace ((N2 * (t * N1 - s * P) - P * (t * P - s * N2)) / (N1 * N2 - P * P)) with t by (field; lra).
  replace (- (N1 * (t * P - s * N2) - P * (t * N1 - s * P)) / (N1 * N2 - P * P)) with s by (field; lra). reflexivity.
Qed.
End Z.
