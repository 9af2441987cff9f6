(** Tolerances of the box tests, and two rotated boxes. *)
From Coq Require Import ZArith NArith Reals Bool List Lia Lra Psatz Arith.
From Flocq Require Import Core.Raux.
From Verif Require Import Base Scalar ConstModel VecModel RotModel QuatModel ShapeModel IntersectModel RSpec VecSpec RotSpec ShapeSpec RLib MatLib OrdLib VecProofs VecProofs2 VecProofs3 VecProofs4 RotProofs2 RotProofs3 ShapeProofs ShapeProofs2 ShapeProofs3 BallProofs SphereProofs RbProofs RbProofs2 SatProofs SatProofs2 HellyProofs SatProofs3 SatProofs4.
Import ListNotations.
Open Scope R_scope.

Lemma lo_wide m l h t : 0 <= t -> lo m (l - t) (h + t) = lo m l h - t * Rabs m.
Proof. intros. unfold lo. destruct (Rle_dec 0 m); [rewrite Rabs_pos_eq by auto; ring|rewrite Rabs_left by lra; ring]. Qed.
Lemma hi_wide m l h t : 0 <= t -> hi m (l - t) (h + t) = hi m l h + t * Rabs m.
Proof. intros. unfold hi. destruct (Rle_dec 0 m); [rewrite Rabs_pos_eq by auto; ring|rewrite Rabs_left by lra; ring]. Qed.
Lemma lo_wide_sum n m (l h : pt) t : 0 <= t -> Rsum n (fun k => lo (m k) (l k - t) (h k + t)) = Rsum n (fun k => lo (m k) (l k) (h k)) - t * Rsum n (fun k => Rabs (m k)).
Proof. intros. rewrite <- Rsum_scal_l, <- Rsum_minus. apply Rsum_ext. intros. now apply lo_wide. Qed.
Lemma hi_wide_sum n m (l h : pt) t : 0 <= t -> Rsum n (fun k => hi (m k) (l k - t) (h k + t)) = Rsum n (fun k => hi (m k) (l k) (h k)) + t * Rsum n (fun k => Rabs (m k)).
Proof. intros. rewrite <- Rsum_scal_l, <- Rsum_plus. apply Rsum_ext. intros. now apply hi_wide. Qed.
Lemma Rsum_abs_pos n f : 0 <= Rsum n (fun k => Rabs (f k)).
Proof. rewrite <- (Rsum_zero n (fun _ => 0)) by auto. apply Rsum_le. intros. apply Rabs_pos. Qed.

Section Tol.
Context (eps : Epsilon).
Notation cc r := (co (corner0 r)).
Notation EL r t := (fun k => Rmin 0 (co (rsize r) k) - t).
Notation EU r t := (fun k => Rmax 0 (co (rsize r) k) + t).
Notation el r b t := (fun i => co (low b) i - cc r i - t).
Notation eh r b t := (fun i => co (high b) i - cc r i + t).
Lemma wide_goal n r b t x : orthogonal n (ent (orient r)) ->
  (forall i, (i < n)%nat -> cmp false (el r b t i) (x i) /\ cmp false (x i) (eh r b t i)) ->
  (forall k, (k < n)%nat -> cmp false (EL r t k) (mapply n (ent (orient r)) x k) /\ cmp false (mapply n (ent (orient r)) x k) (EU r t k)) ->
  meet (near_rotbox n t r) (near_box n t b).
Proof.
  intros O X Y. exists (fun i => cc r i + x i). split.
  - apply near_edge; auto. intros k Hk. specialize (Y k Hk). cbn [cmp] in Y. unfold edge. rewrite (mapply_ext n _ (ent (orient r)) _ x k Hk (meq_refl n _)); auto. intros; ring.
  - intros i Hi. specialize (X i Hi). cbn [cmp] in X. lra.
Qed.
Lemma wide_order n r b t : 0 <= t -> box_ordered n b -> (forall i, (i < n)%nat -> cmp false (el r b t i) (eh r b t i)) /\ (forall k, (k < n)%nat -> cmp false (EL r t k) (EU r t k)).
Proof. intros Ht Ob. split; intros i Hi; cbn; [specialize (Ob i Hi); lra|]. unfold Rmin, Rmax. destruct Rle_dec; lra. Qed.
(** The face tests hold exactly of boxes enlarged by t >= epsilon. *)
Lemma faces_wide n r b t : (eps : R) <= t -> 0 <= t -> box_ordered n b -> rb_box_faces n r b false = true ->
  (forall i, (i < n)%nat -> cmp false (Rsum n (fun k => lo (ent (orient r) k i) (EL r t k) (EU r t k))) (eh r b t i) /\ cmp false (el r b t i) (Rsum n (fun k => hi (ent (orient r) k i) (EL r t k) (EU r t k)))) /\
  (forall k, (k < n)%nat -> cmp false (Rsum n (fun i => lo (ent (orient r) k i) (el r b t i) (eh r b t i))) (EU r t k) /\ cmp false (EL r t k) (Rsum n (fun i => hi (ent (orient r) k i) (el r b t i) (eh r b t i)))).
Proof.
  intros Le Ht Ob F. apply (faces_cmp_le eps n r b Ob) in F. destruct F as [A B]. split; [intros i Hi; specialize (A i Hi)|intros k Hk; specialize (B k Hk)]; cbn [cmp].
  - rewrite (lo_wide_sum n (fun k => ent (orient r) k i) (fun k => Rmin 0 (co (rsize r) k)) (fun k => Rmax 0 (co (rsize r) k)) t Ht), (hi_wide_sum n (fun k => ent (orient r) k i) (fun k => Rmin 0 (co (rsize r) k)) (fun k => Rmax 0 (co (rsize r) k)) t Ht).
    pose proof (Rmult_le_pos _ _ Ht (Rsum_abs_pos n (fun k => ent (orient r) k i))). cbn beta in *. lra.
  - rewrite (lo_wide_sum n (fun i => ent (orient r) k i) (fun i => co (low b) i - cc r i) (fun i => co (high b) i - cc r i) t Ht), (hi_wide_sum n (fun i => ent (orient r) k i) (fun i => co (low b) i - cc r i) (fun i => co (high b) i - cc r i) t Ht).
    pose proof (Rmult_le_pos _ _ Ht (Rsum_abs_pos n (fun i => ent (orient r) k i))). cbn beta in *. lra.
Qed.
Lemma rb_box2_tol r b : 0 <= (eps : R) -> orthogonal 2 (ent (orient r)) -> box_ordered 2 b -> i_rb_box2 r b false = true -> meet (near_rotbox 2 eps r) (near_box 2 eps b).
Proof.
  intros He O Ob F. destruct (faces_wide 2 r b eps (Rle_refl _) He Ob F) as [A B]. destruct (wide_order 2 r b eps He Ob) as [C D].
  destruct (sat2 false _ _ _ _ _ O C D A B) as (x & X & Y). exact (wide_goal 2 r b eps x O X Y).
Qed.
Lemma rb_box2_proper_eps r b : orthogonal 2 (ent (orient r)) -> rb_thick 2 r -> box_thick 2 b -> (i_rb_box2 r b true = true <-> meet (in_rotbox_open 2 r) (in_box_open 2 b)).
Proof.
  intros O T Tb. assert (Ob : box_ordered 2 b) by (intros i Hi; specialize (Tb i Hi); lra).
  split; [|intros Mt; now apply (faces_meet_open eps)].
  intros E. apply (faces_cmp eps 2 r b Ob) in E. destruct E as [A B].
  destruct (sat2 true (ent (orient r)) (fun i => co (low b) i - co (corner0 r) i) (fun i => co (high b) i - co (corner0 r) i) (fun k => Rmin 0 (co (rsize r) k)) (fun k => Rmax 0 (co (rsize r) k))) as (y & Y & Z); auto.
  - intros i Hi. specialize (Tb i Hi). cbn. lra.
  - intros k Hk. cbn. specialize (T k Hk). unfold Rmin, Rmax. destruct Rle_dec; lra.
  - exists (fun i => co (corner0 r) i + y i). split.
    + apply in_edge_open; auto. intros k Hk. specialize (Z k Hk). cbn [cmp] in Z. unfold edge. rewrite (mapply_ext 2 _ (ent (orient r)) _ y k Hk (meq_refl 2 _)); auto. intros; ring.
    + intros i Hi. specialize (Y i Hi). cbn [cmp] in Y. lra.
Qed.
Lemma norm2_le_abs f : norm2 3 f <= Rsum 3 (fun k => Rabs (f k)) * Rsum 3 (fun k => Rabs (f k)).
Proof.
  unfold norm2, inner. cbn [Rsum]. assert (Q : forall z, z * z = Rabs z * Rabs z) by (intros z; rewrite <- Rabs_mult; symmetry; apply Rabs_pos_eq; nra).
  rewrite (Q (f 0%nat)), (Q (f 1%nat)), (Q (f 2%nat)). pose proof (Rabs_pos (f 0%nat)) as P0. pose proof (Rabs_pos (f 1%nat)) as P1. pose proof (Rabs_pos (f 2%nat)) as P2.
  pose proof (Rmult_le_pos _ _ P0 P1). pose proof (Rmult_le_pos _ _ P0 P2). pose proof (Rmult_le_pos _ _ P1 P2). lra.
Qed.
(** In space: edges are parallel, or make an angle whose sine is at least k. *)
Lemma rb_box3_tol r b k : 0 <= (eps : R) -> (eps : R) <= k -> 0 < k <= 1 -> sat_exact eps r b ->
  (forall i j, (i < 3)%nat -> (j < 3)%nat -> par (ent (orient r)) i j \/ k * k <= norm2 3 (wax (ent (orient r)) i j)) ->
  orthogonal 3 (ent (orient r)) -> box_ordered 3 b -> i_rb_box3 r b false = true -> meet (near_rotbox 3 (eps / k) r) (near_box 3 (eps / k) b).
Proof.
  intros He Hk [K0 K1] Ex Cl O Ob F. unfold i_rb_box3 in F. destruct (rb_box_faces 3 r b false) eqn:Fc; [|discriminate].
  assert (Ht : 0 <= eps / k) by (apply Rmult_le_pos; [auto|apply Rlt_le, Rinv_0_lt_compat; auto]).
  assert (Et : (eps : R) <= eps / k). { apply (Rmult_le_reg_r k); auto. unfold Rdiv. rewrite Rmult_assoc, Rinv_l by lra. rewrite Rmult_1_r. rewrite <- (Rmult_1_r (eps : R)) at 2. apply Rmult_le_compat_l; auto. }
  destruct (faces_wide 3 r b (eps / k) Et Ht Ob Fc) as [A B]. destruct (wide_order 3 r b (eps / k) Ht Ob) as [C D].
  assert (Par : (exists i j, (i < 3)%nat /\ (j < 3)%nat /\ par (ent (orient r)) i j) -> meet (near_rotbox 3 (eps / k) r) (near_box 3 (eps / k) b)).
  { intros (i & j & Hi & Hj & P). destruct (sat3_parallel false _ _ _ _ _ O C D A B i j Hi Hj P) as (x & X & Y). exact (wide_goal 3 r b _ x O X Y). }
  apply (edges_complete eps) in F. destruct F as [(i & j & I & E)|E].
  - apply pairs_in in I. destruct I as [Hi Hj]. apply (edge_early eps) in E; auto. destruct (Cl i j Hi Hj) as [P|P]; [apply Par; eauto|]. exfalso. assert (eps * eps <= k * k) by (apply Rmult_le_compat; auto). lra.
  - assert (Dc : (exists i j, (i < 3)%nat /\ (j < 3)%nat /\ par (ent (orient r)) i j) \/ forall i j, (i < 3)%nat -> (j < 3)%nat -> k * k <= norm2 3 (wax (ent (orient r)) i j)).
    { pose proof Cl as Cl'. destruct (Cl' 0%nat 0%nat) as [?|?]; [lia|lia|left; do 2 eexists; split; [|split; [|eassumption]]; lia|].
      destruct (Cl' 0%nat 1%nat) as [?|?]; [lia|lia|left; do 2 eexists; split; [|split; [|eassumption]]; lia|].
      destruct (Cl' 0%nat 2%nat) as [?|?]; [lia|lia|left; do 2 eexists; split; [|split; [|eassumption]]; lia|].
      destruct (Cl' 1%nat 0%nat) as [?|?]; [lia|lia|left; do 2 eexists; split; [|split; [|eassumption]]; lia|].
      destruct (Cl' 1%nat 1%nat) as [?|?]; [lia|lia|left; do 2 eexists; split; [|split; [|eassumption]]; lia|].
      destruct (Cl' 1%nat 2%nat) as [?|?]; [lia|lia|left; do 2 eexists; split; [|split; [|eassumption]]; lia|].
      destruct (Cl' 2%nat 0%nat) as [?|?]; [lia|lia|left; do 2 eexists; split; [|split; [|eassumption]]; lia|].
      destruct (Cl' 2%nat 1%nat) as [?|?]; [lia|lia|left; do 2 eexists; split; [|split; [|eassumption]]; lia|].
      destruct (Cl' 2%nat 2%nat) as [?|?]; [lia|lia|left; do 2 eexists; split; [|split; [|eassumption]]; lia|].
      right. intros i j Hi Hj. destruct i as [|[|[|i]]]; [| | |lia]; destruct j as [|[|[|j]]]; try lia; assumption. }
    destruct Dc as [P|P]; [now apply Par|].
    destruct (sat3 false _ _ _ _ _ O C D A B) as (x & X & Y); [|exact (wide_goal 3 r b _ x O X Y)].
    intros i j Hi Hj. pose proof (E i j (proj2 (pairs_in i j) (conj Hi Hj))) as N. apply (edge_none_false eps) in N; auto.
    specialize (P i j Hi Hj). assert (eps * eps <= k * k) by (apply Rmult_le_compat; auto). destruct N as [N|[N1 N2]]; [exfalso; lra|].
    unfold axis_ok. cbn [cmp]. unfold rlo, bhi, blo, rhi in N1, N2.
    rewrite (lo_wide_sum 3 (fun k => Rsum 3 (fun q => ent (orient r) k q * wax (ent (orient r)) i j q)) (fun k => Rmin 0 (co (rsize r) k)) (fun k => Rmax 0 (co (rsize r) k)) _ Ht).
    rewrite (hi_wide_sum 3 (fun k => Rsum 3 (fun q => ent (orient r) k q * wax (ent (orient r)) i j q)) (fun k => Rmin 0 (co (rsize r) k)) (fun k => Rmax 0 (co (rsize r) k)) _ Ht).
    rewrite (lo_wide_sum 3 (fun q => wax (ent (orient r)) i j q) (fun i => co (low b) i - cc r i) (fun i => co (high b) i - cc r i) _ Ht).
    rewrite (hi_wide_sum 3 (fun q => wax (ent (orient r)) i j q) (fun i => co (low b) i - cc r i) (fun i => co (high b) i - cc r i) _ Ht).
    pose proof (Rmult_le_pos _ _ Ht (Rsum_abs_pos 3 (fun k => Rsum 3 (fun q => ent (orient r) k q * wax (ent (orient r)) i j q)))) as Q1.
    assert (Q2 : (eps : R) <= eps / k * Rsum 3 (fun q => Rabs (wax (ent (orient r)) i j q))).
    { pose proof (norm2_le_abs (wax (ent (orient r)) i j)) as Nn. pose proof (Rsum_abs_pos 3 (wax (ent (orient r)) i j)) as Np.
      set (S1 := Rsum 3 (fun q => Rabs (wax (ent (orient r)) i j q))) in *.
      assert (Ks : k <= S1). { apply Rnot_lt_le. intros Lt. assert (S1 * S1 < k * k) by (apply Rmult_le_0_lt_compat; auto). lra. }
      apply Rle_trans with (eps / k * k); [unfold Rdiv; rewrite Rmult_assoc, Rinv_l, Rmult_1_r by lra; apply Rle_refl|]. apply Rmult_le_compat_l; auto. }
    cbn beta in *. lra.
Qed.

(** ** Two rotated boxes *)
Lemma rotate_point_mvalid n r r' m p : valid_orth n (orient r) -> valid_orth n m -> rb_rotate_point n r m p = Ret r' -> mvalid (orient r') = mvalid (orient r) && mvalid m.
Proof.
  intros Or Om E. unfold rb_rotate_point in E. destruct (prod n (orient r) m) as [o| | |] eqn:P; cbn [obind] in E; try discriminate. injection E as <-.
  destruct (prod_spec eps n (orient r) m o Or Om P) as (_ & _ & _ & V). exact V.
Qed.
Lemma in_own_frame n r1 r2 r' : mvalid (orient r1) = true -> orthogonal n (ent (orient r1)) -> mvalid (orient r2) = true -> orthogonal n (ent (orient r2)) ->
  rb_rotate_point n r1 (rot_inverse n (orient r2)) (corner0 r2) = Ret r' ->
  orthogonal n (ent (orient r')) /\ mvalid (orient r') = true /\ rsize r' = rsize r1 /\
  (forall x, in_rotbox n r1 x <-> in_rotbox n r' (frame n r2 x)) /\ (forall x, in_rotbox_open n r1 x <-> in_rotbox_open n r' (frame n r2 x)).
Proof.
  intros V1 O1 V2 O2 E.
  assert (Ov : valid_orth n (rot_inverse n (orient r2))) by (apply inverse_orth; intros _; auto).
  destruct (rotate_point_spec eps n _ _ _ _ (fun _ => O1) Ov E) as (Sz & _ & O' & _ & S). pose proof (rotate_point_mvalid n _ _ _ _ (fun _ => O1) Ov E) as V'.
  assert (Vi : mvalid (rot_inverse n (orient r2)) = true) by exact V2. rewrite V1, Vi in V'. split; [now apply O'|]. split; [auto|]. split; [auto|]. split; intros x.
  - rewrite (turned_in n r1 r' _ _ (Ov V2) S). split; intros (s & Hs & X); exists s; (split; [auto|]); intros i Hi; rewrite <- (X i Hi); [symmetry|]; now apply (turned_frame eps).
  - rewrite (turned_open n r1 r' _ _ (Ov V2) S). split; intros (s & Hs & X); exists s; (split; [auto|]); intros i Hi; rewrite <- (X i Hi); [symmetry|]; now apply (turned_frame eps).
Qed.
End Tol.
