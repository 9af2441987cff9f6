(** Axis boxes: proofs. *)
From Coq Require Import ZArith NArith Reals Bool List Lia Lra Permutation.
From Flocq Require Import Core.Raux.
From Verif Require Import Base Scalar ConstModel VecModel RotModel QuatModel ShapeModel IntersectModel RSpec VecSpec RotSpec ShapeSpec RLib OrdLib VecProofs VecProofs4.
Import ListNotations.
Open Scope R_scope.

Lemma in_box_near n b x : in_box n b x <-> near_box n 0 b x.
Proof. unfold in_box, near_box. split; intros H i Hi; specialize (H i Hi); lra. Qed.
Lemma in_box_ext n b x y : pteq n x y -> in_box n b x -> in_box n b y.
Proof. intros E H i Hi. rewrite <- E by auto. auto. Qed.
Lemma in_box_low n b : box_ordered n b -> in_box n b (co (low b)).
Proof. intros O i Hi. specialize (O i Hi). lra. Qed.
Lemma in_box_high n b : box_ordered n b -> in_box n b (co (high b)).
Proof. intros O i Hi. specialize (O i Hi). lra. Qed.

Section R.
Context (eps : Epsilon).
Variable n : nat.

Lemma less_false x y : less_ x y false = false <-> y - x <= eps.
Proof. unfold less_. cbn [nltb nsub neps Rnum]. apply Rltb_false. Qed.
Lemma less_proper x y : less_ x y true = false <-> y < x.
Proof. unfold less_. cbn [nleb Rnum]. apply Rleb_false. Qed.
Lemma greater_false x y : greater_ x y false = false <-> x - y <= eps.
Proof. unfold greater_. cbn [nltb nsub neps Rnum]. apply Rltb_false. Qed.
Lemma greater_proper x y : greater_ x y true = false <-> x < y.
Proof. unfold greater_. cbn [nleb Rnum]. apply Rleb_false. Qed.
Lemma less_eq_false x y : less_eq_ x y false = true <-> x <= y.
Proof. unfold less_eq_. cbn [negb nleb Rnum]. apply Rleb_iff. Qed.
Lemma less_eq_proper x y : less_eq_ x y true = true <-> x < y.
Proof. unfold less_eq_. cbn [negb nltb Rnum]. apply Rltb_iff. Qed.
Lemma greater_eq_false x y : greater_eq_ x y false = true <-> y <= x.
Proof. unfold greater_eq_. cbn [negb nleb Rnum]. apply Rleb_iff. Qed.
Lemma greater_eq_proper x y : greater_eq_ x y true = true <-> y < x.
Proof. unfold greater_eq_. cbn [negb nltb Rnum]. apply Rltb_iff. Qed.

Lemma neg_or a b : negb (a || b) = true <-> a = false /\ b = false.
Proof. destruct a, b; simpl; split; intuition congruence. Qed.

Lemma box_point b p : i_box_point n b p false = true <-> near_box n eps b (co p).
Proof.
  unfold i_box_point. rewrite all_below_iff. unfold near_box.
  split; intros E i Hi; specialize (E i Hi).
  - apply neg_or in E. rewrite greater_false, less_false, !at_co in E. lra.
  - apply neg_or. rewrite greater_false, less_false, !at_co. lra.
Qed.
Lemma box_point_proper b p : i_box_point n b p true = true <-> in_box_open n b (co p).
Proof.
  unfold i_box_point. rewrite all_below_iff. unfold in_box_open.
  split; intros E i Hi; specialize (E i Hi).
  - apply neg_or in E. rewrite greater_proper, less_proper, !at_co in E. lra.
  - apply neg_or. rewrite greater_proper, less_proper, !at_co. lra.
Qed.

Lemma box_box_coord b1 b2 : i_box_box n b1 b2 false = true <->
  forall i, (i < n)%nat -> co (low b1) i - co (high b2) i <= eps /\ co (low b2) i - co (high b1) i <= eps.
Proof.
  unfold i_box_box. rewrite all_below_iff. split; intros E i Hi; specialize (E i Hi).
  - apply neg_or in E. rewrite greater_false, less_false, !at_co in E. exact E.
  - apply neg_or. rewrite greater_false, less_false, !at_co. exact E.
Qed.
Lemma box_box_coord_proper b1 b2 : i_box_box n b1 b2 true = true <->
  forall i, (i < n)%nat -> co (low b1) i < co (high b2) i /\ co (low b2) i < co (high b1) i.
Proof.
  unfold i_box_box. rewrite all_below_iff. split; intros E i Hi; specialize (E i Hi).
  - apply neg_or in E. rewrite greater_proper, less_proper, !at_co in E. exact E.
  - apply neg_or. rewrite greater_proper, less_proper, !at_co. exact E.
Qed.

Lemma box_box b1 b2 : 0 <= (eps : R) -> box_ordered n b1 -> box_ordered n b2 ->
  (i_box_box n b1 b2 false = true <-> exists x y, in_box n b1 x /\ in_box n b2 y /\ close n eps x y).
Proof.
  intros He O1 O2. rewrite box_box_coord. split.
  - intros E.
    exists (fun i => Rmax (co (low b1) i) (Rmin (co (high b1) i) (co (low b2) i))),
           (fun i => Rmax (co (low b2) i) (Rmin (co (high b2) i) (co (low b1) i))).
    unfold in_box, close. repeat split; intros; specialize (E i H); specialize (O1 i H); specialize (O2 i H).
    + apply Rmax_l.
    + apply Rmax_lub; auto. apply Rmin_l.
    + apply Rmax_l.
    + apply Rmax_lub; auto. apply Rmin_l.
    + unfold Rmax, Rmin, Rabs; repeat destruct Rle_dec; destruct Rcase_abs; lra.
  - intros (x & y & A & B & C) i Hi. specialize (A i Hi). specialize (B i Hi). specialize (C i Hi).
    apply Rabs_le_inv in C. lra.
Qed.
Lemma box_box_proper b1 b2 : box_thick n b1 -> box_thick n b2 ->
  (i_box_box n b1 b2 true = true <-> meet (in_box_open n b1) (in_box_open n b2)).
Proof.
  intros O1 O2. rewrite box_box_coord_proper. split.
  - intros E. exists (fun i => (Rmax (co (low b1) i) (co (low b2) i) + Rmin (co (high b1) i) (co (high b2) i)) / 2).
    split; intros i Hi; specialize (E i Hi); specialize (O1 i Hi); specialize (O2 i Hi);
      unfold Rmax, Rmin; repeat destruct Rle_dec; lra.
  - intros (x & A & B) i Hi. specialize (A i Hi). specialize (B i Hi). lra.
Qed.

Lemma contains_box a b : 0 <= (eps : R) -> box_ordered n b -> (c_box_box n a b false = true <-> incl (in_box n b) (near_box n eps a)).
Proof.
  intros He O. unfold c_box_box. rewrite all_below_iff. split.
  - intros E x X i Hi. specialize (E i Hi). specialize (X i Hi).
    apply neg_or in E. rewrite greater_false, less_false, !at_co in E. lra.
  - intros E i Hi. pose proof (E _ (in_box_low n b O) i Hi). pose proof (E _ (in_box_high n b O) i Hi).
    apply neg_or. rewrite greater_false, less_false, !at_co. lra.
Qed.
Lemma contains_box_proper a b : box_ordered n b -> (c_box_box n a b true = true <-> incl (in_box n b) (in_box_open n a)).
Proof.
  intros O. unfold c_box_box. rewrite all_below_iff. split.
  - intros E x X i Hi. specialize (E i Hi). specialize (X i Hi).
    apply neg_or in E. rewrite greater_proper, less_proper, !at_co in E. lra.
  - intros E i Hi. pose proof (E _ (in_box_low n b O) i Hi). pose proof (E _ (in_box_high n b O) i Hi).
    apply neg_or. rewrite greater_proper, less_proper, !at_co. lra.
Qed.

(** ** Corners *)
Lemma corners_unordered p1 p2 : let b := box_corners n p1 p2 false in
  box_dims n b /\ box_valid b = true /\
  forall i, (i < n)%nat -> co (low b) i = Rmin (co p1 i) (co p2 i) /\ co (high b) i = Rmax (co p1 i) (co p2 i).
Proof.
  cbn zeta. unfold box_corners. repeat split; cbn [low high]; try apply tab_length.
  - rewrite co_tab by auto. cbn [nltb Rnum]. rewrite !at_co. unfold Rmin.
    destruct (Rlt_bool_spec (co p2 i) (co p1 i)); destruct Rle_dec; lra.
  - rewrite co_tab by auto. cbn [nltb Rnum]. rewrite !at_co. unfold Rmax.
    destruct (Rlt_bool_spec (co p2 i) (co p1 i)); destruct Rle_dec; lra.
Qed.

Lemma corner_co (b : axisbox R) c i : (i < n)%nat -> (c < 2 ^ N.of_nat n)%N ->
  co (box_corner n b c) i = if N.testbit c (N.of_nat i) then co (high b) i else co (low b) i.
Proof.
  intros Hi Hc. unfold box_corner. destruct (N.ltb_spec c 1).
  - assert (c = 0%N) by lia. subst. rewrite N.bits_0; reflexivity.
  - destruct (N.leb_spec (2 ^ N.of_nat n - 1) c).
    + assert (c = (2 ^ N.of_nat n - 1)%N) by lia. subst c.
      rewrite <- N.pred_sub, <- N.ones_equiv.
      rewrite N.ones_spec_low by lia. reflexivity.
    + rewrite co_tab by auto. now rewrite !at_co.
Qed.
End R.
