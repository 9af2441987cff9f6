(** Axis boxes: corners, moves, equality, doubles. *)
From Coq Require Import ZArith NArith Reals Bool List Lia Lra SpecFloat.
From Flocq Require Import Core.Raux.
From Verif Require Import Base Scalar ConstModel VecModel RotModel QuatModel ShapeModel IntersectModel RSpec VecSpec RotSpec ShapeSpec ConstSpec RLib OrdLib B64Lib B64Ops VecProofs VecProofs4 ShapeProofs ShapeProofs2.
Import ListNotations.
Open Scope R_scope.

Lemma bits_bound c n : (forall i, (n <= i)%N -> N.testbit c i = false) -> (c < 2 ^ n)%N.
Proof.
  intros H. replace c with (c mod 2 ^ n)%N.
  - apply N.mod_lt. apply N.pow_nonzero. lia.
  - apply N.bits_inj. intros i. destruct (N.lt_ge_cases i n).
    + now rewrite N.mod_pow2_bits_low.
    + rewrite N.mod_pow2_bits_high by auto. symmetry. auto.
Qed.
Lemma bits_high c n i : (c < 2 ^ n)%N -> (n <= i)%N -> N.testbit c i = false.
Proof. intros H Hi. rewrite <- (N.mod_small c (2 ^ n)) by auto. now apply N.mod_pow2_bits_high. Qed.

(** Every choice of one bit per axis is the index of a corner. *)
Lemma pattern_exists n (f : nat -> bool) : exists c, (c < 2 ^ N.of_nat n)%N /\ forall i, (i < n)%nat -> N.testbit c (N.of_nat i) = f i.
Proof.
  assert (E : exists c, (forall i, (i < n)%nat -> N.testbit c (N.of_nat i) = f i) /\ forall i, (N.of_nat n <= i)%N -> N.testbit c i = false).
  { induction n as [|n (c & A & B)].
    - exists 0%N. split; [lia|]. intros. apply N.bits_0.
    - exists (if f n then N.setbit c (N.of_nat n) else c). split.
      + intros i Hi. destruct (Nat.eq_dec i n) as [->|].
        * destruct (f n) eqn:E; [apply N.setbit_eq|apply B; lia].
        * destruct (f n) eqn:E; [rewrite N.setbit_neq by lia|]; apply A; lia.
      + intros i Hi. destruct (f n); [rewrite N.setbit_neq by lia|]; apply B; lia. }
  destruct E as (c & A & B). exists c. split; auto. apply bits_bound. auto.
Qed.
(** Different indices differ in some bit. *)
Lemma pattern_unique n c d : (c < 2 ^ N.of_nat n)%N -> (d < 2 ^ N.of_nat n)%N -> c <> d ->
  exists i, (i < n)%nat /\ N.testbit c (N.of_nat i) <> N.testbit d (N.of_nat i).
Proof.
  intros Hc Hd Ne.
  destruct (all_below n (fun i => Bool.eqb (N.testbit c (N.of_nat i)) (N.testbit d (N.of_nat i)))) eqn:E.
  - exfalso. apply Ne. apply N.bits_inj. intros i. destruct (N.lt_ge_cases i (N.of_nat n)).
    + rewrite all_below_iff in E. specialize (E (N.to_nat i)). rewrite N2Nat.id in E. apply eqb_prop. apply E. lia.
    + rewrite (bits_high c (N.of_nat n)), (bits_high d (N.of_nat n)) by auto. reflexivity.
  - apply all_below_false in E. destruct E as (i & Hi & E). exists i. split; auto. intros E'. rewrite E', eqb_reflx in E. discriminate.
Qed.

Section R.
Context (eps : Epsilon).
Variable n : nat.

Lemma corner_dims (b : axisbox R) c : box_dims n b -> dims n (box_corner n b c).
Proof. intros [A B]. unfold box_corner. destruct (c <? 1)%N; auto. destruct (_ <=? c)%N; auto. apply tab_length. Qed.
Lemma corner_valid (b : axisbox R) c : box_valid b = true -> valid (box_corner n b c) = true.
Proof.
  unfold box_valid. intros V. apply andb_prop in V. destruct V as [V W]. unfold box_corner.
  destruct (c <? 1)%N; auto. destruct (_ <=? c)%N; auto. cbn [valid]. now rewrite V, W.
Qed.
Lemma corner_in_box (b : axisbox R) c : box_ordered n b -> (c < 2 ^ N.of_nat n)%N -> in_box n b (co (box_corner n b c)).
Proof. intros O Hc i Hi. rewrite corner_co by auto. specialize (O i Hi). destruct N.testbit; lra. Qed.

Lemma shift_coord (b : axisbox R) v i : (i < n)%nat -> co (low (box_shift n b v)) i = co (low b) i + co v i /\ co (high (box_shift n b v)) i = co (high b) i + co v i.
Proof. intros Hi. unfold box_shift, vec_add. cbn [low high]. rewrite !co_tab, !at_co by auto. auto. Qed.
Lemma shift_corner (b : axisbox R) v c i : (i < n)%nat -> (c < 2 ^ N.of_nat n)%N ->
  co (box_corner n (box_shift n b v) c) i = co (box_corner n b c) i + co v i.
Proof. intros Hi Hc. rewrite !corner_co by auto. destruct (shift_coord b v i Hi) as [-> ->]. destruct N.testbit; auto. Qed.
Lemma center_co (b : axisbox R) i : (i < n)%nat -> co (box_center n b) i = (co (low b) i + co (high b) i) / 2.
Proof. intros Hi. unfold box_center. rewrite mid_co by auto. unfold nhalf, n1, n2. cbn [ndiv nofZ Rnum]. lra. Qed.
Lemma sub_co (p q : coords R) i : (i < n)%nat -> co (vec_sub n p q) i = co p i - co q i.
Proof. intros Hi. unfold vec_sub. rewrite co_tab, !at_co by auto. reflexivity. Qed.
Lemma add_co (p q : coords R) i : (i < n)%nat -> co (vec_add n p q) i = co p i + co q i.
Proof. intros Hi. unfold vec_add. rewrite co_tab, !at_co by auto. reflexivity. Qed.

Lemma shift_valid (b : axisbox R) v : valid v = true -> box_valid (box_shift n b v) = box_valid b.
Proof. intros V. unfold box_valid, box_shift. cbn [low high vec_add valid]. now rewrite V, !andb_true_r. Qed.

Lemma move_corner_spec (b : axisbox R) p c : dims n p -> box_valid b = true -> (c < 2 ^ N.of_nat n)%N ->
  box_corner n (box_move_corner n b p c) c = p.
Proof.
  intros D V Hc. unfold box_move_corner. set (v := vec_sub n p (box_corner n b c)).
  assert (DS : box_dims n (box_shift n b v)) by (split; apply tab_length).
  apply (coords_eq n); auto.
  - now apply corner_dims.
  - unfold box_valid in V. apply andb_prop in V. destruct V as [V1 V2].
    assert (Vv : valid v = valid p).
    { unfold v, vec_sub. cbn [valid]. rewrite corner_valid; [apply andb_true_r|]. unfold box_valid. now rewrite V1, V2. }
    unfold box_corner at 1. destruct (c <? 1)%N; [|destruct (_ <=? c)%N]; unfold box_shift; cbn [low high vec_add valid];
      rewrite ?V1, ?V2, Vv; destruct (valid p); reflexivity.
  - intros i Hi. rewrite shift_corner by auto. unfold v. rewrite sub_co by auto. lra.
Qed.
Lemma move_center_spec (b : axisbox R) p : dims n p -> box_valid b = true -> box_center n (box_move_center n b p) = p.
Proof.
  intros D V. unfold box_move_center. set (v := vec_sub n p (box_center n b)).
  apply (coords_eq n); auto.
  - apply tab_length.
  - unfold box_valid in V. apply andb_prop in V. destruct V as [V1 V2].
    unfold box_center, midpoint, box_shift, v, vec_add, vec_sub. cbn [low high valid]. unfold box_center, midpoint. cbn [valid].
    rewrite V1, V2. destruct (valid p); reflexivity.
  - intros i Hi. rewrite center_co by auto. destruct (shift_coord b v i Hi) as [-> ->]. unfold v. rewrite sub_co, center_co by auto. lra.
Qed.

Lemma box_equal_refl (b : axisbox R) e : 0 <= e -> box_valid b = true -> box_equal n b b e = true.
Proof.
  intros He V. unfold box_valid in V. apply andb_prop in V. destruct V. unfold box_equal. now rewrite !vec_equal_refl by auto.
Qed.
End R.

Lemma box_equal_invalid {T} `{Num T} n (a b : axisbox T) e : box_valid a = false \/ box_valid b = false -> box_equal n a b e = false.
Proof.
  unfold box_equal, box_valid, vec_equal. destruct (valid (low a)), (valid (high a)), (valid (low b)), (valid (high b)); simpl;
    intros [E|E]; try discriminate; auto using andb_false_r.
Qed.

(** ** Doubles *)
Section D.
Variable m : libm.
Local Existing Instance B64.
Lemma dval_co p i : co (dval p) i = val (at_ (H := B64 m) p i).
Proof.
  unfold co, dval, at_, get. cbn [el]. change 0 with (val (S754_zero false)). rewrite map_nth. reflexivity.
Qed.
Lemma dpoint_at n p i : dpoint n p -> (i < n)%nat -> is_double (at_ (H := B64 m) p i) /\ finite (at_ (H := B64 m) p i).
Proof. intros D Hi. apply D. auto. Qed.

Lemma box_point_double n b p : dpoint n (low b) -> dpoint n (high b) -> dpoint n p ->
  (near_box n deps (dbox b) (co (dval p)) -> i_box_point (H := B64 m) n b p false = true) /\
  (i_box_point (H := B64 m) n b p false = true -> near_box n (deps * (1 + bpow Zaux.radix2 (-52))) (dbox b) (co (dval p))) /\
  (i_box_point (H := B64 m) n b p true = true <-> in_box_open n (dbox b) (co (dval p))).
Proof.
  intros D1 D2 D3. unfold i_box_point. rewrite !all_below_iff. unfold near_box, in_box_open, dbox, deps. cbn [low high].
  split; [|split; [|split]]; intros E i Hi; specialize (E i Hi); rewrite !dval_co in *;
    destruct (dpoint_at n _ i D1 Hi), (dpoint_at n _ i D2 Hi), (dpoint_at n _ i D3 Hi).
  - apply neg_or. unfold greater_, less_. cbn [nltb nsub neps B64]. split; apply not_true_is_false; intros F; apply sub_gt_true in F; auto; lra.
  - apply neg_or in E. unfold greater_, less_ in E. cbn [nltb nsub neps B64] in E. destruct E as [E1 E2]. apply sub_gt_false in E1, E2; auto. lra.
  - apply neg_or in E. unfold greater_, less_ in E. cbn [nleb B64] in E. rewrite !SFleb_val, !Rleb_false in E by auto. lra.
  - apply neg_or. unfold greater_, less_. cbn [nleb B64]. rewrite !SFleb_val, !Rleb_false by auto. lra.
Qed.
End D.

(** Symmetry, for every number type. *)
Lemma box_box_sym {T} `{Num T} n (a b : axisbox T) proper : i_box_box n a b proper = i_box_box n b a proper.
Proof. unfold i_box_box. apply all_below_ext. intros i Hi. unfold greater_, less_. destruct proper; f_equal; apply orb_comm. Qed.
