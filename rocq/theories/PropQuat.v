(** Properties C31 - C36 and C56, and the quaternion parts of C14, C24, C26, C27, C55.

    [exact_pair eps a b] says that Dot(a, b) and Cross(a, b) do not replace a
    component by zero; with tolerance 0 that is always so ([exact_pair_0]). *)
From Coq Require Import Reals Lra Lia List Bool Psatz ZArith NArith.
From Flocq Require Import Core.Zaux Core.Raux.
From Verif Require Import Base Scalar ConstModel VecModel RotModel QuatModel RSpec RLib VecSpec VecProofs VecProofs2 VecProofs4 RotSpec MatLib RotProofs RotProofs2 RotProofs3 RotProofs7 QuatSpec QuatProofs QuatProofs2 QuatProofs3 QuatProofs4 QuatProofs5 QuatProofs6 QuatProofs7.
Import ListNotations.
Open Scope R_scope.

(** ** C31 *)
(** Everything the API builds.  Missing for the full property: the products in which
    Dot or Cross rounds a component to zero; C31_product_near_unit bounds these. *)
Theorem C31_unit_partial : forall (eps : Epsilon) e q, 0 < (eps : R) -> exact_qnodes eps e ->
  qeval eps e = Ret q -> qvalid q = true -> unit_quat q.
Proof. exact (fun eps e q He Ex Ev V => proj1 (proj2 (qeval_good eps e He q Ex Ev) V)). Qed.
Print Assumptions C31_unit_partial.

Definition sample_qexp : qexp := QMul (QInverse (QAxis QDefault 2 1)) (QDiv (QMake 1 2 3 4) (QNormalize QIdentity)).
Example C31_unit_example : forall eps : Epsilon, exact_qnodes eps sample_qexp -> exists q, qeval eps sample_qexp = Ret q /\ qvalid q = true.
Proof. intros eps _. simpl. eexists. split; reflexivity. Qed.
Example C31_unit_example_0 : exact_qnodes 0 sample_qexp /\ exists q, qeval 0 sample_qexp = Ret q /\ qvalid q = true.
Proof.
  split; [|simpl; eexists; split; reflexivity].
  cbn [exact_qnodes sample_qexp]. repeat split; try lra; intros; apply exact_pair_0.
Qed.
Example C31_unit_example_eps : forall eps : Epsilon, 0 < (eps : R) ->
  let e := QMul (QMake 3 4 0 0) (QInverse (QNormalize QIdentity)) in exact_qnodes eps e /\ exists q, qeval eps e = Ret q /\ qvalid q = true.
Proof.
  intros eps He e. split; [|simpl; eexists; split; reflexivity].
  cbn [exact_qnodes e]. split; [lra|]. split; [exact I|]. intros p q _ Q.
  change (qeval eps (QInverse (QNormalize QIdentity))) with (Ret (quat_inverse (H := Rnum eps) (quat_normalize (H := Rnum eps) (quat_identity (H := Rnum eps))))) in Q.
  rewrite (normalize_unit eps quat_identity) in Q by apply (identity_unitv eps). injection Q as <-.
  match goal with |- exact_pair _ _ ?b => replace b with (vec_zero (H := Rnum eps) 3); [apply exact_zero_r|] end.
  apply coords_valid_eq; try reflexivity; cbn; ring.
Qed.

Theorem C31_product_near_unit : forall (eps : Epsilon) p q, 0 <= (eps : R) -> qdims p -> qdims q -> unit_quat p -> unit_quat q ->
  Rabs (hnorm2 (q4 (quat_mul p q)) - 1) <= 8 * eps + 16 * (eps * eps) /\
  Rabs (hnorm2 (q4 (quat_div p q)) - 1) <= 8 * eps + 16 * (eps * eps).
Proof.
  intros eps p q He Dp Dq Up Uq. split; [apply mul_near_unit; auto|].
  rewrite div_is_mul_inverse by auto. apply mul_near_unit; auto.
  - apply dims_tab.
  - apply inverse_unit; auto.
Qed.
Print Assumptions C31_product_near_unit.

(** The product is Hamilton's with the operands exchanged *)
Theorem C31_product_value : forall (eps : Epsilon) p q, qdims p -> qdims q -> unit_quat p -> unit_quat q -> exact_pair eps (qv p) (qv q) ->
  q4 (quat_mul p q) = hmul (q4 q) (q4 p) /\ q4 (quat_div p q) = hmul (hconj (q4 q)) (q4 p) /\
  q4 (quat_inverse (H := Rnum eps) q) = hconj (q4 q).
Proof.
  intros eps p q Dp Dq Up Uq Ex. split; [apply mul_q4; auto; apply both_unit; split; auto|].
  split; [apply div_q4; auto; apply both_unit; split; auto|apply inverse_q4].
Qed.
Print Assumptions C31_product_value.

Theorem C31_quotient : forall (eps : Epsilon) p q, qdims q -> quat_div p q = quat_mul p (quat_inverse q).
Proof. exact div_is_mul_inverse. Qed.
Print Assumptions C31_quotient.

Theorem C31_inverse : forall (eps : Epsilon) q, qdims q -> unit_quat q -> qvalid q = true -> valid (qv q) = true -> exact_dot eps 3 (qv q) (qv q) ->
  same_quat (quat_mul q (quat_inverse q)) quat_identity /\ same_quat (quat_mul (quat_inverse q) q) quat_identity /\
  quat_inverse (quat_inverse q) = q.
Proof.
  intros eps q D U V Vv Ex. destruct (mul_inverse eps q (conj D U) V Vv Ex). auto using inverse_inverse.
Qed.
Print Assumptions C31_inverse.

Theorem C31_inverse_of_product : forall (eps : Epsilon) p q, qdims p -> qdims q -> unit_quat p -> unit_quat q -> exact_pair eps (qv p) (qv q) ->
  same_quat (quat_inverse (quat_mul p q)) (quat_mul (quat_inverse q) (quat_inverse p)).
Proof. intros eps p q Dp Dq Up Uq. apply inverse_mul; split; auto. Qed.
Print Assumptions C31_inverse_of_product.

Theorem C31_identity : forall (eps : Epsilon) q, qdims q -> unit_quat q -> qvalid q = true -> valid (qv q) = true ->
  same_quat (quat_mul q quat_identity) q /\ same_quat (quat_mul quat_identity q) q.
Proof. intros eps q D U. apply mul_identity; split; auto. Qed.
Print Assumptions C31_identity.

Theorem C31_associative : forall (eps : Epsilon) p q r, qdims p -> qdims q -> qdims r -> unit_quat p -> unit_quat q -> unit_quat r ->
  exact_pair eps (qv p) (qv q) -> exact_pair eps (qv q) (qv r) ->
  exact_pair eps (qv (quat_mul p q)) (qv r) -> exact_pair eps (qv p) (qv (quat_mul q r)) ->
  same_quat (quat_mul (quat_mul p q) r) (quat_mul p (quat_mul q r)).
Proof. intros eps p q r Dp Dq Dr Up Uq Ur. apply mul_assoc; split; auto. Qed.
Print Assumptions C31_associative.

(** Tolerance 0: no side conditions *)
Theorem C31_group_exact : forall p q r, qdims p -> qdims q -> qdims r -> unit_quat p -> unit_quat q -> unit_quat r ->
  let mul := quat_mul (H := Rnum 0) in let inv := quat_inverse (H := Rnum 0) in
  unit_quat (mul p q) /\ unit_quat (quat_div (H := Rnum 0) p q) /\ unit_quat (inv p) /\
  same_quat (mul (mul p q) r) (mul p (mul q r)) /\ same_quat (inv (mul p q)) (mul (inv q) (inv p)).
Proof.
  intros p q r Dp Dq Dr Up Uq Ur mul inv. split; [|split; [|split; [|split]]].
  - apply mul_unit; auto using exact_pair_0.
  - apply div_unit; auto using exact_pair_0.
  - apply inverse_unit; auto.
  - apply C31_associative; auto using exact_pair_0.
  - apply C31_inverse_of_product; auto using exact_pair_0.
Qed.
Print Assumptions C31_group_exact.

(** (3/5, 0, 0, 4/5) and (3/5, 4/5, 0, 0) *)
Lemma qx_qz_exact : forall eps : Epsilon, 0 <= (eps : R) <= / 100 -> exact_pair eps (qv qx) (qv qz).
Proof.
  intros eps He. apply (exact_pair_large eps _ _ 1); try reflexivity; try lra.
  - intros i Hi. unfold co, qx. destruct i as [|[|[|]]]; try lia; cbn [qv el nth]; rewrite Rabs_pos_eq; lra.
  - left. unfold inner, co, qx, qz. cbn [Rsum qv el nth]. lra.
  - intros i Hi. unfold co, qx, qz. destruct i as [|[|[|]]]; try lia; unfold cross_coord; cbn [qv el nth]; [left; lra|right|left; lra].
    replace (0 * 0 - 4 / 5 * (4 / 5)) with (- (16 / 25)) by lra. rewrite Rabs_Ropp, Rabs_pos_eq; lra.
  - exists 2%nat. split; [lia|]. unfold co, qz. cbn [qv el nth]. lra.
Qed.
Example C31_example : qdims qx /\ unit_quat qx /\ qvalid qx = true /\ valid (qv qx) = true /\ qdims qz /\ unit_quat qz /\
  forall eps : Epsilon, 0 <= (eps : R) <= / 100 -> exact_pair eps (qv qx) (qv qz).
Proof. repeat split; try apply qx_unit; try apply qz_unit; apply qx_qz_exact; auto. Qed.

(** ** C32 *)
Theorem C32_composition : forall (eps : Epsilon) v p q, qdims p -> qdims q -> unit_quat p -> unit_quat q ->
  exact_pair eps (qv p) v -> exact_pair eps (qv q) (vec_rotate_q v p) ->
  exact_pair eps (qv p) (qv q) -> exact_pair eps (qv (quat_mul p q)) v ->
  vec_rotate_q (vec_rotate_q v p) q = vec_rotate_q v (quat_mul p q).
Proof. intros eps v p q Dp Dq Up Uq. apply rotate_mul; split; auto. Qed.
Print Assumptions C32_composition.

(** Rotating is q v q^-1 *)
Theorem C32_sandwich : forall (eps : Epsilon) v q, unit_quat q -> exact_pair eps (qv q) v ->
  pure (co (vec_rotate_q v q)) = sandwich (q4 q) (co v).
Proof. intros eps v q U Ex. apply rotate_sandwich; auto. Qed.
Print Assumptions C32_sandwich.

Theorem C32_isometry : forall (eps : Epsilon) v w q, unit_quat q -> exact_pair eps (qv q) v -> exact_pair eps (qv q) w ->
  inner 3 (co (vec_rotate_q v q)) (co (vec_rotate_q w q)) = inner 3 (co v) (co w) /\
  norm 3 (co (vec_rotate_q v q)) = norm 3 (co v).
Proof.
  intros eps v w q U Ev Ew. split; [apply rotate_q_inner; auto|]. unfold norm, norm2. f_equal. apply rotate_q_inner; auto.
Qed.
Print Assumptions C32_isometry.

Theorem C32_opposite : forall (eps : Epsilon) v q q', qdims q -> qdims q' -> q4 q' = hneg (q4 q) ->
  forall i, (i < 3)%nat -> co (vec_rotate_q v q') i = co (vec_rotate_q v q) i.
Proof. exact rotate_opposite. Qed.
Print Assumptions C32_opposite.

Theorem C32_undo : forall (eps : Epsilon) v q, qdims q -> unit_quat q -> dims 3 v -> valid (qv q) = true ->
  exact_pair eps (qv q) v -> exact_pair eps (qv q) (vec_rotate_q v q) -> vec_rotate_q (vec_rotate_q v q) (quat_inverse q) = v.
Proof. intros eps v q D U. apply rotate_undo; split; auto. Qed.
Print Assumptions C32_undo.

(** rotation(axis, angle): the axis is fixed; v orthogonal to the axis goes to
    cos(angle) v + sin(angle) w where v, w, axis are orthogonal, |w| = |v|, right handed *)
Theorem C32_axis_angle : forall (eps : Epsilon) old axis angle v q, 0 < (eps : R) -> quat_rotation old axis angle = q -> qvalid q = true ->
  exact_pair eps (qv q) v ->
  0 < norm2 3 (co axis) /\ unit_quat q /\
  ((exists k, forall i, (i < 3)%nat -> co v i = k * co axis i) -> forall i, (i < 3)%nat -> co (vec_rotate_q v q) i = co v i) /\
  (inner 3 (co axis) (co v) = 0 ->
   let w i := cross_coord (co axis) (co v) i / norm 3 (co axis) in
   inner 3 (co axis) w = 0 /\ inner 3 (co v) w = 0 /\ norm2 3 w = norm2 3 (co v) /\
   forall i, (i < 3)%nat -> co (vec_rotate_q v q) i = cos angle * co v i + sin angle * w i).
Proof.
  intros eps old axis angle v q He E V Ex.
  assert (V' : qvalid (quat_rotation old axis angle) = true) by (rewrite E; exact V).
  destruct (rotation_unit eps old axis angle He V') as (N & _ & U). rewrite E in U.
  split; [exact N|]. split; [exact U|].
  pose proof (rotation_acts eps old axis angle v q He E V Ex) as A. split.
  - intros [k Hk] i Hi. rewrite A by auto.
    rewrite (Hk i Hi), <- (rodrigues_axis (co axis) angle i N Hi) at 1.
    unfold rodrigues, inner. rewrite norm2_3. cbn [Rsum].
    rewrite (Hk 0%nat), (Hk 1%nat), (Hk 2%nat) by lia.
    assert (cross_coord (co axis) (co v) i = k * cross_coord (co axis) (co axis) i) as ->.
    { destruct i as [|[|[|]]]; try lia; unfold cross_coord; rewrite ?(Hk 0%nat), ?(Hk 1%nat), ?(Hk 2%nat) by lia; ring. }
    rewrite (Hk i Hi). unfold Rdiv. ring.
  - intros P w. destruct (perp_basis (co axis) (co v) N P) as (B1 & B2 & B3). split; [exact B1|]. split; [exact B2|]. split; [exact B3|].
    intros i Hi. rewrite A by auto. apply rodrigues_perp. exact P.
Qed.
Print Assumptions C32_axis_angle.

(** rotation(axis) turns by the length of the axis *)
Theorem C32_axis_length : forall (eps : Epsilon) old axis, quat_rotation_mag old axis = quat_rotation old axis (norm 3 (co axis)).
Proof. intros. rewrite rotation_mag_eq, mag_norm. reflexivity. Qed.
Print Assumptions C32_axis_length.
(** rotation(k, angle) is rotation(e_k, angle); other axes make the quaternion invalid *)
Theorem C32_axis_index : forall (eps : Epsilon) old k angle, 0 < (eps : R) <= 1 -> (0 <= k <= 2)%Z ->
  quat_axis old k angle = quat_rotation old (mkC (tab 3 (fun i => if Nat.eqb i (Z.to_nat k) then 1 else 0)) true) angle.
Proof.
  intros eps old k angle He Hk. unfold quat_axis, quat_rotation.
  replace ((k <? 0)%Z || (2 <? k)%Z) with false by (symmetry; rewrite Bool.orb_false_iff; split; [apply Z.ltb_ge|apply Z.ltb_ge]; lia).
  rewrite mag_norm.
  assert (N : norm 3 (co (mkC (tab 3 (fun i => if Nat.eqb i (Z.to_nat k) then 1 else 0)) true)) = 1).
  { unfold norm. rewrite norm2_3, !(co_tab 3) by lia.
    assert (K : k = 0%Z \/ k = 1%Z \/ k = 2%Z) by lia. match goal with |- sqrt ?x = _ => replace x with 1; [apply sqrt_1|] end. destruct K as [->|[->| ->]]; simpl; ring. }
  rewrite N. cbn [nltb neps Rnum]. rewrite Rlt_bool_false by lra. f_equal. unfold vec_scale, tab, at_. cbn [valid el get nth map seq].
  cbn [nmul ndiv nsin ncos n0 n2 nofZ Rnum]. f_equal. unfold Rdiv. rewrite Rinv_1.
  assert (K : k = 0%Z \/ k = 1%Z \/ k = 2%Z) by lia. destruct K as [->|[->| ->]]; simpl; repeat (f_equal; try ring).
Qed.
Print Assumptions C32_axis_index.
Theorem C32_axis_index_bad : forall (eps : Epsilon) old k angle, (k < 0 \/ 2 < k)%Z -> qvalid (quat_axis (H := Rnum eps) old k angle) = false.
Proof.
  intros eps old k angle Hk. unfold quat_axis. replace ((k <? 0)%Z || (2 <? k)%Z) with true; [reflexivity|].
  symmetry. rewrite Bool.orb_true_iff, !Z.ltb_lt. exact Hk.
Qed.
Print Assumptions C32_axis_index_bad.

(** Vector::rotate(axis, theta) is the same rotation *)
Theorem C32_vector_axis_angle : forall (eps : Epsilon) (v axis w : vector R) old q theta, 0 < (eps : R) ->
  exact_dot eps 3 v axis ->
  (let perp := vec_sub 3 v (vec_div 3 (vec_scale 3 axis (dot 3 v axis)) (sqr_mag 3 axis)) in exact_cross3 eps axis perp) ->
  vec_rotate_axis v axis theta = Ret w ->
  quat_rotation old axis theta = q -> qvalid q = true -> exact_pair eps (qv q) v ->
  forall i, (i < 3)%nat -> co w i = co (vec_rotate_q v q) i.
Proof.
  intros eps v axis w old q theta He Ed Ec Ew Eq V Ex i Hi.
  rewrite (proj2 (rotate_axis_acts eps v axis w theta Ed Ec Ew) i Hi). symmetry. apply (rotation_acts eps old axis theta v q); auto.
Qed.
Print Assumptions C32_vector_axis_angle.

(** Tolerance 0: no side conditions *)
Theorem C32_exact : forall v w p q, qdims p -> qdims q -> unit_quat p -> unit_quat q -> dims 3 v -> valid (qv q) = true ->
  let rotate := vec_rotate_q (H := Rnum 0) in
  rotate (rotate v p) q = rotate v (quat_mul (H := Rnum 0) p q) /\
  rotate (rotate v q) (quat_inverse (H := Rnum 0) q) = v /\
  inner 3 (co (rotate v q)) (co (rotate w q)) = inner 3 (co v) (co w).
Proof.
  intros v w p q Dp Dq Up Uq Dv V rotate. split; [|split].
  - apply C32_composition; auto using exact_pair_0.
  - apply C32_undo; auto using exact_pair_0.
  - apply rotate_q_inner; auto using exact_pair_0.
Qed.
Print Assumptions C32_exact.

Example C32_example : forall eps : Epsilon, 0 < (eps : R) <= / 100 ->
  exact_pair eps (qv qz) ex /\ exists q, quat_rotation qz ex 1 = q /\ qvalid q = true.
Proof.
  intros eps He. split.
  - apply (exact_pair_large eps _ _ 1); try reflexivity; try lra.
    + intros i Hi. unfold co, qz. destruct i as [|[|[|]]]; try lia; cbn [qv el nth]; rewrite Rabs_pos_eq; lra.
    + left. unfold inner, co, ex, qz. cbn [Rsum qv el nth]. lra.
    + intros i Hi. unfold co, ex, qz. destruct i as [|[|[|]]]; try lia; unfold cross_coord; cbn [qv el nth]; [left; lra|right|left; lra].
      replace (4 / 5 * 1 - 0 * 0) with (4 / 5) by lra. rewrite Rabs_pos_eq; lra.
    + exists 0%nat. split; [lia|]. unfold co, ex. cbn [qv el nth]. lra.
  - eexists. split; [reflexivity|]. unfold quat_rotation. rewrite mag_norm.
    assert (norm 3 (co ex) = 1) as ->. { unfold norm. rewrite norm2_3. rewrite <- sqrt_1. f_equal. unfold co, ex. cbn [el nth]. ring. }
    cbn [nltb neps Rnum]. rewrite Rlt_bool_false by lra. reflexivity.
Qed.

(** ** C33 *)
Theorem C33_matrix_of_quaternion : forall (eps : Epsilon) old q m, unit_quat q -> rot_from_quat old q true = Ret m ->
  orthogonal 3 (ent m) /\ det 3 (ent m) = 1 /\ parity m = false /\
  forall v, exact_pair eps (qv q) v -> forall i, (i < 3)%nat -> co (prod_inv_vm 3 v m) i = co (vec_rotate_q v q) i.
Proof.
  intros eps old q m U E. destruct (from_quat_spec eps old q true m U E) as (M & _ & F & D).
  split; [|split; [|split]].
  - intros i j Hi Hj. transitivity (mmul 3 (ham_matrix (q4 q)) (mtr (ham_matrix (q4 q))) i j); [apply mmul_ext; auto; intros a b Ha Hb; apply M; auto|]. apply ham_matrix_orth; auto.
  - rewrite <- (ham_matrix_det (q4 q) U). unfold det, det3. rewrite !M by lia. reflexivity.
  - exact F.
  - intros v Ex i Hi. unfold prod_inv_vm. apply (matrix_prod_acts eps old q m v); auto.
Qed.
Print Assumptions C33_matrix_of_quaternion.

(** The two rotate functions turn opposite ways *)
Theorem C33_rotate_is_inverse : forall (eps : Epsilon) old q m v, unit_quat q -> qdims q -> exact_pair eps (qv q) v -> rot_from_quat old q true = Ret m ->
  forall i, (i < 3)%nat -> co (vec_rotate 3 v m) i = co (vec_rotate_q v (quat_inverse q)) i.
Proof. exact matrix_rotate_acts. Qed.
Print Assumptions C33_rotate_is_inverse.

Theorem C33_quaternion_round_trip_partial : forall (eps : Epsilon) q m q' nf', qdims q -> unit_quat q -> rot_quat q true = Ret m ->
  / 4 < qw q * qw q -> quat_from_matrix m = Ret (q', nf') ->
  nf' = true /\ (0 <= qw q -> q4 q' = q4 q) /\ (qw q <= 0 -> q4 q' = hneg (q4 q)).
Proof.
  intros eps q m q' nf' D U E W F. split.
  - destruct (from_quat_spec eps _ q true m U E) as (M & _ & Fl & Dm).
    destruct (C33_matrix_of_quaternion eps _ q m U E) as (O & Dt & _).
    destruct (from_matrix_spec eps m Dm O ltac:(rewrite Fl; exact Dt) q' nf' F) as (_ & -> & _). rewrite Fl. reflexivity.
  - apply (round_trip_quat eps q m q' nf'); auto. lra.
Qed.
Print Assumptions C33_quaternion_round_trip_partial.

(** Matrix to quaternion to matrix, mirrors included, as far as the elements go: right
    when the trace of the matrix (with its first column negated for mirrors) is
    positive.  What happens otherwise: C33_matrix_round_trip_twisted_partial. *)
Theorem C33_matrix_round_trip_partial : forall (eps : Epsilon) m q nf m', mdims 3 (me m) -> orthogonal 3 (ent m) ->
  det 3 (ent m) = (if parity m then -1 else 1) ->
  0 < tr3 (if parity m then flip_x (ent m) else ent m) ->
  quat_from_matrix m = Ret (q, nf) -> rot_quat q nf = Ret m' -> me m' = me m.
Proof. exact round_trip_matrix. Qed.
Print Assumptions C33_matrix_round_trip_partial.

Theorem C33_matrix_round_trip_twisted_partial : forall (eps : Epsilon) m q m', mdims 3 (me m) -> orthogonal 3 (ent m) ->
  det 3 (ent m) = 1 -> parity m = false -> tr3 (ent m) <= 0 ->
  quat_from_matrix m = Ret (q, true) -> rot_quat q true = Ret m' ->
  exists k, (k < 3)%nat /\ (forall j, (j < 3)%nat -> ent m j j <= ent m k k) /\
    forall i j, (i < 3)%nat -> (j < 3)%nat -> ent m' i j = sign_at k i * sign_at k j * ent m j i.
Proof.
  intros eps m q m' D O Dt P T E E'. unfold parity in P.
  destruct (from_matrix_spec eps m D O ltac:(rewrite P; exact Dt) q true E) as (C & _). unfold proper_part in C. rewrite P in C.
  destruct C as (_ & U & _ & C). destruct (C T) as (k & Hk & Max & Tw). exists k. split; [exact Hk|]. split; [exact Max|].
  destruct (from_quat_spec eps _ q true m' U E') as (M & _). intros i j Hi Hj. rewrite M by auto. exact (Tw i j Hi Hj).
Qed.
Print Assumptions C33_matrix_round_trip_twisted_partial.

(** The half turn about (1, 1, 0) *)
Theorem C33_matrix_round_trip_refuted : forall eps : Epsilon, exists m q nf m',
  rot_quat (H := Rnum eps) (quat_make (H := Rnum eps) 0 1 1 0) true = Ret m /\ quat_from_matrix m = Ret (q, nf) /\ rot_quat q nf = Ret m' /\
  ent m 0 1 = 1 /\ ent m' 0 1 = -1.
Proof. exact matrix_round_trip_refuted. Qed.
Print Assumptions C33_matrix_round_trip_refuted.
(** The mirror image in the x axis: the elements come back, the parity does not *)
Theorem C33_mirror_parity_refuted : forall eps : Epsilon, exists m q m', rot_mirror_axis (H := Rnum eps) 3 0 = Ret m /\ quat_from_matrix m = Ret (q, false) /\
  rot_quat q false = Ret m' /\ me m' = me m /\ parity m = true /\ parity m' = false.
Proof. exact mirror_flag_refuted. Qed.
Print Assumptions C33_mirror_parity_refuted.

Theorem C33_conversion_defined : forall (eps : Epsilon) m q nf, orthogonal 3 (ent m) -> det 3 (ent m) = 1 -> parity m = false ->
  (exists r, quat_from_matrix m = Ret (r, true)) /\ exists m', rot_quat (H := Rnum eps) q nf = Ret m'.
Proof. intros eps m q nf O D F. split; [apply from_matrix_total; auto|apply rot_quat_total]. Qed.
Print Assumptions C33_conversion_defined.

Example C33_example : forall eps : Epsilon, exists m, rot_quat (H := Rnum eps) qx true = Ret m /\ / 4 < qw qx * qw qx /\ mdims 3 (me m) /\
  orthogonal 3 (ent m) /\ det 3 (ent m) = 1 /\ parity m = false /\ 0 < tr3 (ent m).
Proof.
  intros eps. destruct (rot_quat_total eps qx true) as [m E]. exists m. split; [exact E|].
  destruct (C33_matrix_of_quaternion eps _ qx m (proj2 qx_unit) E) as (O & D & P & _).
  destruct (from_quat_spec eps _ qx true m (proj2 qx_unit) E) as (M & _ & _ & Dm).
  repeat split; auto; try apply Dm.
  - unfold qx. cbn [qw]. lra.
  - unfold tr3. rewrite !M by lia. unfold ham_matrix, q4, qx, co. cbn [nth qw qv el hw hx hy hz]. lra.
Qed.

(** ** C24, conversion from a quaternion: with not_flip == false the matrix has
    determinant -1 but the flag says +1, whatever the quaternion. *)
Theorem C24_from_quaternion_refuted : forall (eps : Epsilon) q m, unit_quat q -> rot_quat q false = Ret m ->
  mvalid m = true /\ det 3 (ent m) = -1 /\ parity m = false.
Proof.
  intros eps q m U E. destruct (from_quat_spec eps _ q false m U E) as (M & V & F & _). split; [exact V|]. split; [|exact F].
  pose proof (flip_x_det (ham_matrix (q4 q))) as D. rewrite (ham_matrix_det _ U) in D. transitivity (det 3 (flip_x (ham_matrix (q4 q)))); [|rewrite D; lra]. unfold det, det3. rewrite !M by lia. reflexivity.
Qed.
Print Assumptions C24_from_quaternion_refuted.
Example C24_from_quaternion_example : forall eps : Epsilon, unit_quat qx /\ exists m, rot_quat (H := Rnum eps) qx false = Ret m.
Proof. intros eps. split; [apply qx_unit|apply rot_quat_total]. Qed.

(** ** C34 *)
(** First half *)
Theorem C34_matrix_by_quaternion : forall (eps : Epsilon) m q m' v, mdims 3 (me m) -> valid_orth 3 m -> unit_quat q ->
  (forall r b, (r < 3)%nat -> exact_pair eps (qv q) (mkC (tab 3 (ent m r)) b)) -> exact_pair eps (qv q) (vec_rotate 3 v m) -> rot_rotate_q m q = Ret m' ->
  forall i, (i < 3)%nat -> co (vec_rotate 3 v m') i = co (vec_rotate_q (vec_rotate 3 v m) q) i.
Proof. exact rotate_matrix_by_quat. Qed.
Print Assumptions C34_matrix_by_quaternion.

(** Second half, what holds instead: the vector is turned by Prod(m, .), the inverse of
    v.rotate(m) *)
Theorem C34_quaternion_by_matrix_partial : forall (eps : Epsilon) q m q' v t, mdims 3 (me m) -> orthogonal 3 (ent m) -> det 3 (ent m) = 1 ->
  parity m = false -> mvalid m = true -> 0 < tr3 (ent m) ->
  qdims q -> unit_quat q -> quat_from_matrix m = Ret t -> quat_rotate_m q m = Ret q' ->
  exact_pair eps (qv q) v -> exact_pair eps (qv (fst t)) (vec_rotate_q v q) -> exact_pair eps (qv q) (qv (fst t)) -> exact_pair eps (qv q') v ->
  forall i, (i < 3)%nat -> co (vec_rotate_q v q') i = co (prod_mv 3 m (vec_rotate_q v q)) i.
Proof. intros eps q m q' v t Dm O Dt P V T D U. apply rotate_quat_by_matrix; auto. split; auto. Qed.
Print Assumptions C34_quaternion_by_matrix_partial.

Theorem C34_quaternion_by_matrix_refuted : forall eps : Epsilon, 0 <= (eps : R) <= / 100 -> exists q m q' v,
  unit_quat q /\ mvalid m = true /\ orthogonal 3 (ent m) /\ det 3 (ent m) = 1 /\ quat_rotate_m q m = Ret q' /\
  co (vec_rotate_q v q') 2 = 576 / 625 /\ co (vec_rotate 3 (vec_rotate_q v q) m) 2 = - (576 / 625).
Proof.
  intros eps He. destruct (quat_by_matrix_refuted eps He) as (m & q' & E & E' & A & B). exists qz, m, q', ex.
  destruct (C33_matrix_of_quaternion eps _ qx m (proj2 qx_unit) E) as (O & D & _).
  destruct (from_quat_spec eps _ qx true m (proj2 qx_unit) E) as (_ & V & _). split; [apply qz_unit|auto 10].
Qed.
Print Assumptions C34_quaternion_by_matrix_refuted.

Example C34_example : forall v, exists m m', rot_quat (H := Rnum 0) qx true = Ret m /\ valid_orth 3 m /\ mdims 3 (me m) /\
  rot_rotate_q (H := Rnum 0) m qz = Ret m' /\ exact_pair 0 (qv qz) (vec_rotate (H := Rnum 0) 3 v m) /\
  forall r b, (r < 3)%nat -> exact_pair 0 (qv qz) (mkC (tab 3 (ent m r)) b).
Proof.
  intros v. destruct (C33_example 0) as (m & E & _ & Dm & O & _). exists m.
  assert (A : mage m = 1%N). { unfold rot_quat, rot_from_quat in E. simpl in E. injection E as <-. reflexivity. }
  unfold rot_rotate_q, check_norm. cbn [mage mvalid]. rewrite A. eexists. split; [exact E|].
  split; [intros _; exact O|]. split; [exact Dm|]. split; [reflexivity|]. split; intros; apply exact_pair_0.
Qed.

(** ** C35 *)
Theorem C35_aligns : forall (eps : Epsilon) old from to q, 0 < (eps : R) -> exact_pair eps from to ->
  quat_from_to old from to = Ret q -> qvalid q = true -> exact_pair eps (qv q) from ->
  unit_quat q /\ 0 < norm 3 (co from) /\ 0 < norm 3 (co to) /\
  forall i, (i < 3)%nat -> co (vec_rotate_q from q) i = norm 3 (co from) / norm 3 (co to) * co to i.
Proof.
  intros eps old from to q He Ex E V Ef. pose proof (from_to_form eps old from to q He Ex E V) as F.
  split; [apply (halfway_unit from to q F)|]. split; [apply F|]. split; [apply F|]. apply halfway_aligns; auto.
Qed.
Print Assumptions C35_aligns.

(** Exactly when the function throws, and when it returns an invalid quaternion *)
Theorem C35_outcomes : forall (eps : Epsilon) old from to, exact_dot eps 3 from to ->
  (norm 3 (co from) * norm 3 (co to) < eps -> exists q, quat_from_to old from to = Ret q /\ qvalid q = false) /\
  (norm 3 (co from) * norm 3 (co to) < eps -> forall fb, qvalid (quat_from_to_fb old from to fb) = false) /\
  (eps <= norm 3 (co from) * norm 3 (co to) -> inner 3 (co from) (co to) / (norm 3 (co from) * norm 3 (co to)) + 1 < eps -> quat_from_to old from to = Throws) /\
  (eps <= norm 3 (co from) * norm 3 (co to) -> eps <= inner 3 (co from) (co to) / (norm 3 (co from) * norm 3 (co to)) + 1 ->
     exists q, quat_from_to old from to = Ret q /\ qvalid q = valid from && valid to).
Proof.
  intros eps old from to Ex. split; [|split; [|split]].
  - intros H. rewrite (proj1 (from_to_short eps old from to H)). eauto.
  - intros H fb. rewrite (proj2 (from_to_short eps old from to H)). reflexivity.
  - intros H1 H2. apply (from_to_throws eps old from to H1). rewrite Ex. exact H2.
  - intros H1 H2. unfold quat_from_to. rewrite !sqr_mag_norm2. cbn [nmul nsqrt Rnum]. rewrite sqrt_mul_norm, Ex. cbn [nltb ndiv nadd neps n1 nofZ Rnum].
    rewrite !Rlt_bool_false by lra. eauto.
Qed.
Print Assumptions C35_outcomes.

(** With a fallback axis: either aligned, or [from] and [to] are antiparallel up to the
    tolerance and every vector orthogonal to the axis is reversed. *)
Theorem C35_fallback : forall (eps : Epsilon) old from to fb q, 0 < (eps : R) -> exact_pair eps from to ->
  quat_from_to_fb old from to fb = q -> qvalid q = true ->
  unit_quat q /\
  ((exact_pair eps (qv q) from -> forall i, (i < 3)%nat -> co (vec_rotate_q from q) i = norm 3 (co from) / norm 3 (co to) * co to i) \/
   (inner 3 (co from) (co to) / (norm 3 (co from) * norm 3 (co to)) + 1 < eps /\
    forall v, exact_pair eps (qv q) v -> inner 3 (co fb) (co v) = 0 -> forall i, (i < 3)%nat -> co (vec_rotate_q v q) i = - co v i)).
Proof.
  intros eps old from to fb q He Ex E V. subst q. destruct (from_to_fb_form eps old from to fb He Ex V) as [F|(A & B & E)].
  - split; [apply (halfway_unit from to _ F)|left]. intros Ef. apply halfway_aligns; auto.
  - rewrite E in *. destruct (rotation_unit eps old fb PI He V) as (_ & _ & U). split; [exact U|right]. split.
    + destruct Ex as [Ed _]. rewrite Ed in A. exact A.
    + intros v Ev P i Hi. rewrite (rotation_acts eps old fb PI v _ He eq_refl V Ev i Hi). apply half_turn. exact P.
Qed.
Print Assumptions C35_fallback.

Example C35_example : forall eps : Epsilon, 0 < (eps : R) <= / 100 ->
  let from := mkC [1; 0; 0] true in let to := mkC [0; 2; 0] true in
  exact_pair eps from to /\ eps <= norm 3 (co from) * norm 3 (co to) /\ eps <= inner 3 (co from) (co to) / (norm 3 (co from) * norm 3 (co to)) + 1.
Proof.
  intros eps He from to.
  assert (NF : norm 3 (co from) = 1). { unfold norm. rewrite norm2_3. rewrite <- sqrt_1. f_equal. unfold co, from. cbn [el nth]. ring. }
  assert (NT : norm 3 (co to) = 2). { unfold norm. rewrite norm2_3. replace (co to 0 * co to 0 + co to 1 * co to 1 + co to 2 * co to 2) with (2 * 2); [apply sqrt_square; lra|]. unfold co, to. cbn [el nth]. ring. }
  rewrite NF, NT. split; [|split; [lra|]].
  - apply (exact_pair_large eps _ _ 1); try reflexivity; try lra.
    + intros i Hi. unfold co, from. destruct i as [|[|[|]]]; try lia; cbn [el nth]; rewrite Rabs_pos_eq; lra.
    + left. unfold inner, co, from, to. cbn [Rsum el nth]. lra.
    + intros i Hi. unfold co, from, to. destruct i as [|[|[|]]]; try lia; unfold cross_coord; cbn [el nth]; [left; lra|left; lra|right].
      replace (1 * 2 - 0 * 0) with 2 by lra. rewrite Rabs_pos_eq; lra.
    + exists 1%nat. split; [lia|]. unfold co, to. cbn [el nth]. lra.
  - assert (inner 3 (co from) (co to) = 0) as ->; [unfold inner, co, from, to; cbn [Rsum el nth]; ring|]. lra.
Qed.

(** ** C36, points *)
Theorem C36_point_matrix : forall (eps : Epsilon) n (x o : point R) m, dims n x -> dims n o -> valid o = true ->
  mvalid m = true -> orthogonal n (ent m) ->
  point_to_local n (point_to_parent n x o m) o m = x /\ point_to_parent n (point_to_local n x o m) o m = x.
Proof.
  intros eps n x o m Dx Do Vo V O.
  assert (Z1 : forall v, dims n v -> vec_sub n (vec_add n (vec_zero n) v) (vec_zero n) = v).
  { intros v D. apply (coords_eq n); [apply dims_tab|exact D|simpl; rewrite ?Vo; destruct (valid v); reflexivity|].
    intros i Hi. unfold vec_sub, vec_add, vec_zero. rewrite !(co_tab n) by auto. rewrite ?(at_tab eps n) by auto. cbn [nadd nsub n0 nofZ Rnum]. change (at_ v i) with (co v i). lra. }
  assert (Z2 : forall v, dims n v -> vec_add n (vec_zero n) (vec_sub n v (vec_zero n)) = v).
  { intros v D. apply (coords_eq n); [apply dims_tab|exact D|simpl; rewrite ?Vo; destruct (valid v); reflexivity|].
    intros i Hi. unfold vec_sub, vec_add, vec_zero. rewrite !(co_tab n) by auto. rewrite ?(at_tab eps n) by auto. cbn [nadd nsub n0 nofZ Rnum]. change (at_ v i) with (co v i). lra. }
  assert (Z3 : forall v, dims n v -> vec_sub n (vec_add n o v) o = v).
  { intros v D. apply (coords_eq n); [apply dims_tab|exact D|simpl; rewrite ?Vo; destruct (valid v); reflexivity|].
    intros i Hi. unfold vec_sub, vec_add. rewrite !(co_tab n) by auto. rewrite ?(at_tab eps n) by auto. cbn [nadd nsub n0 nofZ Rnum]. change (at_ v i) with (co v i). lra. }
  assert (Z4 : forall v, dims n v -> vec_add n o (vec_sub n v o) = v).
  { intros v D. apply (coords_eq n); [apply dims_tab|exact D|simpl; rewrite ?Vo; destruct (valid v); reflexivity|].
    intros i Hi. unfold vec_sub, vec_add. rewrite !(co_tab n) by auto. rewrite ?(at_tab eps n) by auto. cbn [nadd nsub n0 nofZ Rnum]. change (at_ v i) with (co v i). lra. }
  unfold point_to_local, point_to_parent. split.
  - rewrite Z3 by apply rotate_dims.
    change (prod_vm n (vec_sub n x (vec_zero n)) m) with (vec_rotate n (vec_sub n x (vec_zero n)) m).
    change (prod_mv n m (vec_rotate n (vec_sub n x (vec_zero n)) m)) with (prod_inv_vm n (vec_rotate n (vec_sub n x (vec_zero n)) m) m).
    rewrite (proj1 (rotate_inverse eps n m (vec_sub n x (vec_zero n)) V O (dims_tab n _ _))). apply Z2; auto.
  - rewrite Z1 by apply prod_mv_dims.
    change (prod_vm n (prod_mv n m (vec_sub n x o)) m) with (vec_rotate n (prod_mv n m (vec_sub n x o)) m).
    rewrite (proj2 (proj2 (rotate_inverse eps n m (vec_sub n x o) V O (dims_tab n _ _)))). apply Z4; auto.
Qed.
Print Assumptions C36_point_matrix.

Theorem C36_point_quaternion : forall (eps : Epsilon) (x o : point R) q, qdims q -> unit_quat q -> valid (qv q) = true -> dims 3 x -> dims 3 o -> valid o = true ->
  exact_pair eps (qv q) (vec_sub 3 x (vec_zero 3)) -> exact_pair eps (qv q) (vec_rotate_q (vec_sub 3 x (vec_zero 3)) q) ->
  exact_pair eps (qv q) (vec_sub 3 x o) -> exact_pair eps (qv q) (vec_rotate_q (vec_sub 3 x o) (quat_inverse q)) ->
  point_to_local_q (point_to_parent_q x o q) o q = x /\ point_to_parent_q (point_to_local_q x o q) o q = x.
Proof.
  intros eps x o q D U V Dx Do Vo E1 E2 E3 E4. split; [apply point_local_parent|apply point_parent_local]; auto; split; auto.
Qed.
Print Assumptions C36_point_quaternion.

Example C36_point_example : exact_pair 0 (qv qx) ex /\ exists m, rot_plane (H := Rnum 0) 3 0 1 1 = Ret m /\ mvalid m = true /\ orthogonal 3 (ent m).
Proof.
  split; [apply exact_pair_0|]. destruct (C33_example 0) as (m & E & _).
  eexists. split; [reflexivity|]. split; [reflexivity|].
  pose proof (sin2_cos2 1) as S. unfold Rsqr in S.
  intros i j Hi Hj. unfold mmul, mtr, ent, rc, delta, mtab, tab. cbn [Rsum].
  destruct i as [|[|[|]]]; try lia; destruct j as [|[|[|]]]; try lia; simpl; nra.
Qed.

(** ** C26, quaternions: any scalar arithmetic *)
Theorem C26_quaternion_age : forall T (N : Num T) (p q : quat T), qvalid (quat_mul p q) = true ->
  (qage (quat_mul p q) < 20)%N /\
  (age_add (qage p) (qage q) < 20 -> qage (quat_mul p q) = age_add (qage p) (qage q))%N /\
  (20 <= age_add (qage p) (qage q) -> qage (quat_mul p q) = 1)%N.
Proof. exact @quat_mul_age. Qed.
Print Assumptions C26_quaternion_age.
Theorem C26_quaternion_quotient_age : forall T (N : Num T) (p q : quat T), qvalid (quat_div p q) = true ->
  (qage (quat_div p q) < 20)%N /\
  (age_add (qage p) (qage q) < 20 -> qage (quat_div p q) = age_add (qage p) (qage q))%N /\
  (20 <= age_add (qage p) (qage q) -> qage (quat_div p q) = 1)%N.
Proof. exact @quat_div_age. Qed.
Print Assumptions C26_quaternion_quotient_age.
Theorem C26_quaternion_normalize_unit : forall (eps : Epsilon) q, qdims q -> unit_quat q -> same_quat (quat_normalize q) q.
Proof.
  intros eps q D U. rewrite (normalize_unit eps q U D). repeat split.
Qed.
Print Assumptions C26_quaternion_normalize_unit.

(** ** C27, quaternions *)
Theorem C27_quaternion_norm : forall (eps : Epsilon) q, let n := hnorm2 (q4 q) in
  hnorm2 (q4 (quat_normalize q)) = 4 * n / (n + 1) ^ 2 /\
  1 - hnorm2 (q4 (quat_normalize q)) = ((n - 1) / (n + 1)) ^ 2.
Proof. exact normalize_norm. Qed.
Print Assumptions C27_quaternion_norm.

(** ** C55, quaternions *)
Theorem C55_quaternion_equality : forall (eps : Epsilon) p q e b, quat_equal p q e = Ret b ->
  (b = true <-> qvalid p = true /\ qvalid q = true /\ (ham_close (q4 p) (q4 q) e \/ ham_close (q4 p) (hneg (q4 q)) e)).
Proof. intros eps p q e b E. apply (quat_equal_spec eps p q e b E). Qed.
Print Assumptions C55_quaternion_equality.
Theorem C55_quaternion_symmetric : forall (eps : Epsilon) p q e b b', quat_equal p q e = Ret b -> quat_equal q p e = Ret b' -> b = b'.
Proof.
  intros eps p q e b b' E E'. destruct (quat_equal_spec eps p q e b E) as [_ I]. destruct (quat_equal_spec eps q p e b' E') as [_ I'].
  apply Bool.eq_true_iff_eq. rewrite I, I'. split; intros (A & B & [C|C]); auto using close_sym, close_neg.
Qed.
Print Assumptions C55_quaternion_symmetric.
Theorem C55_quaternion_reflexive : forall (eps : Epsilon) p q e, 0 < e -> qvalid p = true -> qvalid q = true -> q4 q = q4 p \/ q4 q = hneg (q4 p) ->
  quat_equal (H := Rnum eps) p q e = Ret true.
Proof.
  intros eps p q e He Vp Vq S. destruct (quat_equal (H := Rnum eps) p q e) as [b| | |] eqn:E.
  - destruct (quat_equal_spec eps p q e b E) as [_ I]. f_equal. apply I. split; [exact Vp|]. split; [exact Vq|].
    destruct S as [->| ->]; [left|right]; [|replace (hneg (hneg (q4 p))) with (q4 p) by (destruct (q4 p); unfold hneg; cbn; f_equal; ring)]; apply close_refl; lra.
  - unfold quat_equal, oassert in E. cbn [nltb n0 nofZ Rnum] in E. rewrite Rlt_bool_true in E by lra. repeat (destruct (_ : bool) in E; try discriminate).
  - unfold quat_equal, oassert in E. cbn [nltb n0 nofZ Rnum] in E. rewrite Rlt_bool_true in E by lra. repeat (destruct (_ : bool) in E; try discriminate).
  - unfold quat_equal, oassert in E. cbn [nltb n0 nofZ Rnum] in E. rewrite Rlt_bool_true in E by lra. repeat (destruct (_ : bool) in E; try discriminate).
Qed.
Print Assumptions C55_quaternion_reflexive.

(** ** C56 *)
Theorem C56_product_self_refuted : forall eps : Epsilon, 0 <= (eps : R) <= / 100 -> exists q, qvalid q = true /\ unit_quat q /\
  q4 (quat_mul_self q) <> q4 (quat_mul q q) /\ q4 (quat_div_self q) <> hone.
Proof.
  intros eps He. exists qz.
  assert (Ex : exact_pair eps (qv qz) (qv qz)).
  { apply (exact_pair_large eps _ _ 1); try reflexivity; try lra.
    - intros i Hi. unfold co, qz. destruct i as [|[|[|]]]; try lia; cbn [qv el nth]; rewrite Rabs_pos_eq; lra.
    - right. unfold inner, co, qz. cbn [Rsum qv el nth]. rewrite Rabs_pos_eq; lra.
    - intros i Hi. left. destruct i as [|[|[|]]]; try lia; unfold cross_coord; ring.
    - exists 2%nat. split; [lia|]. unfold co, qz. cbn [qv el nth]. lra. }
  destruct qz_unit as [D U]. split; [reflexivity|]. split; [exact U|]. split.
  - intros E. apply (mul_self_right eps qz D U (proj1 Ex)) in E. unfold qz in E. cbn [qw] in E. lra.
  - rewrite (div_self_q4 eps qz D U (proj1 Ex)). intros E. apply (f_equal hz) in E. cbn [hz hone] in E. unfold q4, qz, co in E. cbn [qw qv el nth hz] in E. lra.
Qed.
Print Assumptions C56_product_self_refuted.

(** When q *= q is right, for unit q, and what q /= q gives *)
Theorem C56_product_self_partial : forall (eps : Epsilon) q, qdims q -> unit_quat q -> exact_dot eps 3 (qv q) (qv q) ->
  (q4 (quat_mul_self q) = q4 (quat_mul q q) <-> qw q = 1 \/ qw q = -1 \/ qw q = - / 2).
Proof. exact mul_self_right. Qed.
Print Assumptions C56_product_self_partial.
Theorem C56_quotient_self_partial : forall (eps : Epsilon) q, qdims q -> unit_quat q -> exact_dot eps 3 (qv q) (qv q) ->
  q4 (quat_div_self q) = mkH 1 ((1 - qw q) * hx (q4 q)) ((1 - qw q) * hy (q4 q)) ((1 - qw q) * hz (q4 q)).
Proof. exact div_self_q4. Qed.
Print Assumptions C56_quotient_self_partial.
