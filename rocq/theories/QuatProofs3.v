(** Group laws and the action of quaternions on vectors. *)
From Coq Require Import Reals Lra Lia List Bool Psatz ZArith NArith.
From Flocq Require Import Core.Zaux Core.Raux.
From Verif Require Import Base Scalar ConstModel VecModel RotModel QuatModel RSpec RLib VecSpec RotSpec QuatSpec VecProofs VecProofs2 MatLib RotProofs2 QuatProofs QuatProofs2.
Import ListNotations.
Open Scope R_scope.

Section Q.
Context (eps : Epsilon).
Ltac coq3 := unfold vec_add, vec_sub, vec_neg, vec_scale, vec_div, vec_zero; rewrite ?co_tab by lia; rewrite ?at_tab by lia; toco.

(** ** Signs: the rounding in Dot and Cross is symmetric *)
Lemma max_abs_neg v : dims 3 v -> max_abs (H := Rnum eps) (el (vec_neg 3 v)) = max_abs (H := Rnum eps) (el v).
Proof.
  intros D. destruct (coords3 v D) as (x & y & z & b & ->). unfold vec_neg, max_abs. cbn [el]. unfold at_, get. cbn [tab el nth fold_left map seq nopp nabs Rnum].
  rewrite !Rabs_Ropp. reflexivity.
Qed.
Lemma arr_neg_r u v : dims 3 v -> scale_eps_arr (H := Rnum eps) (el u) (el (vec_neg 3 v)) eps = scale_eps_arr (H := Rnum eps) (el u) (el v) eps.
Proof. intros D. unfold scale_eps_arr. rewrite max_abs_neg; auto. Qed.
Lemma dot_neg_r u v : dims 3 v -> dot 3 u (vec_neg 3 v) = - dot 3 u v.
Proof.
  intros D. rewrite !dot_def, arr_neg_r by auto.
  assert (E : inner 3 (co u) (co (vec_neg 3 v)) = - inner 3 (co u) (co v)) by (unfold inner; cbn [Rsum]; coq3; ring).
  rewrite E, Rabs_Ropp. destruct (Rle_bool _ _); ring.
Qed.
Lemma cross3_neg_r u v i : dims 3 v -> (i < 3)%nat -> co (cross3 u (vec_neg 3 v)) i = - co (cross3 u v) i.
Proof.
  intros D Hi. rewrite !cross3_co, arr_neg_r by auto. rewrite <- rclamp_opp. f_equal.
  destruct i as [|[|[|]]]; try lia; cbn [cross_coord]; coq3; ring.
Qed.
Lemma dot_neg_l u v : dims 3 u -> dot 3 (vec_neg 3 u) v = - dot 3 u v.
Proof. intros. rewrite dot_comm, dot_neg_r by auto. rewrite dot_comm. reflexivity. Qed.
Lemma cross3_neg_l u v i : dims 3 u -> (i < 3)%nat -> co (cross3 (vec_neg 3 u) v) i = - co (cross3 u v) i.
Proof.
  intros D Hi. rewrite cross3_anti. unfold vec_neg at 1. rewrite co_tab by auto. toco. rewrite cross3_neg_r by auto.
  rewrite (cross3_anti eps u v). unfold vec_neg at 1. rewrite co_tab by auto. toco. ring.
Qed.

(** division is multiplication by the inverse, rounding included *)
Lemma div_is_mul_inverse p q : qdims q -> quat_div p q = quat_mul p (quat_inverse q).
Proof.
  intros D. unfold quat_div, quat_mul. cbn [quat_inverse qw qv qvalid qage].
  set (a := quat_check _). destruct (valid (qv q)) eqn:V.
  all: f_equal; [rewrite dot_neg_r by auto; cbn [nadd nsub Rnum]; ring|].
  all: apply (coords_eq 3); try apply dims_tab;
    [cbn; rewrite ?V; destruct (valid (qv a)); reflexivity|].
  all: intros i Hi; unfold vec_add, vec_sub, vec_scale; rewrite ?co_tab by auto; rewrite ?at_tab by auto; toco;
    rewrite cross3_neg_r by auto; unfold vec_neg; rewrite co_tab by auto; toco; ring.
Qed.

Lemma exact_pair_neg_r a b : dims 3 b -> exact_pair eps a b -> exact_pair eps a (vec_neg 3 b).
Proof.
  intros D [E1 E2]. split.
  - unfold exact_dot in *. rewrite dot_neg_r, E1 by auto. unfold inner. cbn [Rsum]. coq3. ring.
  - intros i Hi. rewrite cross3_neg_r, E2 by auto. destruct i as [|[|[|]]]; try lia; cbn [cross_coord]; coq3; ring.
Qed.
Lemma exact_pair_neg_l a b : dims 3 a -> exact_pair eps a b -> exact_pair eps (vec_neg 3 a) b.
Proof.
  intros D [E1 E2]. split.
  - unfold exact_dot in *. rewrite dot_neg_l, E1 by auto. unfold inner. cbn [Rsum]. coq3. ring.
  - intros i Hi. rewrite cross3_neg_l, E2 by auto. destruct i as [|[|[|]]]; try lia; cbn [cross_coord]; coq3; ring.
Qed.
Lemma exact_self a : exact_dot eps 3 a a -> exact_pair eps a a.
Proof.
  intros E. split; auto. intros i Hi. rewrite cross3_co by auto.
  assert (Z : cross_coord (co a) (co a) i = 0) by (destruct i as [|[|[|]]]; try lia; cbn [cross_coord]; ring).
  rewrite Z. unfold rclamp. destruct (Rlt_bool _ _); reflexivity.
Qed.
Lemma exact_zero_r a : exact_pair eps a (vec_zero 3).
Proof.
  split.
  - unfold exact_dot. rewrite dot_def. assert (Z : inner 3 (co a) (co (vec_zero 3)) = 0) by (unfold inner; cbn [Rsum]; coq3; ring).
    rewrite Z. destruct (Rle_bool _ _); reflexivity.
  - intros i Hi. rewrite cross3_co by auto. assert (Z : cross_coord (co a) (co (vec_zero 3)) i = 0) by (destruct i as [|[|[|]]]; try lia; cbn [cross_coord]; coq3; ring).
    rewrite Z. unfold rclamp. destruct (Rlt_bool _ _); reflexivity.
Qed.
Lemma exact_zero_l a : exact_pair eps (vec_zero 3) a.
Proof.
  split.
  - unfold exact_dot. rewrite dot_def. assert (Z : inner 3 (co (vec_zero 3)) (co a) = 0) by (unfold inner; cbn [Rsum]; coq3; ring).
    rewrite Z. destruct (Rle_bool _ _); reflexivity.
  - intros i Hi. rewrite cross3_co by auto. assert (Z : cross_coord (co (vec_zero 3)) (co a) i = 0) by (destruct i as [|[|[|]]]; try lia; cbn [cross_coord]; coq3; ring).
    rewrite Z. unfold rclamp. destruct (Rlt_bool _ _); reflexivity.
Qed.

(** ** Group laws *)
Lemma same_quat_intro p q : qdims p -> qdims q -> q4 p = q4 q -> qvalid p = qvalid q -> valid (qv p) = valid (qv q) -> same_quat p q.
Proof.
  intros D1 D2 E V W. injection E as E1 E2 E3 E4. split; [auto|]. split; [|auto]. apply coords_valid_eq; auto.
Qed.
Definition unitv (q : quat R) : Prop := qdims q /\ unit_quat q.

Lemma both_unit p q : unitv p -> unitv q -> both p q.
Proof. intros [_ U] [_ V]. split; auto. Qed.
Lemma mul_assoc p q r : unitv p -> unitv q -> unitv r ->
  exact_pair eps (qv p) (qv q) -> exact_pair eps (qv q) (qv r) ->
  exact_pair eps (qv (quat_mul p q)) (qv r) -> exact_pair eps (qv p) (qv (quat_mul q r)) ->
  same_quat (quat_mul (quat_mul p q) r) (quat_mul p (quat_mul q r)).
Proof.
  intros P Q R E1 E2 E3 E4.
  assert (PQ : unitv (quat_mul p q)) by (split; [apply mul_dims|apply mul_unit; auto; try apply P; try apply Q]).
  assert (QR : unitv (quat_mul q r)) by (split; [apply mul_dims|apply mul_unit; auto; try apply R; try apply Q]).
  apply same_quat_intro; try apply mul_dims.
  - rewrite !(mul_q4 eps); auto using both_unit; try apply P; try apply Q; try apply PQ. apply eq_sym, hmul_assoc.
  - rewrite !mul_valid. apply eq_sym, andb_assoc.
  - rewrite !mul_vec_valid. apply eq_sym, andb_assoc.
Qed.
Lemma identity_unitv : unitv (quat_identity (H := Rnum eps)).
Proof. split; [apply dims_tab|]. unfold unit_quat, hnorm2, q4. cbn [quat_identity qw qv hw hx hy hz]. coq3. ring. Qed.
Lemma identity_q4 : q4 (quat_identity (H := Rnum eps)) = hone.
Proof. unfold q4, quat_identity, hone. cbn [qw qv]. coq3. reflexivity. Qed.
Lemma mul_identity q : unitv q -> qvalid q = true -> valid (qv q) = true -> same_quat (quat_mul q quat_identity) q /\ same_quat (quat_mul quat_identity q) q.
Proof.
  intros U V W. pose proof identity_unitv as I. split; apply same_quat_intro; try apply mul_dims; try apply U; rewrite ?mul_valid, ?mul_vec_valid, ?V, ?W; auto.
  - rewrite (mul_q4 eps), identity_q4; auto using both_unit, exact_zero_r; try apply U. apply hmul_one.
  - rewrite (mul_q4 eps), identity_q4; auto using both_unit, exact_zero_l; try apply I. apply hmul_one.
Qed.
Lemma inverse_unitv q : unitv q -> unitv (quat_inverse q).
Proof. intros [D U]. split; [apply inverse_dims|apply inverse_unit; auto]. Qed.
Lemma mul_inverse q : unitv q -> qvalid q = true -> valid (qv q) = true -> exact_dot eps 3 (qv q) (qv q) ->
  same_quat (quat_mul q (quat_inverse q)) quat_identity /\ same_quat (quat_mul (quat_inverse q) q) quat_identity.
Proof.
  intros U V W E. pose proof (exact_self _ E) as X. pose proof identity_unitv as I. pose proof (inverse_unitv q U) as J.
  split; apply same_quat_intro; try apply mul_dims; try apply I; rewrite ?mul_valid, ?mul_vec_valid; cbn [quat_inverse qvalid qv vec_neg valid quat_identity vec_zero]; rewrite ?V, ?W; auto.
  - rewrite (mul_q4 eps), identity_q4, inverse_q4; auto using both_unit; try apply U.
    + apply (hmul_conj (q4 q)), U.
    + apply exact_pair_neg_r; auto. apply U.
  - rewrite (mul_q4 eps), identity_q4, inverse_q4; auto using both_unit; try apply J.
    + apply (hmul_conj (q4 q)), U.
    + apply exact_pair_neg_l; auto. apply U.
Qed.
Lemma inverse_inverse q : qdims q -> quat_inverse (quat_inverse q) = q.
Proof.
  intros D. destruct q as [w v b g]. unfold quat_inverse. cbn. f_equal. apply (coords_eq 3); try apply D; try apply dims_tab; auto.
  intros i Hi. unfold vec_neg. rewrite co_tab by auto. toco. rewrite co_tab by auto. toco. ring.
Qed.
Lemma inverse_mul p q : unitv p -> unitv q -> exact_pair eps (qv p) (qv q) ->
  same_quat (quat_inverse (quat_mul p q)) (quat_mul (quat_inverse q) (quat_inverse p)).
Proof.
  intros P Q E. apply same_quat_intro; try apply mul_dims; try apply inverse_dims.
  - rewrite inverse_q4, !(mul_q4 eps), !inverse_q4; auto using both_unit, inverse_unitv; try apply P; try (apply inverse_dims).
    + apply hconj_hmul.
    + cbn [quat_inverse qv]. apply exact_pair_neg_l, exact_pair_neg_r; try apply P; try apply Q.
      destruct E as [E1 E2]. split; [unfold exact_dot in *; rewrite dot_comm, inner_comm; exact E1|].
      intros i Hi. rewrite cross3_anti. unfold vec_neg. rewrite co_tab by auto. toco. rewrite E2 by auto. apply eq_sym, cross_coord_anti.
  - cbn [quat_inverse qvalid]. rewrite !mul_valid. cbn [quat_inverse qvalid]. apply andb_comm.
  - cbn [quat_inverse qv vec_neg valid]. rewrite !mul_vec_valid. cbn [quat_inverse qv vec_neg valid]. apply andb_comm.
Qed.

(** ** Action on vectors *)
Lemma pure_co v w : pure (co v) = pure (co w) -> forall i, (i < 3)%nat -> co v i = co w i.
Proof. intros E i Hi. injection E as E0 E1 E2. destruct i as [|[|[|]]]; auto; lia. Qed.

Lemma sandwich_compose p q v u : pure u = sandwich p v -> sandwich q u = sandwich (hmul q p) v.
Proof. intros E. unfold sandwich in *. rewrite E, hconj_hmul, !hmul_assoc. reflexivity. Qed.

Lemma rotate_mul v p q : unitv p -> unitv q ->
  exact_pair eps (qv p) v -> exact_pair eps (qv q) (vec_rotate_q v p) ->
  exact_pair eps (qv p) (qv q) -> exact_pair eps (qv (quat_mul p q)) v ->
  vec_rotate_q (vec_rotate_q v p) q = vec_rotate_q v (quat_mul p q).
Proof.
  intros P Q E1 E2 E3 E4. apply (coords_eq 3); try apply rotate_q_dims.
  - rewrite !rotate_q_valid, mul_vec_valid. apply eq_sym, andb_assoc.
  - apply pure_co. rewrite !(rotate_sandwich eps); try apply Q; auto.
    + rewrite (mul_q4 eps); auto using both_unit; try apply P. apply sandwich_compose, rotate_sandwich; auto. apply P.
    + apply mul_unit; auto; try apply P; apply Q.
Qed.

Lemma rotate_q_inner v w q : unit_quat q -> exact_pair eps (qv q) v -> exact_pair eps (qv q) w ->
  inner 3 (co (vec_rotate_q v q)) (co (vec_rotate_q w q)) = inner 3 (co v) (co w).
Proof.
  intros U E F. pose proof (rotate_sandwich eps v q U E) as A. pose proof (rotate_sandwich eps w q U F) as B.
  set (v' := co (vec_rotate_q v q)) in *. set (w' := co (vec_rotate_q w q)) in *.
  assert (S : forall a b, inner 3 a b = hw (hmul (pure a) (hconj (pure b)))) by (intros; unfold inner, hmul, hconj, pure; cbn [hw hx hy hz Rsum]; ring).
  rewrite !S, A, B. unfold sandwich. rewrite !hconj_hmul.
  replace (hmul (hmul (hmul (q4 q) (pure (co v))) (hconj (q4 q))) (hmul (hconj (hconj (q4 q))) (hmul (hconj (pure (co w))) (hconj (q4 q)))))
    with (hmul (q4 q) (hmul (hmul (pure (co v)) (hmul (hmul (hconj (q4 q)) (hconj (hconj (q4 q)))) (hconj (pure (co w))))) (hconj (q4 q)))) by (rewrite !hmul_assoc; reflexivity).
  assert (C : hconj (hconj (q4 q)) = q4 q) by (unfold hconj; destruct (q4 q); cbn; f_equal; ring).
  rewrite C, (proj2 (hmul_conj (q4 q) U)), (proj2 (hmul_one _)).
  set (X := hmul (pure (co v)) (hconj (pure (co w)))).
  assert (T : hw (hmul (q4 q) (hmul X (hconj (q4 q)))) = hnorm2 (q4 q) * hw X) by (unfold hmul, hconj, hnorm2; cbn [hw hx hy hz]; ring).
  rewrite T, U. ring.
Qed.

Lemma rotate_undo v q : unitv q -> dims 3 v -> valid (qv q) = true ->
  exact_pair eps (qv q) v -> exact_pair eps (qv q) (vec_rotate_q v q) -> vec_rotate_q (vec_rotate_q v q) (quat_inverse q) = v.
Proof.
  intros U D V E F. apply (coords_eq 3); auto; try apply rotate_q_dims.
  - rewrite !rotate_q_valid. cbn. rewrite V. destruct (valid v); reflexivity.
  - apply pure_co. rewrite (rotate_sandwich eps); [|apply inverse_unitv; auto|].
    + rewrite inverse_q4, (sandwich_compose (q4 q) _ (co v)) by (apply rotate_sandwich; auto; apply U).
      rewrite (proj2 (hmul_conj (q4 q) (proj2 U))). unfold sandwich. rewrite (proj2 (hmul_one _)).
      replace (hconj hone) with hone by (unfold hconj, hone; cbn; f_equal; ring). apply hmul_one.
    + apply exact_pair_neg_l; auto. apply U.
Qed.

(** q and -q: no side conditions *)
Lemma rotate_opposite v q q' : qdims q -> qdims q' -> q4 q' = hneg (q4 q) -> forall i, (i < 3)%nat -> co (vec_rotate_q v q') i = co (vec_rotate_q v q) i.
Proof.
  intros D D' E i Hi. injection E as E0 E1 E2 E3.
  assert (N : exists b, qv q' = mkC (tab 3 (fun i => - co (qv q) i)) b).
  { exists (valid (qv q')). apply coords_valid_eq; auto; try apply dims_tab; rewrite co_tab by lia; auto. }
  destruct N as [b N]. rewrite !rotate_q_co by auto. rewrite N, E0.
  assert (Dt : dot 3 (mkC (tab 3 (fun i => - co (qv q) i)) b) v = dot 3 (vec_neg 3 (qv q)) v) by reflexivity.
  assert (Cr : co (cross3 (mkC (tab 3 (fun i => - co (qv q) i)) b) v) i = co (cross3 (vec_neg 3 (qv q)) v) i) by reflexivity.
  rewrite Dt, Cr, dot_neg_l, cross3_neg_l, co_tab by auto. ring.
Qed.

(** rotation(axis, angle) *)
Lemma rotation_acts old axis angle v q : 0 < (eps : R) -> quat_rotation old axis angle = q -> qvalid q = true ->
  exact_pair eps (qv q) v -> forall i, (i < 3)%nat -> co (vec_rotate_q v q) i = rodrigues (co axis) angle (co v) i.
Proof.
  intros He Eq V E i Hi. subst q. destruct (rotation_unit eps old axis angle He V) as (P & VA & U).
  pose proof E as [E1 E2]. rewrite rotate_q_co, E1, E2 by auto. unfold quat_rotation in *. rewrite mag_norm in *. cbn [nltb Rnum neps] in *.
  destruct (Rlt_bool (norm 3 (co axis)) eps); [discriminate V|]. cbn [qw qv] in *. clear U E E1 E2 V.
  unfold rodrigues. cbn [ncos nsin ndiv n2 nofZ Rnum]. pose proof (norm_sq3 (co axis)) as S.
  assert (Ps : 0 < norm 3 (co axis)) by (apply sqrt_lt_R0; auto). set (n := norm 3 (co axis)) in *.
  set (c := cos (angle / 2)). set (s := sin (angle / 2)).
  assert (CA : cos angle = c * c - s * s) by (unfold c, s; rewrite <- cos_2a; f_equal; field).
  assert (SA : sin angle = 2 * s * c) by (unfold c, s; rewrite <- sin_2a; f_equal; field).
  rewrite CA, SA. clear CA SA.
  assert (CS : c * c = 1 - s * s) by (pose proof (sin2_cos2 (angle / 2)) as Q; unfold Rsqr in Q; unfold c, s; lra).
  clearbody c s n. set (u := vec_scale 3 axis (s / n)).
  assert (A : forall j, (j < 3)%nat -> co u j = co axis j * (s / n)) by (intros; unfold u, vec_scale; rewrite co_tab by auto; reflexivity).
  clearbody u. rewrite A by auto.
  assert (I : inner 3 (co u) (co v) = s / n * inner 3 (co axis) (co v)) by (unfold inner; cbn [Rsum]; rewrite !A by lia; ring).
  assert (C : cross_coord (co u) (co v) i = s / n * cross_coord (co axis) (co v) i) by (destruct i as [|[|[|]]]; try lia; cbn [cross_coord]; rewrite !A by lia; ring).
  rewrite I, C, <- S. replace (2 * c * c - 1) with (c * c - s * s) by lra. replace (1 - (c * c - s * s)) with (2 * s * s) by lra. field. lra.
Qed.
Lemma rodrigues_axis (axis : nat -> R) t i : 0 < norm2 3 axis -> (i < 3)%nat -> rodrigues axis t axis i = axis i.
Proof.
  intros P Hi. unfold rodrigues. assert (C : cross_coord axis axis i = 0) by (destruct i as [|[|[|]]]; try lia; cbn [cross_coord]; ring).
  rewrite C. change (inner 3 axis axis) with (norm2 3 axis). field. split; [lra|]. pose proof (sqrt_lt_R0 _ P). unfold norm. lra.
Qed.
(** On vectors orthogonal to the axis: rotation by t in the plane of v and axis x v / |axis|. *)
Lemma rodrigues_perp (axis v : nat -> R) t i : inner 3 axis v = 0 -> rodrigues axis t v i = cos t * v i + sin t * (cross_coord axis v i / norm 3 axis).
Proof. intros Z. unfold rodrigues. rewrite Z. unfold Rdiv. ring. Qed.
Lemma perp_basis (axis v : nat -> R) : 0 < norm2 3 axis -> inner 3 axis v = 0 ->
  let w i := cross_coord axis v i / norm 3 axis in inner 3 axis w = 0 /\ inner 3 v w = 0 /\ norm2 3 w = norm2 3 v.
Proof.
  intros P Z w. pose proof (sqrt_lt_R0 _ P) as Q. fold (norm 3 axis) in Q. pose proof (norm_sq3 axis) as S. unfold w. split; [|split].
  - unfold inner. cbn [Rsum cross_coord]. field. lra.
  - unfold inner. cbn [Rsum cross_coord]. field. lra.
  - assert (E : norm2 3 (fun i => cross_coord axis v i / norm 3 axis) = norm2 3 (cross_coord axis v) / (norm 3 axis * norm 3 axis)) by (rewrite !norm2_3; field; lra).
    rewrite E, cross_norm, Z, S. field. lra.
Qed.
End Q.
