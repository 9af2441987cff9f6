(** Constructors give unit quaternions; group laws; action on vectors. *)
From Coq Require Import Reals Lra Lia List Bool Psatz ZArith NArith.
From Flocq Require Import Core.Zaux Core.Raux.
From Verif Require Import Base Scalar ConstModel VecModel RotModel QuatModel RSpec RLib VecSpec RotSpec QuatSpec VecProofs VecProofs2 MatLib RotProofs2 QuatProofs.
Import ListNotations.
Open Scope R_scope.

Section Q.
Context (eps : Epsilon).
Ltac coq3 := unfold vec_add, vec_sub, vec_neg, vec_scale, vec_div, vec_zero; rewrite ?co_tab by lia; rewrite ?at_tab by lia; toco.

Lemma norm2_3 (f : nat -> R) : norm2 3 f = f 0%nat * f 0%nat + f 1%nat * f 1%nat + f 2%nat * f 2%nat.
Proof. unfold norm2, inner. cbn [Rsum]. ring. Qed.
Lemma norm2_nonneg3 (f : nat -> R) : 0 <= norm2 3 f.
Proof. rewrite norm2_3. nra. Qed.
Lemma norm_sq3 (f : nat -> R) : norm 3 f * norm 3 f = norm2 3 f.
Proof. apply sqrt_sqrt, norm2_nonneg3. Qed.
Lemma hnorm2_q4 q : hnorm2 (q4 q) = qw q * qw q + norm2 3 (co (qv q)).
Proof. rewrite norm2_3. unfold hnorm2, q4. cbn [hw hx hy hz]. ring. Qed.

(** ** Constructors *)
Lemma make_unit w x y z : w * w + x * x + y * y + z * z <> 0 -> unit_quat (quat_make w x y z).
Proof.
  intros E. unfold unit_quat, quat_make, q4, hnorm2, co. cbn [qw qv el nth hw hx hy hz]. toco.
  set (s := w * w + x * x + y * y + z * z) in *. assert (P : 0 < s) by (unfold s in *; nra).
  assert (S : sqrt s * sqrt s = s) by (apply sqrt_sqrt; lra). pose proof (sqrt_lt_R0 s P) as Q.
  replace (w / sqrt s * (w / sqrt s) + x / sqrt s * (x / sqrt s) + y / sqrt s * (y / sqrt s) + z / sqrt s * (z / sqrt s))
    with (s / (sqrt s * sqrt s)) by (unfold s; field; fold s; lra).
  rewrite S. field. lra.
Qed.

Lemma axis_unit old axis angle : qvalid (quat_axis old axis angle) = true -> unit_quat (quat_axis old axis angle).
Proof.
  unfold quat_axis. destruct (_ || _)%bool eqn:E; cbn [qvalid]; [discriminate|]. intros _.
  unfold unit_quat, q4, hnorm2. cbn [qw qv hw hx hy hz]. rewrite !co_tab by lia. toco.
  apply orb_false_iff in E as [E1 E2]. apply Z.ltb_ge in E1, E2.
  assert (C : (axis = 0 \/ axis = 1 \/ axis = 2)%Z) by lia. pose proof (sin2_cos2 (angle / IZR 2)) as Q. unfold Rsqr in Q.
  destruct C as [->|[->| ->]]; [change (Z.to_nat 0) with 0%nat|change (Z.to_nat 1) with 1%nat|change (Z.to_nat 2) with 2%nat]; cbn [Nat.eqb]; lra.
Qed.

Lemma rotation_unit old axis angle : 0 < (eps : R) -> qvalid (quat_rotation old axis angle) = true ->
  0 < norm2 3 (co axis) /\ valid axis = true /\ unit_quat (quat_rotation old axis angle).
Proof.
  intros He. unfold quat_rotation. rewrite mag_norm. cbn [nltb Rnum neps]. destruct (Rlt_bool_spec (norm 3 (co axis)) eps) as [L|L]; cbn [qvalid]; [discriminate|].
  intros V. assert (P : 0 < norm 3 (co axis)) by lra. pose proof (norm_sq3 (co axis)) as S. split; [nra|]. split; [exact V|].
  unfold unit_quat. rewrite hnorm2_q4. cbn [qw qv]. rewrite norm2_3. coq3. rewrite norm2_3 in S.
  pose proof (sin2_cos2 (angle / 2)) as Q. unfold Rsqr in Q. set (n := norm 3 (co axis)) in *.
  transitivity (cos (angle / 2) * cos (angle / 2) + sin (angle / 2) * sin (angle / 2) / (n * n) * (co axis 0 * co axis 0 + co axis 1 * co axis 1 + co axis 2 * co axis 2)).
  - field. lra.
  - rewrite <- S. replace (sin (angle / 2) * sin (angle / 2) / (n * n) * (n * n)) with (sin (angle / 2) * sin (angle / 2)) by (field; lra). lra.
Qed.
Lemma rotation_mag_eq old axis : quat_rotation_mag old axis = quat_rotation old axis (mag 3 axis).
Proof. reflexivity. Qed.

Lemma sqrt_mul_norm a b : sqrt (norm2 3 a * norm2 3 b) = norm 3 a * norm 3 b.
Proof. apply sqrt_mult; apply norm2_nonneg3. Qed.
Lemma cross_norm (a b : nat -> R) : norm2 3 (cross_coord a b) = norm2 3 a * norm2 3 b - inner 3 a b * inner 3 a b.
Proof. rewrite !norm2_3. unfold inner. cbn [Rsum cross_coord]. ring. Qed.

Definition halfway_ok (from to : vector R) (q : quat R) : Prop :=
  0 < norm 3 (co from) /\ 0 < norm 3 (co to) /\
  0 < qw q /\ 2 * qw q * qw q = inner 3 (co from) (co to) / (norm 3 (co from) * norm 3 (co to)) + 1 /\
  (forall i, (i < 3)%nat -> co (qv q) i = cross_coord (co from) (co to) i / (2 * (norm 3 (co from) * norm 3 (co to)) * qw q)) /\
  qvalid q = valid from && valid to /\ valid (qv q) = valid from && valid to /\ qdims q /\ qage q = 1%N.

Lemma halfway_form (from to : vector R) : 0 < (eps : R) -> exact_pair eps from to ->
  ~ norm 3 (co from) * norm 3 (co to) < eps -> ~ dot 3 from to / (norm 3 (co from) * norm 3 (co to)) + 1 < eps ->
  let mp := norm 3 (co from) * norm 3 (co to) in let w := sqrt ((dot 3 from to / mp + 1) / 2) in
  halfway_ok from to (mkQ w (vec_div 3 (cross3 from to) (2 * mp * w)) (valid from && valid to) 1).
Proof.
  intros He [E1 E2] N1 N2 mp w. assert (P1 : 0 < mp) by (unfold mp; lra).
  pose proof (sqrt_pos (norm2 3 (co from))) as A. pose proof (sqrt_pos (norm2 3 (co to))) as B. fold (norm 3 (co from)) in A. fold (norm 3 (co to)) in B.
  assert (W : w * w = (dot 3 from to / mp + 1) / 2) by (apply sqrt_sqrt; unfold mp; lra).
  assert (Wp : 0 < w) by (apply sqrt_lt_R0; unfold mp; lra).
  unfold halfway_ok. cbn [qw qv qvalid qage]. repeat split; auto.
  - unfold mp in P1. nra.
  - unfold mp in P1. nra.
  - rewrite <- E1. fold mp. lra.
  - intros i Hi. unfold vec_div. rewrite co_tab by auto. toco. rewrite E2 by auto. reflexivity.
Qed.

Lemma halfway_unit from to q : halfway_ok from to q -> unit_quat q.
Proof.
  intros (P1 & P2 & P3 & W & V & _). unfold unit_quat. rewrite hnorm2_q4.
  set (mp := norm 3 (co from) * norm 3 (co to)) in *. assert (P : 0 < mp) by (unfold mp; nra).
  assert (M2 : mp * mp = norm2 3 (co from) * norm2 3 (co to)) by (unfold mp; rewrite <- !norm_sq3; ring).
  assert (E : norm2 3 (co (qv q)) = norm2 3 (cross_coord (co from) (co to)) / (4 * (mp * mp) * (qw q * qw q))).
  { rewrite !norm2_3, !V by lia. field. split; lra. }
  rewrite E, cross_norm, <- M2. set (d := inner 3 (co from) (co to)) in *.
  replace (qw q * qw q) with ((d / mp + 1) / 2) by lra.
  assert (d / mp + 1 <> 0) by (rewrite <- W; nra).
  field. split; [lra|]. intros Z. apply H. replace (d / mp + 1) with ((d + mp) / mp) by (field; lra). rewrite Z. field. lra.
Qed.

Lemma from_to_form old from to q : 0 < (eps : R) -> exact_pair eps from to -> quat_from_to old from to = Ret q ->
  qvalid q = true -> halfway_ok from to q.
Proof.
  intros He EX. unfold quat_from_to. rewrite !sqr_mag_norm2. cbn [nltb Rnum neps nsqrt nmul ndiv nadd]. rewrite sqrt_mul_norm.
  destruct (Rlt_bool_spec (norm 3 (co from) * norm 3 (co to)) eps); [intros X; inversion X; discriminate|].
  unfold n1, n2. cbn [nofZ Rnum]. destruct (Rlt_bool_spec (dot 3 from to / (norm 3 (co from) * norm 3 (co to)) + 1) eps); [discriminate|].
  intros X V. injection X as X. subst q. apply halfway_form; auto; lra.
Qed.
Lemma from_to_fb_form old from to fb : 0 < (eps : R) -> exact_pair eps from to -> qvalid (quat_from_to_fb old from to fb) = true ->
  halfway_ok from to (quat_from_to_fb old from to fb) \/
  (dot 3 from to / (norm 3 (co from) * norm 3 (co to)) + 1 < eps /\ eps <= norm 3 (co from) * norm 3 (co to) /\
   quat_from_to_fb old from to fb = quat_rotation old fb PI).
Proof.
  intros He EX. unfold quat_from_to_fb. rewrite !sqr_mag_norm2. cbn [nltb Rnum neps nsqrt nmul ndiv nadd]. rewrite sqrt_mul_norm.
  destruct (Rlt_bool_spec (norm 3 (co from) * norm 3 (co to)) eps); [discriminate|].
  unfold n1, n2. cbn [nofZ Rnum]. destruct (Rlt_bool_spec (dot 3 from to / (norm 3 (co from) * norm 3 (co to)) + 1) eps).
  - intros V. right. repeat split; auto.
  - intros V. left. apply halfway_form; auto; lra.
Qed.

(** ** Everything the API builds is a unit quaternion *)
Definition good_quat (q : quat R) : Prop := qdims q /\ (qvalid q = true -> unit_quat q /\ valid (qv q) = true).

Lemma mul_unit p q : qdims p -> unit_quat p -> unit_quat q -> exact_pair eps (qv p) (qv q) -> unit_quat (quat_mul p q).
Proof. intros D U V E. unfold unit_quat. rewrite (mul_q4 eps), hmul_norm; auto; [|split; auto]. rewrite U, V. ring. Qed.
Lemma div_unit p q : qdims p -> unit_quat p -> unit_quat q -> exact_pair eps (qv p) (qv q) -> unit_quat (quat_div p q).
Proof. intros D U V E. unfold unit_quat. rewrite (div_q4 eps), hmul_norm, hconj_norm; auto; [|split; auto]. rewrite U, V. ring. Qed.
Lemma inverse_unit q : unit_quat q -> unit_quat (quat_inverse q).
Proof. unfold unit_quat. rewrite inverse_q4, hconj_norm. auto. Qed.

Lemma mul_valid p q : qvalid (quat_mul p q) = qvalid p && qvalid q.
Proof. unfold quat_mul, quat_check. destruct (_ && _)%bool; reflexivity. Qed.
Lemma div_valid p q : qvalid (quat_div p q) = qvalid p && qvalid q.
Proof. unfold quat_div, quat_check. destruct (_ && _)%bool; reflexivity. Qed.
Lemma mul_vec_valid p q : valid (qv (quat_mul p q)) = valid (qv p) && valid (qv q).
Proof. unfold quat_mul, quat_check. destruct (_ && qvalid _)%bool; cbn; destruct (valid (qv p)), (valid (qv q)); reflexivity. Qed.
Lemma div_vec_valid p q : valid (qv (quat_div p q)) = valid (qv p) && valid (qv q).
Proof. unfold quat_div, quat_check. destruct (_ && qvalid _)%bool; cbn; destruct (valid (qv p)), (valid (qv q)); reflexivity. Qed.

Lemma old_dims q b : qdims q -> qdims (mkQ (qw q) (qv q) b (qage q)). Proof. auto. Qed.

Lemma rotation_good old axis angle : 0 < (eps : R) -> qdims old -> good_quat (quat_rotation old axis angle).
Proof.
  intros He D. split.
  - unfold quat_rotation. destruct (_ <? _)%num; [exact D|apply dims_tab].
  - intros V. destruct (rotation_unit old axis angle He V) as (_ & VA & U). split; auto.
    unfold quat_rotation in *. destruct (_ <? _)%num; [discriminate V|exact VA].
Qed.
Lemma qeval_good e : 0 < (eps : R) -> forall q, exact_qnodes eps e -> qeval eps e = Ret q -> good_quat q.
Proof.
  intros He. induction e; intros q EX; cbn [qeval exact_qnodes] in *.
  all: try (destruct (qeval eps e) as [q0| | |] eqn:E0; cbn [obind]; try discriminate).
  all: try (destruct (qeval eps e1) as [q1| | |] eqn:E1; cbn [obind]; try discriminate; destruct (qeval eps e2) as [q2| | |] eqn:E2; cbn [obind]; try discriminate).
  - intros X. injection X as <-. split; [apply dims_tab|]. intros _. split; [|reflexivity].
    unfold unit_quat, hnorm2, q4. cbn -[IZR]. unfold n1, n0. cbn [nofZ Rnum]. ring.
  - intros X. injection X as <-. split; [reflexivity|]. intros _. split; [|reflexivity]. apply make_unit; auto.
  - intros X. injection X as <-. destruct (IHe _ EX eq_refl) as [D _]. split.
    + unfold quat_axis. destruct (_ || _)%bool; [exact D|apply dims_tab].
    + intros V. split; [apply axis_unit; auto|]. unfold quat_axis in *. destruct (_ || _)%bool; [discriminate V|reflexivity].
  - intros X. injection X as <-. destruct (IHe _ EX eq_refl) as [D _]. apply rotation_good; auto.
  - intros X. injection X as <-. destruct (IHe _ EX eq_refl) as [D _]. rewrite rotation_mag_eq. apply rotation_good; auto.
  - intros X. destruct EX as [EX EP]. destruct (IHe _ EX eq_refl) as [D _]. split.
    + unfold quat_from_to in X. destruct (_ <? _)%num in X; [injection X as <-; exact D|]. destruct (_ <? _)%num in X; [discriminate|]. injection X as <-. apply dims_tab.
    + intros V. pose proof (from_to_form _ _ _ _ He EP X V) as W. split; [apply (halfway_unit _ _ _ W)|].
      destruct W as (_ & _ & _ & _ & _ & W1 & W2 & _). congruence.
  - intros X. destruct EX as [EX EP]. destruct (IHe _ EX eq_refl) as [D _]. injection X as <-. split.
    + unfold quat_from_to_fb. destruct (_ <? _)%num; [exact D|]. destruct (_ <? _)%num; [|apply dims_tab]. apply (rotation_good q0 fallback npi He D).
    + intros V. destruct (from_to_fb_form _ _ _ _ He EP V) as [W|(_ & _ & W)].
      * split; [apply (halfway_unit _ _ _ W)|]. destruct W as (_ & _ & _ & _ & _ & W1 & W2 & _). congruence.
      * rewrite W in V |- *. apply (rotation_good q0 fallback PI He D). exact V.
  - intros X. injection X as <-. destruct EX as (X1 & X2 & XP). destruct (IHe1 _ X1 eq_refl) as [D1 G1]. destruct (IHe2 _ X2 eq_refl) as [D2 G2].
    split; [apply mul_dims|]. rewrite mul_valid, mul_vec_valid. intros V. apply andb_true_iff in V as [V1 V2].
    destruct (G1 V1) as [U1 W1], (G2 V2) as [U2 W2]. rewrite W1, W2. split; auto. apply mul_unit; auto.
  - intros X. injection X as <-. destruct EX as (X1 & X2 & XP). destruct (IHe1 _ X1 eq_refl) as [D1 G1]. destruct (IHe2 _ X2 eq_refl) as [D2 G2].
    split; [apply div_dims|]. rewrite div_valid, div_vec_valid. intros V. apply andb_true_iff in V as [V1 V2].
    destruct (G1 V1) as [U1 W1], (G2 V2) as [U2 W2]. rewrite W1, W2. split; auto. apply div_unit; auto.
  - intros X. injection X as <-. destruct (IHe _ EX eq_refl) as [D G]. split; [apply inverse_dims|]. intros V. destruct (G V) as [U W]. split; auto. apply inverse_unit; auto.
  - intros X. injection X as <-. destruct (IHe _ EX eq_refl) as [D G]. split; [apply normalize_dims|]. intros V. destruct (G V) as [U W].
    rewrite (normalize_unit eps) by auto. auto.
  - intros X. injection X as <-. split; [reflexivity|discriminate].
Qed.
End Q.
