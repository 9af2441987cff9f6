(** Proofs about quaternions over the reals: products, norms, rotation of vectors. *)
From Coq Require Import Reals Lra Lia List Bool Psatz ZArith NArith.
From Flocq Require Import Core.Zaux Core.Raux.
From Verif Require Import Base Scalar ConstModel VecModel RotModel QuatModel RSpec RLib VecSpec RotSpec QuatSpec VecProofs VecProofs2 MatLib RotProofs2.
Import ListNotations.
Open Scope R_scope.

(** ** Hamilton quaternions *)
Ltac hring := unfold sandwich, hmul, hconj, hneg, hone, pure, hnorm2; cbn [hw hx hy hz]; try (f_equal; ring); try ring.
Lemma hmul_assoc a b c : hmul (hmul a b) c = hmul a (hmul b c). Proof. hring. Qed.
Lemma hmul_norm a b : hnorm2 (hmul a b) = hnorm2 a * hnorm2 b. Proof. hring. Qed.
Lemma hconj_norm a : hnorm2 (hconj a) = hnorm2 a. Proof. hring. Qed.
Lemma hconj_hmul a b : hconj (hmul a b) = hmul (hconj b) (hconj a). Proof. hring. Qed.
Lemma hmul_conj a : hnorm2 a = 1 -> hmul a (hconj a) = hone /\ hmul (hconj a) a = hone.
Proof. unfold hnorm2, hmul, hconj, hone. cbn [hw hx hy hz]. intros E. split; f_equal; try ring; rewrite <- E; ring. Qed.
Lemma hmul_one a : hmul a hone = a /\ hmul hone a = a. Proof. destruct a. split; hring. Qed.
Lemma ham_eq a b : hw a = hw b -> hx a = hx b -> hy a = hy b -> hz a = hz b -> a = b.
Proof. destruct a, b. cbn. congruence. Qed.

Lemma coords_valid_eq (a b : vector R) : dims 3 a -> dims 3 b -> valid a = valid b -> co a 0 = co b 0 -> co a 1 = co b 1 -> co a 2 = co b 2 -> a = b.
Proof. intros. apply (coords_eq 3); auto. intros i Hi. destruct i as [|[|[|]]]; auto; lia. Qed.

Section Q.
Context (eps : Epsilon).

(** ** Coordinates of the operations *)
Ltac coq3 := unfold vec_add, vec_sub, vec_neg, vec_scale, vec_div, vec_zero; rewrite ?co_tab by lia; rewrite ?at_tab by lia; toco.

Lemma normalize_q4 q : let n := (hnorm2 (q4 q) + 1) / 2 in
  q4 (quat_normalize q) = mkH (hw (q4 q) / n) (hx (q4 q) / n) (hy (q4 q) / n) (hz (q4 q) / n).
Proof.
  intros n. unfold q4, quat_normalize. cbn [qw qv hw hx hy hz]. rewrite sqr_mag_norm2. coq3.
  assert (E : (qw q * qw q + norm2 3 (co (qv q)) + 1) / 2 = n).
  { unfold n, hnorm2, q4, norm2, inner. cbn [hw hx hy hz Rsum]. field. }
  rewrite E. reflexivity.
Qed.
Lemma normalize_dims q : qdims (quat_normalize q). Proof. apply dims_tab. Qed.

Lemma normalize_unit q : unit_quat q -> qdims q -> quat_normalize q = mkQ (qw q) (qv q) (qvalid q) 1.
Proof.
  intros U D. pose proof (normalize_q4 q) as E. cbv zeta in E. rewrite U in E. replace ((1 + 1) / 2) with 1 in E by lra.
  unfold Rdiv in E; rewrite Rinv_1, !Rmult_1_r in E. injection E as E1 E2 E3 E4.
  unfold quat_normalize in *. cbn [qw qv qvalid qage] in *. f_equal; [exact E1|].
  apply coords_valid_eq; auto. apply dims_tab.
Qed.

(** squared norm n becomes 4n / (n+1)^2 *)
Lemma normalize_norm q : hnorm2 (q4 (quat_normalize q)) = 4 * hnorm2 (q4 q) / (hnorm2 (q4 q) + 1) ^ 2
  /\ 1 - hnorm2 (q4 (quat_normalize q)) = ((hnorm2 (q4 q) - 1) / (hnorm2 (q4 q) + 1)) ^ 2.
Proof.
  rewrite normalize_q4. set (n := hnorm2 (q4 q)).
  assert (P : 0 <= n) by (unfold n, hnorm2; nra).
  assert (E : hnorm2 (mkH (hw (q4 q) / ((n + 1) / 2)) (hx (q4 q) / ((n + 1) / 2)) (hy (q4 q) / ((n + 1) / 2)) (hz (q4 q) / ((n + 1) / 2))) = 4 * n / (n + 1) ^ 2).
  { unfold n at 5, hnorm2. cbn [hw hx hy hz]. field. lra. }
  rewrite E. split; [reflexivity|]. field. lra.
Qed.

Definition checked (q : quat R) : quat R :=
  mkQ (qw q) (qv q) (qvalid q) (if (20 <=? qage q)%N && qvalid q then 1%N else qage q).
Lemma check_unit q : (qvalid q = true -> unit_quat q) -> qdims q -> quat_check q = checked q.
Proof.
  intros U D. unfold quat_check, checked. change (N.of_nat max_norm_age) with 20%N.
  destruct (qvalid q) eqn:V; rewrite ?andb_false_r.
  - rewrite andb_true_r. destruct (20 <=? qage q)%N; [|destruct q; cbn in *; congruence]. rewrite normalize_unit; auto. rewrite V. reflexivity.
  - destruct q. cbn in *. congruence.
Qed.

Definition both (p q : quat R) : Prop := qvalid p = true -> qvalid q = true -> unit_quat p /\ unit_quat q.

Lemma mul_form p q : qdims p -> both p q -> quat_mul p q =
  mkQ (qw p * qw q - dot 3 (qv p) (qv q))
      (vec_sub 3 (vec_add 3 (vec_scale 3 (qv q) (qw p)) (vec_scale 3 (qv p) (qw q))) (cross3 (qv p) (qv q)))
      (qvalid p && qvalid q) (qage (checked (mkQ (qw p) (qv p) (qvalid p && qvalid q) (age_add (qage p) (qage q))))).
Proof.
  intros D U. unfold quat_mul. rewrite check_unit; auto. cbn [qvalid]. intros V. apply andb_true_iff in V as [V1 V2]. exact (proj1 (U V1 V2)).
Qed.
Lemma div_form p q : qdims p -> both p q -> quat_div p q =
  mkQ (qw p * qw q + dot 3 (qv p) (qv q))
      (vec_add 3 (vec_sub 3 (vec_scale 3 (qv p) (qw q)) (vec_scale 3 (qv q) (qw p))) (cross3 (qv p) (qv q)))
      (qvalid p && qvalid q) (qage (checked (mkQ (qw p) (qv p) (qvalid p && qvalid q) (age_add (qage p) (qage q))))).
Proof.
  intros D U. unfold quat_div. rewrite check_unit; auto. cbn [qvalid]. intros V. apply andb_true_iff in V as [V1 V2]. exact (proj1 (U V1 V2)).
Qed.

Lemma mul_q4 p q : qdims p -> both p q -> exact_pair eps (qv p) (qv q) -> q4 (quat_mul p q) = hmul (q4 q) (q4 p).
Proof.
  intros D U [E1 E2]. rewrite mul_form by auto. unfold q4, hmul. cbn [qw qv hw hx hy hz]. rewrite E1. coq3. rewrite !E2 by lia.
  unfold inner. cbn [Rsum cross_coord]. f_equal; ring.
Qed.
Lemma div_q4 p q : qdims p -> both p q -> exact_pair eps (qv p) (qv q) -> q4 (quat_div p q) = hmul (hconj (q4 q)) (q4 p).
Proof.
  intros D U [E1 E2]. rewrite div_form by auto. unfold q4, hmul, hconj. cbn [qw qv hw hx hy hz]. rewrite E1. coq3. rewrite !E2 by lia.
  unfold inner. cbn [Rsum cross_coord]. f_equal; ring.
Qed.
Lemma inverse_q4 q : q4 (quat_inverse q) = hconj (q4 q).
Proof. unfold q4, quat_inverse, hconj. cbn [qw qv hw hx hy hz]. coq3. reflexivity. Qed.
Lemma mul_dims p q : qdims (quat_mul p q). Proof. apply dims_tab. Qed.
Lemma div_dims p q : qdims (quat_div p q). Proof. apply dims_tab. Qed.
Lemma inverse_dims q : qdims (quat_inverse q). Proof. apply dims_tab. Qed.

(** ** Rotating a vector *)
Lemma rotate_q_co v q i : (i < 3)%nat -> co (vec_rotate_q v q) i =
  (2 * qw q * qw q - 1) * co v i + 2 * co (qv q) i * dot 3 (qv q) v + 2 * qw q * co (cross3 (qv q) v) i.
Proof. intros Hi. unfold vec_rotate_q. unfold vec_add, vec_scale. rewrite co_tab by auto. rewrite ?at_tab by auto. toco. ring. Qed.
Lemma rotate_q_dims (v : vector R) q : dims 3 (vec_rotate_q v q). Proof. apply dims_tab. Qed.
Lemma rotate_q_valid (v : vector R) q : valid (vec_rotate_q v q) = valid v && valid (qv q).
Proof. unfold vec_rotate_q. cbn. destruct (valid v), (valid (qv q)); reflexivity. Qed.

Lemma rotate_sandwich v q : unit_quat q -> exact_pair eps (qv q) v ->
  pure (co (vec_rotate_q v q)) = sandwich (q4 q) (co v).
Proof.
  intros U [E1 E2]. unfold pure. rewrite !rotate_q_co by lia. rewrite E1, !E2 by lia.
  unfold unit_quat, hnorm2, q4 in U. cbn [hw hx hy hz] in U.
  unfold sandwich, hmul, hconj, q4, pure. cbn [hw hx hy hz]. unfold inner. cbn [Rsum cross_coord].
  set (w := qw q) in *. set (x := co (qv q) 0) in *. set (y := co (qv q) 1) in *. set (z := co (qv q) 2) in *.
  replace (2 * w * w - 1) with (w * w - x * x - y * y - z * z) by (rewrite <- U; ring).
  f_equal; ring.
Qed.

Lemma sandwich_pure q v : sandwich q v = pure (fun i => match i with 0%nat => hx (sandwich q v) | 1%nat => hy (sandwich q v) | _ => hz (sandwich q v) end).
Proof. unfold pure. unfold sandwich, hmul, hconj, pure. cbn [hw hx hy hz]. f_equal. ring. Qed.
End Q.
