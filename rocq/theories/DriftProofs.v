(** How far the length of a quaternion can drift from 1 in products (C65). *)
From Coq Require Import Reals Lra Lia List Bool Psatz ZArith NArith.
From Flocq Require Import Core.Zaux Core.Raux.
From Verif Require Import Base Scalar ConstModel VecModel RotModel QuatModel RSpec RLib VecSpec VecProofs VecProofs2 VecProofs4 RotSpec MatLib RotProofs RotProofs2 RotProofs3 RotProofs7 QuatSpec QuatProofs QuatProofs2 QuatProofs3 QuatProofs4 QuatProofs5 QuatProofs6 QuatProofs7.
Import ListNotations.
Open Scope R_scope.

Section D.
Context (eps : Epsilon).

(** ** Right factors of length one *)
Lemma perturbed a b c d x y z w k : 0 <= k ->
  Rabs (x - a) <= k -> Rabs (y - b) <= k -> Rabs (z - c) <= k -> Rabs (w - d) <= k ->
  Rabs (x * x + y * y + z * z + w * w - (a * a + b * b + c * c + d * d)) <= 2 * k * (a * a + b * b + c * c + d * d + 1) + 4 * (k * k).
Proof.
  intros K A B C D.
  assert (Q : forall s t, Rabs s <= k -> - (k * (t * t + / 4)) <= s * t <= k * (t * t + / 4)).
  { intros s t Hs. apply Rabs_le_inv in Hs. assert (M : Rabs t <= t * t + / 4) by (destruct (Rcase_abs t); [rewrite Rabs_left by auto|rewrite Rabs_right by auto]; [pose proof (pow2_ge_0 (t + / 2))|pose proof (pow2_ge_0 (t - / 2))]; lra).
    apply Rabs_le_inv. rewrite Rabs_mult. apply Rmult_le_compat; auto using Rabs_pos. apply Rabs_le; lra. }
  assert (S2 : forall s, Rabs s <= k -> 0 <= s * s <= k * k).
  { intros s Hs. split; [nra|]. rewrite <- (Rabs_pos_eq (s * s)) by nra. rewrite Rabs_mult. pose proof (Rabs_pos s). apply Rmult_le_compat; auto. }
  pose proof (S2 _ A). pose proof (S2 _ B). pose proof (S2 _ C). pose proof (S2 _ D).
  pose proof (Q _ a A). pose proof (Q _ b B). pose proof (Q _ c C). pose proof (Q _ d D).
  apply Rabs_le.
  replace (x * x + y * y + z * z + w * w - (a * a + b * b + c * c + d * d)) with (2 * ((x - a) * a + (y - b) * b + (z - c) * c + (w - d) * d) + ((x - a) * (x - a) + (y - b) * (y - b) + (z - c) * (z - c) + (w - d) * (w - d))) by ring.
  lra.
Qed.
Lemma bounded_of q B : 0 <= B -> hnorm2 (q4 q) <= B * B -> bounded_by 3 (qv q) B.
Proof.
  intros HB. unfold hnorm2, q4. cbn [hw hx hy hz]. intros U.
  assert (S : forall x, x * x <= B * B -> Rabs x <= B) by (intros x Hx; apply Rabs_le; split; nra).
  intros i Hi. apply S. destruct i as [|[|[|]]]; try lia; nra.
Qed.
Definition raw (a q : quat R) : quat R :=
  mkQ (qw a * qw q - dot 3 (qv a) (qv q)) (vec_sub 3 (vec_add 3 (vec_scale 3 (qv q) (qw a)) (vec_scale 3 (qv a) (qw q))) (cross3 (qv a) (qv q))) (qvalid a) (qage a).
Lemma raw_norm a q : 0 <= (eps : R) -> qdims a -> qdims q -> unit_quat q -> hnorm2 (q4 a) <= 4 ->
  Rabs (hnorm2 (q4 (raw a q)) - hnorm2 (q4 a)) <= 4 * eps * (hnorm2 (q4 a) + 1) + 16 * (eps * eps).
Proof.
  intros He D1 D2 U2 Ha.
  assert (B1 : bounded_by 3 (qv a) 2) by (apply bounded_of; lra). assert (B2 : bounded_by 3 (qv q) 1) by (apply bounded_of; [lra|rewrite U2; lra]).
  pose proof (dot_error eps 3 (qv a) (qv q) 2 1 ltac:(lia) He D1 D2 B1 B2) as Ed.
  pose proof (fun i Hi => cross3_error eps (qv a) (qv q) 2 1 i He D1 D2 B1 B2 Hi) as Ec.
  rewrite Rmin_right in Ed by lra. rewrite Rmin_right in Ec by lra. rewrite Rmult_1_r in Ed, Ec.
  pose proof (hmul_norm (q4 q) (q4 a)) as N. unfold unit_quat in U2. rewrite U2, Rmult_1_l in N. rewrite <- N.
  unfold raw, hnorm2, hmul, q4. cbn [qw qv hw hx hy hz]. unfold vec_sub, vec_add, vec_scale. rewrite ?co_tab by lia. rewrite ?at_tab by lia. toco.
  replace (4 * eps) with (2 * (2 * eps)) by ring. replace (16 * (eps * eps)) with (4 * ((2 * eps) * (2 * eps))) by ring.
  apply perturbed; [lra|..].
  - replace (_ - _) with (- (dot 3 (qv a) (qv q) - inner 3 (co (qv a)) (co (qv q)))) by (unfold inner; cbn [Rsum]; ring). rewrite Rabs_Ropp. exact Ed.
  - specialize (Ec 0%nat ltac:(lia)). rewrite <- Rabs_Ropp in Ec. refine (Rle_trans _ _ _ (Req_le _ _ _) Ec). f_equal. cbn [cross_coord]. ring.
  - specialize (Ec 1%nat ltac:(lia)). rewrite <- Rabs_Ropp in Ec. refine (Rle_trans _ _ _ (Req_le _ _ _) Ec). f_equal. cbn [cross_coord]. ring.
  - specialize (Ec 2%nat ltac:(lia)). rewrite <- Rabs_Ropp in Ec. refine (Rle_trans _ _ _ (Req_le _ _ _) Ec). f_equal. cbn [cross_coord]. ring.
Qed.

Definition near (q : quat R) : Prop :=
  qdims q /\ qvalid q = true /\ (qage q < 20)%N /\ Rabs (hnorm2 (q4 q) - 1) <= 10 * eps * (IZR (Z.of_N (qage q)) + 1).
Lemma near_unit q : qdims q -> qvalid q = true -> (qage q < 20)%N -> unit_quat q -> 0 <= (eps : R) -> near q.
Proof. intros D V A U He. repeat split; auto. rewrite U, Rminus_diag_eq, Rabs_R0 by auto. assert (0 <= IZR (Z.of_N (qage q))) by (apply IZR_le; lia). nra. Qed.
Lemma near_bound q : near q -> 0 <= (eps : R) -> Rabs (hnorm2 (q4 q) - 1) <= 200 * eps.
Proof. intros (_ & _ & A & B) He. assert (IZR (Z.of_N (qage q)) <= 19) by (apply IZR_le; lia). nra. Qed.
Lemma near_inverse q : near q -> near (quat_inverse q).
Proof.
  intros (D & V & A & B). split; [apply dims_tab|]. split; [auto|]. split; [auto|].
  replace (hnorm2 (q4 (quat_inverse q))) with (hnorm2 (q4 q)); [exact B|]. rewrite (inverse_q4 eps). unfold hnorm2, hconj. cbn [hw hx hy hz]. ring.
Qed.
Lemma normalize_near q : near q -> 0 <= (eps : R) <= / 5000 -> Rabs (hnorm2 (q4 (quat_normalize q)) - 1) <= 10 * eps.
Proof.
  intros G He. pose proof (near_bound q G ltac:(lra)) as B. destruct (normalize_norm eps q) as [_ E]. set (n := hnorm2 (q4 q)) in *.
  rewrite <- Rabs_Ropp. replace (- (hnorm2 (q4 (quat_normalize q)) - 1)) with (1 - hnorm2 (q4 (quat_normalize q))) by ring. rewrite E. apply Rabs_le_inv in B.
  assert (I : / (n + 1) <= 1). { rewrite <- Rinv_1. apply Rinv_le_contravar; lra. } assert (I0 : 0 < / (n + 1)) by (apply Rinv_0_lt_compat; lra).
  set (r := (n - 1) / (n + 1)). assert (R1 : - (200 * eps) <= r <= 200 * eps) by (unfold r, Rdiv; split; nra).
  rewrite Rabs_pos_eq by apply pow2_ge_0. replace (r ^ 2) with (r * r) by ring.
  assert (I2 : (n + 1) * / (n + 1) = 1) by (apply Rinv_r; lra). assert (I3 : / (n + 1) <= 52 / 100) by nra.
  assert (R2 : - (104 * eps) <= r <= 104 * eps) by (unfold r, Rdiv; split; nra). nra.
Qed.
Lemma near_normalize q : near q -> 0 <= (eps : R) <= / 5000 -> near (quat_normalize q).
Proof.
  intros G He. pose proof (normalize_near q G He) as B. destruct G as (D & V & A & _). split; [apply normalize_dims|]. split; [exact V|]. split; [cbn [quat_normalize qage]; lia|]. cbn [quat_normalize qage]. change (IZR (Z.of_N 1)) with 1. fold (quat_normalize q). lra.
Qed.
Lemma near_mul p q : near p -> 0 <= (eps : R) <= / 5000 -> qdims q -> unit_quat q -> qvalid q = true -> (1 <= qage q < 20)%N -> near (quat_mul p q).
Proof.
  intros G He Dq Uq Vq Aq. pose proof (near_bound p G ltac:(lra)) as B. assert (G' := G). destruct G as (D & V & A & N).
  assert (AA : age_add (qage p) (qage q) = (qage p + qage q)%N) by (unfold age_add; apply N.mod_small; lia).
  unfold quat_mul, quat_check. change (N.of_nat max_norm_age) with 20%N. cbn [qvalid qage]. rewrite V, Vq, AA. cbn [andb]. rewrite andb_true_r.
  destruct (N.leb_spec 20 (qage p + qage q)).
  - set (p' := mkQ (qw p) (qv p) true (qage p + qage q)). fold (raw (quat_normalize p') q).
    assert (NN : Rabs (hnorm2 (q4 (quat_normalize p')) - 1) <= 10 * eps) by exact (normalize_near p G' He).
    pose proof (raw_norm (quat_normalize p') q ltac:(lra) (normalize_dims eps p') Dq Uq) as RN.
    set (n := hnorm2 (q4 (quat_normalize p'))) in *. set (m := hnorm2 (q4 (raw (quat_normalize p') q))) in *. apply Rabs_le_inv in NN.
    specialize (RN ltac:(lra)). split; [apply dims_tab|]. split; [reflexivity|]. split; [cbn [raw quat_normalize qage]; lia|]. change (Rabs (m - 1) <= 10 * eps * (1 + 1)).
    apply Rabs_le_inv in RN. apply Rabs_le. assert (T : 4 * eps * (n + 1) + 16 * (eps * eps) <= 10 * eps) by nra. lra.
  - set (p' := mkQ (qw p) (qv p) true (qage p + qage q)). fold (raw p' q).
    assert (NN : Rabs (hnorm2 (q4 p') - 1) <= 10 * eps * (IZR (Z.of_N (qage p)) + 1)) by exact N. assert (BB : Rabs (hnorm2 (q4 p') - 1) <= 200 * eps) by exact B.
    pose proof (raw_norm p' q ltac:(lra) D Dq Uq) as RN. set (n := hnorm2 (q4 p')) in *. set (m := hnorm2 (q4 (raw p' q))) in *. apply Rabs_le_inv in NN. apply Rabs_le_inv in BB.
    specialize (RN ltac:(lra)). split; [apply dims_tab|]. split; [reflexivity|]. split; [exact H|]. change (Rabs (m - 1) <= 10 * eps * (IZR (Z.of_N (qage p + qage q)) + 1)).
    assert (SA : IZR (Z.of_N (qage p)) + 1 <= IZR (Z.of_N (qage p + qage q))) by (rewrite <- plus_IZR; apply IZR_le; lia).
    apply Rabs_le_inv in RN. apply Rabs_le. set (u := IZR (Z.of_N (qage p))) in *. set (w := IZR (Z.of_N (qage p + qage q))) in *.
    assert (S : 10 * eps * (u + 1) + 10 * eps <= 10 * eps * (w + 1)) by nra. assert (T : 4 * eps * (n + 1) + 16 * (eps * eps) <= 10 * eps) by nra. lra.
Qed.

(** ** Scalars: quaternions without vector part *)
Definition scal (x : R) (a : N) (q : quat R) : Prop :=
  qw q = x /\ (forall i, (i < 3)%nat -> co (qv q) i = 0) /\ qdims q /\ qvalid q = true /\ qage q = a.
Lemma scal_norm x a q : scal x a q -> hnorm2 (q4 q) = x * x.
Proof. intros (E & Z & _). unfold hnorm2, q4. cbn [hw hx hy hz]. rewrite E, !Z by lia. ring. Qed.
Lemma dot_null a b : (forall i, (i < 3)%nat -> co a i = 0) -> dot 3 a b = 0.
Proof.
  intros Z. rewrite dot_def. replace (inner 3 (co a) (co b)) with 0; [destruct (Rle_bool _ _); auto|]. unfold inner. cbn [Rsum]. rewrite !Z by lia. ring.
Qed.
Lemma cross_null a b i : (i < 3)%nat -> (forall i, (i < 3)%nat -> co a i = 0) -> co (cross3 a b) i = 0.
Proof.
  intros Hi Z. rewrite cross3_co by auto. assert (E : cross_coord (co a) (co b) i = 0) by (destruct i as [|[|[|]]]; try lia; cbn [cross_coord]; rewrite !Z by lia; ring). rewrite E. unfold rclamp. destruct (Rlt_bool _ _); reflexivity.
Qed.
Lemma scal_mul x y a b p q : scal x a p -> scal y b q -> (a + b < 2 ^ 32)%N ->
  scal ((if (20 <=? a + b)%N then 2 * x / (x * x + 1) else x) * y) (if (20 <=? a + b)%N then 1 else a + b)%N (quat_mul p q).
Proof.
  intros (E1 & Z1 & D1 & V1 & A1) (E2 & Z2 & D2 & V2 & A2) Hs. unfold quat_mul, quat_check. change (N.of_nat max_norm_age) with 20%N. cbn [qvalid qage]. rewrite V1, V2, A1, A2. unfold age_add. rewrite N.mod_small by exact Hs. cbn [andb]. rewrite andb_true_r.
  assert (P : forall c, (forall i, (i < 3)%nat -> co (qv c) i = 0) -> qvalid c = true -> scal (qw c * y) (qage c) (raw c q)).
  { intros c Zc Vc. split; [|split; [|split; [|split]]]; cbn [raw qw qvalid qage]; auto; [|..].
    - rewrite dot_null by auto. rewrite E2. cbn [nsub nmul Rnum]. ring.
    - intros i Hi. unfold raw. cbn [qv]. unfold vec_sub, vec_add, vec_scale. rewrite co_tab by auto. rewrite !at_tab by auto. toco. rewrite Z2, Zc, cross_null by auto. ring.
    - apply dims_tab. }
  destruct (20 <=? a + b)%N.
  - set (c := quat_normalize (mkQ (qw p) (qv p) true (a + b))). replace (2 * x / (x * x + 1)) with (qw c).
    + apply (P c); [|reflexivity]. intros i Hi. unfold c, quat_normalize. cbn [qv]. unfold vec_div. rewrite co_tab by auto. toco. rewrite Z1 by auto. unfold Rdiv. ring.
    + unfold c, quat_normalize. cbn [qw qv]. rewrite sqr_mag_norm2. cbn [nadd nmul ndiv n1 n2 nofZ Rnum]. unfold norm2, inner. cbn [Rsum]. rewrite !Z1 by lia. rewrite E1. field. nra.
  - rewrite <- E1. exact (P (mkQ (qw p) (qv p) true (a + b)) Z1 eq_refl).
Qed.
End D.
