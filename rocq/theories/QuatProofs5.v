(** Conversions, mixed rotations, alignment of vectors, ages, equality, aliasing. *)
From Coq Require Import Reals Lra Lia List Bool Psatz ZArith NArith.
From Flocq Require Import Core.Zaux Core.Raux.
From Verif Require Import Base Scalar ConstModel VecModel RotModel QuatModel RSpec RLib VecSpec RotSpec QuatSpec VecProofs VecProofs2 MatLib RotProofs2 RotProofs3 QuatProofs QuatProofs2 QuatProofs3 QuatProofs4.
Import ListNotations.
Open Scope R_scope.

Section Q.
Context (eps : Epsilon).

(** ** fromRotMatrix *)
Definition proper_part (m : rotmatrix R) : nat -> nat -> R := if mflip m then flip_x (ent m) else ent m.

Lemma trace_tr3 m : trace (H := Rnum eps) 3 m = tr3 (ent m).
Proof. unfold trace. rewrite nsum_Rsum. cbn [Rsum]. unfold tr3. change (elem m) with (ent m). ring. Qed.
Lemma tr3_ext A B : meq 3 A B -> tr3 A = tr3 B.
Proof. intros E. unfold tr3. rewrite !E by lia. reflexivity. Qed.
Lemma twisted_meq i A B C : meq 3 B A -> meq 3 C (twisted i B) -> meq 3 C (twisted i A).
Proof. intros E F. eapply meq_trans; [exact F|]. apply twisted_ext; auto. Qed.
Lemma converts_ext A B q : meq 3 A B -> converts A q -> converts B q.
Proof.
  intros E (D & U & P & N). split; [auto|]. split; [auto|]. rewrite <- (tr3_ext A B E). split.
  - intros T. eapply meq_trans; [apply P; auto|]. auto.
  - intros T. destruct (N T) as (i & Hi & Mx & M). exists i. split; [auto|]. split.
    + intros j Hj. rewrite <- !E by auto. auto.
    + eapply twisted_meq; [exact E|auto].
Qed.

Lemma from_matrix_spec m : mdims 3 (me m) -> orthogonal 3 (ent m) -> det 3 (ent m) = (if mflip m then -1 else 1) ->
  forall q nf, quat_from_matrix m = Ret (q, nf) ->
  converts (proper_part m) q /\ nf = negb (mflip m) /\ qvalid q = mvalid m /\ valid (qv q) = mvalid m /\ qage q = mage m.
Proof.
  intros Dm O D q nf. unfold quat_from_matrix, parity, proper_part. destruct (mflip m) eqn:F; cbn [negb].
  - destruct (rot_mirror_axis 3 0) as [mx| | |] eqn:X; try discriminate. cbn [obind]. pose proof (mirror_x_ent eps mx X) as (E & Fx & V).
    destruct (prod 3 m mx) as [m1| | |] eqn:Pr; try discriminate. cbn [obind].
    destruct (prod_spec eps 3 m mx m1) as (P1 & P2 & P3 & P4); auto; [intros _; auto|apply (mirror_x_orth eps); auto|].
    assert (E1 : meq 3 (ent m1) (flip_x (ent m))) by (eapply meq_trans; [exact P2|]; apply mul_mirror_x; exact E).
    destruct (of_elems_converts eps (ent m1) (trace 3 m1) (mvalid m) (mage m)) as (q' & Q & C & G1 & G2 & G3).
    + apply (orthogonal_ext 3 _ _ (meq_sym 3 _ _ E1)), flip_x_orth, O.
    + rewrite (det_ext 3 _ _ E1), flip_x_det, D. ring.
    + apply trace_tr3.
    + change (elem m1) with (ent m1). rewrite Q. cbn [obind]. intros Y. injection Y as <- <-. split; [apply (converts_ext (ent m1)); auto|auto].
  - cbn [obind]. destruct (of_elems_converts eps (ent m) (trace 3 m) (mvalid m) (mage m)) as (q' & Q & C & G1 & G2 & G3); auto.
    + apply trace_tr3.
    + change (elem m) with (ent m). rewrite Q. cbn [obind]. intros Y. injection Y as <- <-. split; [exact C|auto].
Qed.

(** without a flip the conversion always succeeds *)
Lemma from_matrix_total m : orthogonal 3 (ent m) -> det 3 (ent m) = 1 -> mflip m = false -> exists q, quat_from_matrix m = Ret (q, true).
Proof.
  intros O D F. unfold quat_from_matrix, parity. rewrite F. cbn [negb obind].
  destruct (of_elems_converts eps (ent m) (trace 3 m) (mvalid m) (mage m)) as (q' & Q & _); auto; [apply trace_tr3|].
  exists q'. change (elem m) with (ent m). rewrite Q. reflexivity.
Qed.

Lemma round_trip_matrix m q nf m' : mdims 3 (me m) -> orthogonal 3 (ent m) -> det 3 (ent m) = (if mflip m then -1 else 1) ->
  0 < tr3 (proper_part m) -> quat_from_matrix m = Ret (q, nf) -> rot_quat q nf = Ret m' -> me m' = me m.
Proof.
  intros Dm O D T E F. destruct (from_matrix_spec m Dm O D q nf E) as ((_ & U & P & _) & N & _). specialize (P T).
  destruct (from_quat_spec eps _ q nf m' U F) as (M & _ & _ & D'). apply (mdims_eq 3); auto.
  eapply meq_trans; [exact M|]. subst nf. unfold proper_part in P. destruct (mflip m); cbn [negb].
  - eapply meq_trans; [apply flip_x_ext; exact P|]. apply flip_x_flip_x.
  - exact P.
Qed.

Lemma round_trip_quat q m q' nf' : qdims q -> unit_quat q -> rot_quat q true = Ret m -> 0 < qw q * qw q - / 4 -> quat_from_matrix m = Ret (q', nf') ->
  (0 <= qw q -> q4 q' = q4 q) /\ (qw q <= 0 -> q4 q' = hneg (q4 q)).
Proof.
  intros D U E W F. destruct (from_quat_spec eps _ q true m U E) as (M & V & Fl & Dm).
  assert (O : orthogonal 3 (ent m)) by (apply (orthogonal_ext 3 _ _ (meq_sym 3 _ _ M)), ham_matrix_orth, U).
  assert (Dt : det 3 (ent m) = 1) by (rewrite (det_ext 3 _ _ M); apply ham_matrix_det, U).
  destruct (from_matrix_spec m Dm O ltac:(rewrite Fl; exact Dt) q' nf' F) as (C & _).
  unfold proper_part in C. rewrite Fl in C. apply (converts_ext _ (ham_matrix (q4 q)) _ M) in C. destruct C as (D' & U' & P & _).
  assert (T : 0 < tr3 (ham_matrix (q4 q))).
  { unfold unit_quat, hnorm2 in U. unfold tr3, ham_matrix. cbn [nth]. change (qw q) with (hw (q4 q)) in W. lra. }
  specialize (P T).
  (* same matrix and unit: equal up to sign *)
  assert (X : forall i j, (i < 3)%nat -> (j < 3)%nat -> ham_matrix (q4 q') i j = ham_matrix (q4 q) i j) by exact P.
  assert (Wp : 0 < hw (q4 q')).
  { unfold quat_from_matrix, parity in F. rewrite Fl in F. cbn [negb obind] in F. unfold quat_of_elems in F.
    assert (T' : trace 3 m = tr3 (ent m)) by apply trace_tr3. rewrite T' in F. assert (T2 : 0 < tr3 (ent m)) by (rewrite (tr3_ext _ _ M); exact T).
    cbn [nltb Rnum n0 nofZ] in F. rewrite Rlt_bool_true in F by exact T2. cbn [obind] in F. injection F as <- _. cbn [q4 qw hw]. unfold n1, n2. cbn [nadd nsqrt ndiv nofZ Rnum].
    assert (0 < sqrt (tr3 (ent m) + 1)) by (apply sqrt_lt_R0; lra). lra. }
  clear F.
  pose proof (X 0%nat 0%nat ltac:(lia) ltac:(lia)) as X00. pose proof (X 1%nat 1%nat ltac:(lia) ltac:(lia)) as X11. pose proof (X 2%nat 2%nat ltac:(lia) ltac:(lia)) as X22.
  pose proof (X 0%nat 1%nat ltac:(lia) ltac:(lia)) as X01. pose proof (X 1%nat 0%nat ltac:(lia) ltac:(lia)) as X10.
  pose proof (X 0%nat 2%nat ltac:(lia) ltac:(lia)) as X02. pose proof (X 2%nat 0%nat ltac:(lia) ltac:(lia)) as X20.
  pose proof (X 1%nat 2%nat ltac:(lia) ltac:(lia)) as X12. pose proof (X 2%nat 1%nat ltac:(lia) ltac:(lia)) as X21.
  unfold ham_matrix in *. cbn [nth] in *. unfold unit_quat, hnorm2 in U, U'. clear X P M O Dt T.
  change (qw q) with (hw (q4 q)) in *. set (h := q4 q) in *. set (k := q4 q') in *. clearbody h k. destruct h as [w x y z], k as [w' x' y' z']. cbn [hw hx hy hz] in *.
  assert (Sq : w' * w' = w * w) by lra. assert (Wx : w' * x' = w * x) by lra. assert (Wy : w' * y' = w * y) by lra. assert (Wz : w' * z' = w * z) by lra.
  assert (L : (w' - w) * (w' + w) = 0) by lra. clear - L Wx Wy Wz Wp W.
  split; intros S.
  - assert (w' = w) by nra. subst w'. f_equal; apply (Rmult_eq_reg_l w); lra.
  - assert (w' = - w) by nra. subst w'. unfold hneg. cbn [hw hx hy hz]. f_equal; try apply (Rmult_eq_reg_l w); nra.
Qed.

(** ** The matrix acts as the quaternion *)
Lemma ham_matrix_acts q v : unit_quat q -> exact_pair eps (qv q) v -> forall i, (i < 3)%nat ->
  co (vec_rotate_q v q) i = mapply 3 (ham_matrix (q4 q)) (co v) i.
Proof.
  intros U E i Hi. pose proof (rotate_sandwich eps v q U E) as S. unfold unit_quat, hnorm2 in U.
  assert (W : hw (q4 q) * hw (q4 q) = 1 - hx (q4 q) * hx (q4 q) - hy (q4 q) * hy (q4 q) - hz (q4 q) * hz (q4 q)) by lra.
  set (h := q4 q) in *. clearbody h. destruct h as [w x y z]. cbn [hw hx hy hz] in *.
  unfold pure, sandwich, hmul, hconj in S. cbn [hw hx hy hz] in S. injection S as _ S0 S1 S2.
  unfold mapply, ham_matrix. cbn [Rsum hw hx hy hz]. destruct i as [|[|[|]]]; try lia; cbn [nth].
  - rewrite S0. transitivity ((w * w + x * x - y * y - z * z) * co v 0%nat + (2 * (x * y - w * z)) * co v 1%nat + (2 * (x * z + w * y)) * co v 2%nat); [ring|]. rewrite W. ring.
  - rewrite S1. transitivity ((2 * (x * y + w * z)) * co v 0%nat + (w * w - x * x + y * y - z * z) * co v 1%nat + (2 * (y * z - w * x)) * co v 2%nat); [ring|]. rewrite W. ring.
  - rewrite S2. transitivity ((2 * (x * z - w * y)) * co v 0%nat + (2 * (y * z + w * x)) * co v 1%nat + (w * w - x * x - y * y + z * z) * co v 2%nat); [ring|]. rewrite W. ring.
Qed.

Lemma matrix_prod_acts old q m v : unit_quat q -> exact_pair eps (qv q) v -> rot_from_quat old q true = Ret m ->
  forall i, (i < 3)%nat -> co (prod_mv 3 m v) i = co (vec_rotate_q v q) i.
Proof.
  intros U E M i Hi. destruct (from_quat_spec eps old q true m U M) as (EM & _).
  rewrite (prod_mv_co eps 3) by auto. rewrite ham_matrix_acts by auto. apply mapply_ext; auto.
Qed.
Lemma matrix_rotate_acts old q m v : unit_quat q -> qdims q -> exact_pair eps (qv q) v -> rot_from_quat old q true = Ret m ->
  forall i, (i < 3)%nat -> co (vec_rotate 3 v m) i = co (vec_rotate_q v (quat_inverse q)) i.
Proof.
  intros U D E M i Hi. destruct (from_quat_spec eps old q true m U M) as (EM & _).
  rewrite (rotate_co eps 3) by auto. rewrite ham_matrix_acts; auto; [|apply inverse_unit; auto|apply exact_pair_neg_l; auto].
  apply mapply_ext; auto. intros r s Hr Hs. rewrite inverse_q4. unfold mtr. rewrite EM by auto. unfold ham_matrix, hconj. cbn [hw hx hy hz].
  destruct r as [|[|[|]]], s as [|[|[|]]]; try lia; cbn [nth]; ring.
Qed.

(** ** RotMatrix::rotate(q) *)
Lemma rot_rotate_q_spec m q m' : mdims 3 (me m) -> valid_orth 3 m -> unit_quat q ->
  (forall r b, (r < 3)%nat -> exact_pair eps (qv q) (mkC (tab 3 (ent m r)) b)) -> rot_rotate_q m q = Ret m' ->
  meq 3 (ent m') (mmul 3 (ent m) (mtr (ham_matrix (q4 q)))) /\ mflip m' = mflip m /\ mvalid m' = mvalid m && qvalid q.
Proof.
  intros D O U E X. unfold rot_rotate_q in X.
  set (m0 := mkM _ _ _ _) in X.
  assert (E0 : meq 3 (ent m0) (mmul 3 (ent m) (mtr (ham_matrix (q4 q))))).
  { intros r s Hr Hs. unfold ent at 1. unfold m0. cbn [me]. unfold rc. rewrite (nth_tab 3) by auto.
    change (co (vec_rotate_q (mkC (tab 3 (elem m r)) true) q) s = mmul 3 (ent m) (mtr (ham_matrix (q4 q))) r s).
    change (elem m) with (ent m). rewrite ham_matrix_acts by auto. unfold mapply, mmul, mtr. cbn [Rsum].
    rewrite !co_tab by lia. ring. }
  assert (D0 : mdims 3 (me m0)).
  { unfold m0. cbn [me]. split; [apply tab_length|]. intros i Hi. rewrite (nth_tab 3) by auto. apply tab_length. }
  assert (F : mflip m' = mflip m0 /\ mvalid m' = mvalid m0 /\ meq 3 (ent m') (ent m0)).
  { destruct (check_norm_orthogonal eps 3 m0 m' D0) as (A & B & C); auto.
    - intros V. apply (orthogonal_ext 3 _ _ (meq_sym 3 _ _ E0)). apply orthogonal_mul; [|apply orthogonal_tr, ham_matrix_orth; auto].
      apply O. cbn in V. apply andb_true_iff in V. apply V.
    - unfold ent. rewrite A. repeat split; auto; apply B || apply C. }
  destruct F as (F1 & F2 & F3). rewrite F1, F2. split; [|auto]. eapply meq_trans; eauto.
Qed.
Lemma rotate_matrix_by_quat m q m' v : mdims 3 (me m) -> valid_orth 3 m -> unit_quat q ->
  (forall r b, (r < 3)%nat -> exact_pair eps (qv q) (mkC (tab 3 (ent m r)) b)) -> exact_pair eps (qv q) (vec_rotate 3 v m) -> rot_rotate_q m q = Ret m' ->
  forall i, (i < 3)%nat -> co (vec_rotate 3 v m') i = co (vec_rotate_q (vec_rotate 3 v m) q) i.
Proof.
  intros D O U E E2 X i Hi. destruct (rot_rotate_q_spec m q m' D O U E X) as (EM & _).
  rewrite (rotate_co eps 3) by auto. rewrite ham_matrix_acts by auto.
  unfold mapply, mtr. cbn [Rsum]. rewrite !EM by lia. rewrite !(rotate_co eps 3) by lia. unfold mmul, mapply, mtr. cbn [Rsum]. ring.
Qed.

(** ** Quaternion::rotate(m) *)
Lemma rotate_quat_by_matrix q m q' v t : mdims 3 (me m) -> orthogonal 3 (ent m) -> det 3 (ent m) = 1 -> mflip m = false -> mvalid m = true -> 0 < tr3 (ent m) ->
  unitv q -> quat_from_matrix m = Ret t -> quat_rotate_m q m = Ret q' ->
  exact_pair eps (qv q) v -> exact_pair eps (qv (fst t)) (vec_rotate_q v q) -> exact_pair eps (qv q) (qv (fst t)) -> exact_pair eps (qv q') v ->
  forall i, (i < 3)%nat -> co (vec_rotate_q v q') i = co (prod_mv 3 m (vec_rotate_q v q)) i.
Proof.
  intros D O Dt F V T U Et Eq E1 E2 E3 E4 i Hi. unfold quat_rotate_m in Eq. rewrite Et in Eq. cbn [obind] in Eq. injection Eq as <-.
  destruct t as [p nf]. cbn [fst] in *.
  destruct (from_matrix_spec m D O ltac:(rewrite F; exact Dt) p nf Et) as (C & _). unfold proper_part in C. rewrite F in C. destruct C as (Dp & Up & P & _). specialize (P T).
  rewrite <- (rotate_mul eps) by (auto; split; auto). rewrite ham_matrix_acts by auto. rewrite (prod_mv_co eps 3) by auto. apply mapply_ext; auto.
Qed.

(** ** rotation(from, to) aligns *)
Lemma halfway_aligns from to q : halfway_ok from to q -> exact_pair eps (qv q) from -> forall i, (i < 3)%nat ->
  co (vec_rotate_q from q) i = norm 3 (co from) / norm 3 (co to) * co to i.
Proof.
  intros (P1 & P2 & P3 & W & V & _) [E1 E2] i Hi. rewrite rotate_q_co, E1, E2 by auto.
  pose proof (norm_sq3 (co from)) as Sf.
  set (n := norm 3 (co from)) in *. set (p := norm 3 (co to)) in *. set (w := qw q) in *.
  assert (I : inner 3 (co (qv q)) (co from) = 0).
  { unfold inner. cbn [Rsum]. rewrite !V by lia. cbn [cross_coord]. field. split; lra. }
  assert (C : 2 * w * cross_coord (co (qv q)) (co from) i = (norm2 3 (co from) * co to i - inner 3 (co from) (co to) * co from i) / (n * p)).
  { unfold norm2, inner. cbn [Rsum]. destruct i as [|[|[|]]]; try lia; cbn [cross_coord]; rewrite !V by lia; cbn [cross_coord]; field; repeat split; lra. }
  rewrite I, C, W, <- Sf. field. split; lra.
Qed.

(** ** Short and antiparallel vectors *)
Lemma from_to_short old from to : norm 3 (co from) * norm 3 (co to) < eps -> quat_from_to old from to = Ret (mkQ (qw old) (qv old) false (qage old))
  /\ forall fb, quat_from_to_fb old from to fb = mkQ (qw old) (qv old) false (qage old).
Proof.
  intros L. unfold quat_from_to, quat_from_to_fb. rewrite !sqr_mag_norm2. cbn [nltb Rnum neps nsqrt nmul]. rewrite sqrt_mul_norm.
  rewrite Rlt_bool_true by auto. auto.
Qed.
Lemma from_to_throws old from to : eps <= norm 3 (co from) * norm 3 (co to) ->
  (quat_from_to old from to = Throws <-> dot 3 from to / (norm 3 (co from) * norm 3 (co to)) + 1 < eps).
Proof.
  intros L. unfold quat_from_to. rewrite !sqr_mag_norm2. cbn [nltb Rnum neps nsqrt nmul ndiv nadd]. rewrite sqrt_mul_norm. unfold n1. cbn [nofZ Rnum].
  rewrite Rlt_bool_false by auto. destruct (Rlt_bool_spec (dot 3 from to / (norm 3 (co from) * norm 3 (co to)) + 1) eps).
  - split; auto.
  - split; [discriminate|lra].
Qed.
Lemma half_turn axis (v : nat -> R) i : inner 3 axis v = 0 -> rodrigues axis PI v i = - v i.
Proof. intros Z. rewrite rodrigues_perp by auto. rewrite cos_PI, sin_PI. ring. Qed.
End Q.
