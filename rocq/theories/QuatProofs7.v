(** Counterexamples, Vector::rotate(axis, theta), points. *)
From Coq Require Import Reals Lra Lia List Bool Psatz ZArith NArith.
From Flocq Require Import Core.Zaux Core.Raux.
From Verif Require Import Base Scalar ConstModel VecModel RotModel QuatModel RSpec RLib VecSpec RotSpec QuatSpec VecProofs VecProofs2 VecProofs4 MatLib RotProofs2 RotProofs3 RotProofs7 QuatProofs QuatProofs2 QuatProofs3 QuatProofs4 QuatProofs5 QuatProofs6.
Import ListNotations.
Open Scope R_scope.

Section W.
Context (eps : Epsilon).

(** ** Vector::rotate(axis, theta) is Rodrigues' formula *)
Lemma rotate_axis_acts (v axis w : vector R) theta : 
  exact_dot eps 3 v axis ->
  (let perp := vec_sub 3 v (vec_div 3 (vec_scale 3 axis (dot 3 v axis)) (sqr_mag 3 axis)) in exact_cross3 eps axis perp) ->
  vec_rotate_axis v axis theta = Ret w ->
  0 < norm2 3 (co axis) /\ forall i, (i < 3)%nat -> co w i = rodrigues (co axis) theta (co v) i.
Proof.
  intros Ed Ec. unfold vec_rotate_axis, oassert. cbv zeta in *. rewrite sqr_mag_norm2 in *. unfold n0. cbn [neqb nofZ Rnum].
  destruct (Req_bool_spec (norm2 3 (co axis)) 0) as [Z|Z]; [discriminate|]. cbn [negb]. intros X. injection X as <-.
  pose proof (norm2_nonneg3 (co axis)) as NN. assert (P : 0 < norm2 3 (co axis)) by lra. split; [auto|]. intros i Hi.
  pose proof (norm_sq3 (co axis)) as S. pose proof (sqrt_lt_R0 _ P) as Q. fold (norm 3 (co axis)) in Q.
  set (perp := vec_sub 3 v (vec_div 3 (vec_scale 3 axis (dot 3 v axis)) (norm2 3 (co axis)))) in *.
  assert (Pp : forall j, (j < 3)%nat -> co perp j = co v j - co axis j * inner 3 (co axis) (co v) / norm2 3 (co axis)).
  { intros j Hj. unfold perp, vec_sub, vec_div, vec_scale. rewrite co_tab by auto. rewrite ?at_tab by auto. toco. rewrite Ed. rewrite (inner_comm 3 (co v)). reflexivity. }
  unfold vec_add, vec_scale, vec_div. rewrite co_tab by auto. rewrite ?at_tab by auto. toco. rewrite Ec, Pp by auto.
  assert (C : cross_coord (co axis) (co perp) i = cross_coord (co axis) (co v) i).
  { destruct i as [|[|[|]]]; try lia; cbn [cross_coord]; rewrite !Pp by lia; field; lra. }
  rewrite C. unfold rodrigues. change (sqrt (norm2 3 (co axis))) with (norm 3 (co axis)). set (n := norm 3 (co axis)) in *. rewrite <- S. field. lra.
Qed.

(** ** Points *)
Lemma point_local_parent x o q : unitv q -> valid (qv q) = true -> dims 3 x -> valid o = true ->
  exact_pair eps (qv q) (vec_sub 3 x (vec_zero 3)) -> exact_pair eps (qv q) (vec_rotate_q (vec_sub 3 x (vec_zero 3)) q) ->
  dims 3 o -> point_to_local_q (point_to_parent_q x o q) o q = x.
Proof.
  intros U V D Vo E F Do. unfold point_to_local_q, point_to_parent_q.
  rewrite (point_sub_add eps 3) by (auto; apply rotate_q_dims). rewrite (rotate_undo eps) by (auto; apply dims_tab).
  apply (coords_eq 3); [apply dims_tab|exact D|cbn; rewrite ?andb_true_r; destruct (valid x); reflexivity|].
  intros i Hi. unfold vec_add, vec_sub, vec_zero. rewrite !co_tab by auto. rewrite ?at_tab by auto. toco. rewrite ?co_tab by auto. toco. ring.
Qed.
Lemma point_parent_local x o q : unitv q -> valid (qv q) = true -> dims 3 x -> valid o = true ->
  exact_pair eps (qv q) (vec_sub 3 x o) -> exact_pair eps (qv q) (vec_rotate_q (vec_sub 3 x o) (quat_inverse q)) ->
  point_to_parent_q (point_to_local_q x o q) o q = x.
Proof.
  intros U V D Vo E F. unfold point_to_local_q, point_to_parent_q.
  set (y := vec_rotate_q (vec_sub 3 x o) (quat_inverse q)).
  assert (Y : vec_sub 3 (vec_add 3 (vec_zero 3) y) (vec_zero 3) = y).
  { apply (coords_eq 3); [apply dims_tab|apply rotate_q_dims|cbn; rewrite ?andb_true_r; reflexivity|].
    intros i Hi. unfold vec_add, vec_sub, vec_zero. rewrite !co_tab by auto. rewrite ?at_tab by auto. toco. ring. }
  rewrite Y. pose proof (rotate_undo eps (vec_sub 3 x o) (quat_inverse q) (inverse_unitv eps q U) ltac:(apply dims_tab) V) as R.
  rewrite (inverse_inverse eps q) in R by apply U. unfold y. rewrite R.
  - apply (point_add_sub eps 3); auto.
  - apply exact_pair_neg_l; auto. apply U.
  - apply exact_pair_neg_l; auto. apply U.
Qed.
Lemma point_rotate_fixes p q : dims 3 p -> valid p = true -> valid (qv q) = true -> point_rotate_q p q p = p.
Proof.
  intros D V W. unfold point_rotate_q. apply (coords_eq 3); [apply dims_tab|exact D| |].
  - cbn. rewrite V, W. reflexivity.
  - intros i Hi. unfold vec_add. rewrite co_tab by auto. toco. rewrite rotate_q_co by auto.
    assert (Z : forall j, (j < 3)%nat -> co (vec_sub 3 p p) j = 0) by (intros; unfold vec_sub; rewrite co_tab by auto; toco; ring).
    assert (I : inner 3 (co (qv q)) (co (vec_sub 3 p p)) = 0) by (unfold inner; cbn [Rsum]; rewrite !Z by lia; ring).
    rewrite dot_def, I, cross3_co by auto.
    assert (C : cross_coord (co (qv q)) (co (vec_sub 3 p p)) i = 0) by (destruct i as [|[|[|]]]; try lia; cbn [cross_coord]; rewrite !Z by lia; ring).
    rewrite C, Z by auto. unfold rclamp. destruct (Rle_bool _ _), (Rlt_bool _ _); ring.
Qed.

(** the constructor from a quaternion never fails *)
Lemma rot_quat_total q nf : exists m, rot_quat (H := Rnum eps) q nf = Ret m.
Proof.
  unfold rot_quat, rot_from_quat. destruct nf; cbn [obind negb]; [eauto|].
  unfold rot_mirror_axis. cbn [Nat.ltb Nat.leb obind]. unfold prod, prod_with, check_norm. cbn [mvalid andb]. rewrite andb_false_r. cbn [obind]. eauto.
Qed.

(** ** Witnesses *)
(** half turn about (1,1,0) *)
Definition half_q : quat R := quat_make 0 1 1 0.
Lemma sqrt_half : sqrt 2 * sqrt 2 = 2. Proof. apply sqrt_sqrt. lra. Qed.
Lemma half_q4 : q4 half_q = mkH 0 (1 / sqrt 2) (1 / sqrt 2) 0.
Proof.
  unfold q4, half_q, quat_make, co. cbn [qw qv el nth]. toco. replace (0 * 0 + 1 * 1 + 1 * 1 + 0 * 0) with 2 by ring. f_equal; unfold Rdiv; ring.
Qed.
Lemma half_unit : unit_quat half_q. Proof. apply make_unit. lra. Qed.
Lemma half_matrix : meq 3 (ham_matrix (q4 half_q)) (fun i j => nth j (nth i [[0; 1; 0]; [1; 0; 0]; [0; 0; -1]] []) 0).
Proof.
  rewrite half_q4. assert (P : 0 < sqrt 2) by (apply sqrt_lt_R0; lra). assert (S : 1 / sqrt 2 * (1 / sqrt 2) = / 2).
  { replace (1 / sqrt 2 * (1 / sqrt 2)) with (1 / (sqrt 2 * sqrt 2)) by (field; lra). rewrite sqrt_half. lra. }
  intros i j Hi Hj. unfold ham_matrix. cbn [hw hx hy hz]. destruct i as [|[|[|]]], j as [|[|[|]]]; try lia; cbn [nth]; lra.
Qed.
Lemma matrix_round_trip_refuted : exists m q nf m',
  rot_quat half_q true = Ret m /\ quat_from_matrix m = Ret (q, nf) /\ rot_quat q nf = Ret m' /\
  ent m 0 1 = 1 /\ ent m' 0 1 = -1.
Proof.
  eexists. unfold rot_quat at 1, rot_from_quat at 1. cbn [obind negb]. 
  set (m := mkM _ _ _ _).
  assert (EQ : rot_quat half_q true = Ret m) by reflexivity. 
  destruct (from_quat_spec eps _ half_q true m half_unit EQ) as (M & V & F & D).
  assert (O : orthogonal 3 (ent m)) by (apply (orthogonal_ext 3 _ _ (meq_sym 3 _ _ M)), ham_matrix_orth, half_unit).
  assert (Dt : det 3 (ent m) = 1) by (rewrite (det_ext 3 _ _ M); apply ham_matrix_det, half_unit).
  destruct (from_matrix_total eps m O Dt F) as [q Eq]. exists q, true.
  destruct (from_matrix_spec eps m D O ltac:(rewrite F; exact Dt) q true Eq) as ((_ & U & _ & N) & _). unfold proper_part in N. rewrite F in N.
  destruct (rot_quat q true) as [m'| | |] eqn:Em; try discriminate Em. exists m'. split; [reflexivity|]. split; [auto|]. split; [auto|].
  destruct (from_quat_spec eps _ q true m' U Em) as (M' & _).
  assert (E : meq 3 (ent m) (fun i j => nth j (nth i [[0; 1; 0]; [1; 0; 0]; [0; 0; -1]] []) 0)) by (eapply meq_trans; [exact M|apply half_matrix]).
  destruct N as (i & Hi & Mx & Tw); [rewrite (tr3_ext _ _ E); unfold tr3; cbn [nth]; lra|].
  split; [rewrite E by lia; reflexivity|]. rewrite M', Tw by lia. unfold twisted, sign_at. rewrite E by lia. cbn [nth].
  destruct i as [|[|[|]]]; try lia; cbn [Nat.eqb]; try lra.
  specialize (Mx 0%nat ltac:(lia)). rewrite !E in Mx by lia. cbn [nth] in Mx. lra.
Qed.

(** rational quarter-like turns *)
Definition qz : quat R := mkQ (3 / 5) (mkC [0; 0; 4 / 5] true) true 1.
Definition qx : quat R := mkQ (3 / 5) (mkC [4 / 5; 0; 0] true) true 1.
Definition ex : vector R := mkC [1; 0; 0] true.
Lemma qz_unit : unitv qz. Proof. split; [reflexivity|]. unfold unit_quat, hnorm2, q4, qz, co. cbn [qw qv el nth hw hx hy hz]. lra. Qed.
Lemma qx_unit : unitv qx. Proof. split; [reflexivity|]. unfold unit_quat, hnorm2, q4, qx, co. cbn [qw qv el nth hw hx hy hz]. lra. Qed.

Ltac small := match goal with
  | |- _ \/ _ => first [left; lra | right; rewrite Rabs_pos_eq by lra; lra | right; rewrite Rabs_left by lra; lra] end.
Ltac exact3 := 
  apply (exact_pair_large eps _ _ 1);
  [lra|reflexivity|
   intros i Hi; destruct i as [|[|[|]]]; try lia; unfold co; cbn [el nth qv qz qx ex]; apply Rabs_le; lra|
   unfold inner; cbn [Rsum]; unfold co; cbn [el nth qv qz qx ex]; small|
   intros i Hi; destruct i as [|[|[|]]]; try lia; cbn [cross_coord]; unfold co; cbn [el nth qv qz qx ex]; small|
   |reflexivity].

Lemma quat_by_matrix_refuted : 0 <= (eps : R) <= / 100 -> exists m q',
  rot_quat qx true = Ret m /\ quat_rotate_m qz m = Ret q' /\
  co (vec_rotate_q ex q') 2 = 576 / 625 /\ co (vec_rotate 3 (vec_rotate_q ex qz) m) 2 = - (576 / 625).
Proof.
  intros He. eexists. unfold rot_quat at 1, rot_from_quat at 1. cbn [obind negb]. set (m := mkM _ _ _ _).
  assert (EQ : rot_quat qx true = Ret m) by reflexivity.
  pose proof qx_unit as Ux. pose proof qz_unit as Uz.
  destruct (from_quat_spec eps _ qx true m (proj2 Ux) EQ) as (M & V & F & D).
  assert (O : orthogonal 3 (ent m)) by (apply (orthogonal_ext 3 _ _ (meq_sym 3 _ _ M)), ham_matrix_orth, Ux).
  assert (Dt : det 3 (ent m) = 1) by (rewrite (det_ext 3 _ _ M); apply ham_matrix_det, Ux).
  destruct (from_matrix_total eps m O Dt F) as [p Ep].
  assert (T : 0 < tr3 (ent m)).
  { rewrite (tr3_ext _ _ M). unfold tr3, ham_matrix, q4, qx, co. cbn [qw qv el nth hw hx hy hz]. lra. }
  (* the converted quaternion is qx again *)
  assert (P4 : q4 p = q4 qx).
  { apply (round_trip_quat eps qx m p true); auto; try apply Ux; cbn [qx qw]; lra. }
  destruct (from_matrix_spec eps m D O ltac:(rewrite F; exact Dt) p true Ep) as (C & _ & Vp & Vv & _). destruct C as (Dp & Up & _).
  assert (Pv : qv p = qv qx).
  { unfold q4 in P4. apply coords_valid_eq; [exact Dp|reflexivity|rewrite Vv; exact V|congruence|congruence|congruence]. }
  assert (E1 : exact_pair eps (qv qz) ex) by (exact3; exists 0%nat; split; [lia|unfold co, ex; cbn [el nth]; lra]).
  assert (R1 : vec_rotate_q ex qz = mkC [-7/25; 24/25; 0] true).
  { destruct E1 as [Ea Eb]. apply coords_valid_eq; try reflexivity; try apply rotate_q_dims; rewrite rotate_q_co, Ea, Eb by lia; unfold inner; cbn [Rsum cross_coord]; unfold co; cbn [el nth qv qw qz ex]; lra. }
  assert (E2 : exact_pair eps (qv p) (vec_rotate_q ex qz)) by (rewrite R1, Pv; exact3; exists 0%nat; split; [lia|unfold co; cbn [el nth]; lra]).
  assert (E3 : exact_pair eps (qv qz) (qv p)) by (rewrite Pv; exact3; exists 0%nat; split; [lia|unfold co, qx; cbn [qv el nth]; lra]).
  unfold quat_rotate_m. rewrite Ep. cbn [obind fst]. set (q' := quat_mul qz p).
  assert (Q4 : q4 q' = mkH (9/25) (12/25) (-16/25) (12/25)).
  { unfold q'. rewrite (mul_q4 eps); auto; [|apply Uz|apply both_unit; [auto|split; auto]]. rewrite P4. unfold hmul, q4, co. cbn [qw qv el nth qx qz hw hx hy hz]. f_equal; lra. }
  assert (X4 : co (qv q') 0 = 12/25) by exact (f_equal hx Q4). assert (Y4 : co (qv q') 1 = -16/25) by exact (f_equal hy Q4). assert (Z4 : co (qv q') 2 = 12/25) by exact (f_equal hz Q4).
  assert (E4 : exact_pair eps (qv q') ex).
  { apply (exact_pair_large eps _ _ 1); [lra|apply dims_tab|..].
    - intros i Hi. destruct i as [|[|[|]]]; try lia; [rewrite X4|rewrite Y4|rewrite Z4]; apply Rabs_le; lra.
    - unfold inner. cbn [Rsum]. rewrite X4, Y4, Z4. unfold co; cbn [el nth ex]. small.
    - intros i Hi. destruct i as [|[|[|]]]; try lia; cbn [cross_coord]; rewrite ?X4, ?Y4, ?Z4; unfold co; cbn [el nth ex]; small.
    - exists 0%nat. split; [lia|]. unfold co. cbn [el nth ex]. lra.
    - reflexivity. }
  exists q'. split; [reflexivity|]. split; [reflexivity|]. split.
  - rewrite (rotate_quat_by_matrix eps qz m q' ex (p, true)); auto; [|unfold quat_rotate_m; rewrite Ep; reflexivity].
    rewrite (prod_mv_co eps 3) by lia. rewrite R1. unfold mapply. cbn [Rsum]. rewrite !M by lia. unfold ham_matrix, q4, qx, co. cbn [qw qv el nth hw hx hy hz]. lra.
  - rewrite (rotate_co eps 3) by lia. rewrite R1. unfold mapply, mtr. cbn [Rsum]. rewrite !M by lia. unfold ham_matrix, q4, qx, co. cbn [qw qv el nth hw hx hy hz]. lra.
Qed.

(** mirror: the flag is lost *)
Lemma mirror_flag_refuted : exists m q m', rot_mirror_axis (H := Rnum eps) 3 0 = Ret m /\ quat_from_matrix m = Ret (q, false) /\
  rot_quat q false = Ret m' /\ me m' = me m /\ parity m = true /\ parity m' = false.
Proof.
  eexists. unfold rot_mirror_axis at 1. cbn [Nat.ltb Nat.leb]. set (m := mkM _ _ _ _).
  assert (X : rot_mirror_axis 3 0 = Ret m) by reflexivity. destruct (mirror_x_ent eps m X) as (E & F & V).
  assert (O : orthogonal 3 (ent m)) by (apply (mirror_x_orth eps); auto).
  assert (Dt : det 3 (ent m) = -1) by (rewrite (det_ext 3 _ _ E); unfold det, det3; cbn [Nat.eqb]; ring).
  assert (D : mdims 3 (me m)) by apply mdims_mtab.
  assert (Q : exists q, quat_from_matrix m = Ret (q, false)).
  { unfold quat_from_matrix. change (parity m) with true. cbn [negb]. rewrite X. cbn [obind].
    destruct (prod 3 m m) as [m1| | |] eqn:P; try discriminate P. cbn [obind].
    destruct (prod_spec eps 3 m m m1) as (P1 & P2 & P3 & P4); auto; try (intros _; auto).
    assert (E1 : meq 3 (ent m1) (flip_x (ent m))) by (eapply meq_trans; [exact P2|]; apply mul_mirror_x; exact E).
    destruct (of_elems_converts eps (ent m1) (trace 3 m1) (mvalid m) (mage m)) as (q & Eq & _).
    - apply (orthogonal_ext 3 _ _ (meq_sym 3 _ _ E1)), flip_x_orth, O.
    - rewrite (det_ext 3 _ _ E1), flip_x_det, Dt. ring.
    - apply trace_tr3.
    - exists q. change (elem m1) with (ent m1). rewrite Eq. reflexivity. }
  destruct Q as [q Eq]. exists q.
  destruct (rot_quat_total q false) as [m' Em]. exists m'.
  split; [reflexivity|]. split; [auto|]. split; [auto|]. split.
  - apply (round_trip_matrix eps m q false m'); auto; try (rewrite F; exact Dt).
    unfold proper_part. rewrite F. unfold tr3, flip_x. rewrite !E by lia. cbn [Nat.eqb]. lra.
  - destruct (from_matrix_spec eps m D O ltac:(rewrite F; exact Dt) q false Eq) as ((_ & U & _) & _).
    destruct (from_quat_spec eps _ q false m' U Em) as (_ & _ & G & _). split; [exact F|exact G].
Qed.
End W.
