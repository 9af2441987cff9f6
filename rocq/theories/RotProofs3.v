(** Group laws, ages, and the action of the constructed rotations on vectors. *)
From Coq Require Import Reals Lra Lia List Bool Psatz ZArith NArith.
From Flocq Require Import Core.Zaux Core.Raux.
From Verif Require Import Base Scalar ConstModel VecModel RotModel RSpec RLib VecSpec VecProofs VecProofs2 RotSpec MatLib RotProofs RotProofs2.
Import ListNotations.
Open Scope R_scope.

Section R3.
Context (eps : Epsilon).
Variable n : nat.

(** ** the action on vectors *)
Lemma prod_mv_co m v i : (i < n)%nat -> co (prod_mv n m v) i = mapply n (ent m) (co v) i.
Proof. intros. unfold prod_mv. rewrite co_tab by auto. rewrite nsum_Rsum. reflexivity. Qed.
Lemma rotate_co m v i : (i < n)%nat -> co (vec_rotate n v m) i = mapply n (mtr (ent m)) (co v) i.
Proof. intros. unfold vec_rotate, prod_vm, inv_prod_mv. rewrite co_tab by auto. rewrite nsum_Rsum. reflexivity. Qed.
Lemma rotate_dims m (v : vector R) : dims n (vec_rotate n v m). Proof. apply dims_tab. Qed.
Lemma prod_mv_dims m (v : vector R) : dims n (prod_mv n m v). Proof. apply dims_tab. Qed.

Lemma rotate_inner m v w : orthogonal n (ent m) -> inner n (co (vec_rotate n v m)) (co (vec_rotate n w m)) = inner n (co v) (co w).
Proof.
  intros O. rewrite <- (orthogonal_inner n (mtr (ent m)) (co v) (co w) (orthogonal_tr n _ O)).
  apply inner_ext; intros; apply rotate_co; auto.
Qed.
Lemma prod_mv_inner m v w : orthogonal n (ent m) -> inner n (co (prod_mv n m v)) (co (prod_mv n m w)) = inner n (co v) (co w).
Proof.
  intros O. rewrite <- (orthogonal_inner n (ent m) (co v) (co w) O). apply inner_ext; intros; apply prod_mv_co; auto.
Qed.
Lemma rotate_rotate m1 m2 m v : valid_orth n m1 -> valid_orth n m2 -> prod n m1 m2 = Ret m ->
  vec_rotate n (vec_rotate n v m1) m2 = vec_rotate n v m.
Proof.
  intros O1 O2 H. apply prod_spec in H as (D & E & F & V); auto.
  apply (coords_eq n); auto using rotate_dims.
  - simpl. rewrite V. destruct (mvalid m1), (mvalid m2); reflexivity.
  - intros i Hi. rewrite !rotate_co by auto.
    rewrite (mapply_ext n (mtr (ent m2)) (mtr (ent m2)) _ (mapply n (mtr (ent m1)) (co v)) i Hi (meq_refl n _)) by (intros; apply rotate_co; auto).
    rewrite <- mapply_mmul. apply mapply_ext; auto.
    intros a b Ha Hb. rewrite <- mtr_mmul. symmetry. apply E; auto.
Qed.
Lemma rotate_inverse m v : mvalid m = true -> orthogonal n (ent m) -> dims n v ->
  prod_inv_vm n (vec_rotate n v m) m = v /\ vec_rotate n (vec_rotate n v m) (rot_inverse n m) = v /\ vec_rotate n (prod_mv n m v) m = v.
Proof.
  intros V O D. unfold prod_inv_vm. split; [|split]; apply (coords_eq n); auto using rotate_dims, prod_mv_dims; try (simpl; rewrite V; reflexivity); intros i Hi.
  - rewrite prod_mv_co by auto.
    rewrite (mapply_ext n (ent m) (ent m) _ (mapply n (mtr (ent m)) (co v)) i Hi (meq_refl n _)) by (intros; apply rotate_co; auto).
    rewrite <- mapply_mmul. rewrite (mapply_ext n _ delta _ (co v) i Hi O) by auto. apply mapply_delta; auto.
  - rewrite rotate_co by auto.
    rewrite (mapply_ext n _ (ent m) _ (mapply n (mtr (ent m)) (co v)) i Hi).
    2:{ intros a b Ha Hb. unfold mtr. apply (proj2 (inverse_spec eps n m)); auto. }
    2:{ intros; apply rotate_co; auto. }
    rewrite <- mapply_mmul. rewrite (mapply_ext n _ delta _ (co v) i Hi O) by auto. apply mapply_delta; auto.
  - rewrite rotate_co by auto.
    rewrite (mapply_ext n (mtr (ent m)) (mtr (ent m)) _ (mapply n (ent m) (co v)) i Hi (meq_refl n _)) by (intros; apply prod_mv_co; auto).
    rewrite <- mapply_mmul. rewrite (mapply_ext n _ delta _ (co v) i Hi (orthogonal_cols n _ O)) by auto. apply mapply_delta; auto.
Qed.

(** ** group laws *)
Lemma same_rotation_intro a b : mdims n (me a) -> mdims n (me b) -> meq n (ent a) (ent b) -> mflip a = mflip b -> mvalid a = mvalid b -> same_rotation a b.
Proof. intros. split; auto. apply (mdims_eq n); auto. Qed.

Lemma prod_result_orth m m1 m2 A B : prod_result n m m1 m2 A B -> (mvalid m1 = true -> orthogonal n A) -> (mvalid m2 = true -> orthogonal n B) -> valid_orth n m.
Proof.
  intros (D & E & F & V) O1 O2 Vm. rewrite V in Vm. apply andb_prop in Vm as [V1 V2].
  eapply orthogonal_ext; [apply meq_sym; exact E|]. apply orthogonal_mul; auto.
Qed.

Lemma prod_assoc m1 m2 m3 m12 m23 a b : valid_orth n m1 -> valid_orth n m2 -> valid_orth n m3 ->
  prod n m1 m2 = Ret m12 -> prod n m12 m3 = Ret a -> prod n m2 m3 = Ret m23 -> prod n m1 m23 = Ret b -> same_rotation a b.
Proof.
  intros O1 O2 O3 H12 Ha H23 Hb.
  apply prod_spec in H12; auto. apply prod_spec in H23; auto.
  assert (O12 := prod_result_orth _ _ _ _ _ H12 O1 O2). assert (O23 := prod_result_orth _ _ _ _ _ H23 O2 O3).
  apply prod_spec in Ha as (Da & Ea & Fa & Va); auto. apply prod_spec in Hb as (Db & Eb & Fb & Vb); auto.
  destruct H12 as (_ & E12 & F12 & V12), H23 as (_ & E23 & F23 & V23).
  apply same_rotation_intro; auto.
  - eapply meq_trans; [exact Ea|]. apply meq_sym. eapply meq_trans; [exact Eb|].
    intros i j Hi Hj. rewrite (mmul_ext n _ _ _ _ (meq_refl n _) E23 i j Hi Hj). rewrite <- mmul_assoc.
    symmetry. apply mmul_ext; auto using meq_refl.
  - rewrite Fa, Fb, F12, F23. destruct (mflip m1), (mflip m2), (mflip m3); reflexivity.
  - rewrite Va, Vb, V12, V23. symmetry; apply andb_assoc.
Qed.

Lemma identity_orth : valid_orth n (rot_identity (H := Rnum eps) n).
Proof. intros _. eapply orthogonal_ext; [apply meq_sym, identity_ent|apply orthogonal_delta]. Qed.

Lemma prod_identity m a b : mdims n (me m) -> valid_orth n m -> prod n (rot_identity n) m = Ret a -> prod n m (rot_identity n) = Ret b ->
  same_rotation a m /\ same_rotation b m.
Proof.
  intros D O Ha Hb. apply prod_spec in Ha as (Da & Ea & Fa & Va); auto using identity_orth.
  apply prod_spec in Hb as (Db & Eb & Fb & Vb); auto using identity_orth.
  split; apply same_rotation_intro; auto.
  - eapply meq_trans; [exact Ea|]. eapply meq_trans; [apply mmul_ext; [apply identity_ent|apply meq_refl]|apply mmul_1_l].
  - rewrite Fa. simpl. destruct (mflip m); reflexivity.
  - eapply meq_trans; [exact Eb|]. eapply meq_trans; [apply mmul_ext; [apply meq_refl|apply identity_ent]|apply mmul_1_r].
  - rewrite Fb. simpl. destruct (mflip m); reflexivity.
  - rewrite Vb. simpl. apply andb_true_r.
Qed.

Lemma inverse_orth m : valid_orth n m -> valid_orth n (rot_inverse n m).
Proof. intros O V. eapply orthogonal_ext; [apply meq_sym, inverse_spec|]. apply orthogonal_tr. apply O; exact V. Qed.

Lemma prod_inverse m a b : mvalid m = true -> orthogonal n (ent m) -> prod n m (rot_inverse n m) = Ret a -> prod n (rot_inverse n m) m = Ret b ->
  same_rotation a (rot_identity n) /\ same_rotation b (rot_identity n).
Proof.
  intros V O Ha Hb. assert (O' : valid_orth n m) by (intro; auto). assert (OI := inverse_orth m O').
  apply prod_spec in Ha as (Da & Ea & Fa & Va); auto. apply prod_spec in Hb as (Db & Eb & Fb & Vb); auto.
  split; (apply same_rotation_intro; [auto|apply mdims_mtab| | |]).
  - eapply meq_trans; [exact Ea|]. eapply meq_trans; [apply mmul_ext; [apply meq_refl|apply inverse_spec]|].
    eapply meq_trans; [exact O|]. apply meq_sym, identity_ent.
  - rewrite Fa. simpl. destruct (mflip m); reflexivity.
  - rewrite Va. simpl. rewrite V. reflexivity.
  - eapply meq_trans; [exact Eb|]. eapply meq_trans; [apply mmul_ext; [apply inverse_spec|apply meq_refl]|].
    eapply meq_trans; [exact (orthogonal_cols n _ O)|]. apply meq_sym, identity_ent.
  - rewrite Fb. simpl. destruct (mflip m); reflexivity.
  - rewrite Vb. simpl. rewrite V. reflexivity.
Qed.

Lemma mixed_products m1 m2 a b c d e f : valid_orth n m1 -> valid_orth n m2 ->
  prod_inv n m1 m2 = Ret a -> prod n m1 (rot_inverse n m2) = Ret b ->
  inv_prod n m1 m2 = Ret c -> prod n (rot_inverse n m1) m2 = Ret d ->
  inv_prod_inv n m1 m2 = Ret e -> prod n (rot_inverse n m1) (rot_inverse n m2) = Ret f ->
  same_rotation a b /\ same_rotation c d /\ same_rotation e f.
Proof.
  intros O1 O2. pose proof (inverse_orth m1 O1) as I1. pose proof (inverse_orth m2 O2) as I2.
  pose proof (proj2 (inverse_spec eps n m1)) as E1. pose proof (proj2 (inverse_spec eps n m2)) as E2.
  intros Ha Hb Hc Hd He Hf.
  apply prod_inv_spec in Ha as (Da & Ea & Fa & Va); auto. apply prod_spec in Hb as (Db & Eb & Fb & Vb); auto.
  apply inv_prod_spec in Hc as (Dc & Ec & Fc & Vc); auto. apply prod_spec in Hd as (Dd & Ed & Fd & Vd); auto.
  apply inv_prod_inv_spec in He as (De & Ee & Fe & Ve); auto. apply prod_spec in Hf as (Df & Ef & Ff & Vf); auto.
  split; [|split]; apply same_rotation_intro; auto; simpl in *; try congruence.
  - eapply meq_trans; [exact Ea|]. apply meq_sym. eapply meq_trans; [exact Eb|]. apply mmul_ext; auto using meq_refl.
  - eapply meq_trans; [exact Ec|]. apply meq_sym. eapply meq_trans; [exact Ed|]. apply mmul_ext; auto using meq_refl.
  - eapply meq_trans; [exact Ee|]. apply meq_sym. eapply meq_trans; [exact Ef|]. apply mmul_ext; auto using meq_refl.
Qed.

(** inverse of a product *)
Lemma inverse_prod m1 m2 a b : valid_orth n m1 -> valid_orth n m2 -> prod n m1 m2 = Ret a ->
  prod n (rot_inverse n m2) (rot_inverse n m1) = Ret b -> same_rotation (rot_inverse n a) b.
Proof.
  intros O1 O2. pose proof (inverse_orth m1 O1) as I1. pose proof (inverse_orth m2 O2) as I2.
  pose proof (proj2 (inverse_spec eps n m1)) as E1. pose proof (proj2 (inverse_spec eps n m2)) as E2.
  intros Ha Hb. apply prod_spec in Ha as (Da & Ea & Fa & Va); auto. apply prod_spec in Hb as (Db & Eb & Fb & Vb); auto.
  apply same_rotation_intro; auto; [apply mdims_mtab| | |].
  - eapply meq_trans; [apply inverse_spec|]. apply meq_sym. eapply meq_trans; [exact Eb|].
    eapply meq_trans; [apply mmul_ext; [exact E2|exact E1]|]. intros i j Hi Hj. rewrite <- mtr_mmul. symmetry. apply Ea; auto.
  - simpl. rewrite Fa, Fb. simpl. apply xorb_comm.
  - simpl. rewrite Va, Vb. simpl. apply andb_comm.
Qed.

(** ** rotation(i, j, theta) *)
Lemma inner_delta_l k a : (k < n)%nat -> inner n (ej k) a = a k. Proof. apply inner_ej_l. Qed.

Lemma plane_acts v i j theta m w : dims n v -> rot_plane n i j theta = Ret m -> vec_rotate_axes n v i j theta = Ret w -> w = vec_rotate n v m.
Proof.
  intros D Hm. pose proof (plane_ent _ _ _ _ _ _ Hm) as (Hi & Hj & Ne & Dm & E & F & V).
  unfold vec_rotate_axes. destruct (Nat.ltb_spec i n); [|discriminate]. destruct (Nat.ltb_spec j n); [|discriminate].
  destruct (Nat.eqb_spec i j); [discriminate|]. simpl. intros X; inversion X; subst; clear X.
  apply (coords_eq n); auto using rotate_dims.
  - unfold dims. simpl. rewrite !upd_length. exact D.
  - simpl. rewrite V. reflexivity.
  - intros k Hk. rewrite rotate_co by auto.
    rewrite (mapply_ext n _ (rank2 (ej i) (ej j) (cos theta - 1) (- sin theta) (sin theta) (cos theta - 1)) _ (co v) k Hk) by
      (auto; intros a b Ha Hb; rewrite <- rank2_tr; apply E; auto).
    rewrite rank2_apply by auto. rewrite !inner_ej_l by auto.
    unfold co at 1. simpl el. unfold ej, delta.
    assert (L : length (el v) = n) by exact D.
    destruct (Nat.eqb_spec j k) as [->|Njk].
    + rewrite nth_upd_same by (rewrite upd_length; lia). toco. destruct (Nat.eqb_spec i k); [congruence|]. ring.
    + rewrite nth_upd_other by lia. destruct (Nat.eqb_spec i k) as [->|Nik].
      * rewrite nth_upd_same by lia. toco. ring.
      * rewrite nth_upd_other by lia. change (nth k (el v) 0) with (co v k). ring.
Qed.

(** ** rotation(v1, v2, theta) *)
Lemma vectors_acts v1 v2 theta m : 0 < (eps : R) -> exact_dot eps n v1 v2 -> rot_vectors n v1 v2 theta = Ret m ->
  exists (e1 e2 : nat -> R) (l1 l2 m2 : R),
    norm2 n e1 = 1 /\ norm2 n e2 = 1 /\ inner n e1 e2 = 0 /\ 0 < l1 /\ 0 < m2 /\
    (forall i, (i < n)%nat -> co v1 i = l1 * e1 i /\ co v2 i = l2 * e1 i + m2 * e2 i) /\
    forall x y u v, inner n e1 u = 0 -> inner n e2 u = 0 ->
      (forall i, (i < n)%nat -> co v i = x * e1 i + y * e2 i + u i) ->
      forall i, (i < n)%nat -> co (vec_rotate n v m) i =
         (x * cos theta - y * sin theta) * e1 i + (x * sin theta + y * cos theta) * e2 i + u i.
Proof.
  intros He X H. apply vectors_ent in H as (Hp & Hr & D & E & F & V); auto.
  pose proof (perp_orth n v1 v2 Hp) as PO.
  set (p := norm2 n (co v1)) in *. set (r := norm2 n (perp n v1 v2)) in *.
  assert (Pp : sqrt p * sqrt p = p) by (apply sqrt_sqrt; lra). assert (Pr : sqrt r * sqrt r = r) by (apply sqrt_sqrt; lra).
  assert (0 < sqrt p) by (apply sqrt_lt_R0; auto). assert (0 < sqrt r) by (apply sqrt_lt_R0; auto).
  set (P := sqrt p) in *. set (Q := sqrt r) in *.
  exists (fun i => / P * co v1 i), (fun i => / Q * perp n v1 v2 i), P, (inner n (co v1) (co v2) / P), Q.
  assert (N1 : norm2 n (fun i => / P * co v1 i) = 1).
  { rewrite norm2_scal. fold p. rewrite <- Pp. field. lra. }
  assert (N2 : norm2 n (fun i => / Q * perp n v1 v2 i) = 1).
  { rewrite norm2_scal. fold r. rewrite <- Pr. field. lra. }
  assert (N3 : inner n (fun i => / P * co v1 i) (fun i => / Q * perp n v1 v2 i) = 0).
  { rewrite inner_scal_l, inner_scal_r, PO. ring. }
  split; auto. split; auto. split; auto. split; auto. split; auto. split.
  { intros i Hi. split; [field; lra|]. unfold perp at 1. fold p. rewrite <- Pp. field. lra. }
  intros x y u v U1 U2 Ev i Hi.
  rewrite inner_scal_l in U1, U2.
  assert (U1' : inner n (co v1) u = 0). { assert (/ P <> 0) by (apply Rinv_neq_0_compat; lra). apply Rmult_integral in U1 as [|]; [contradiction|auto]. }
  assert (U2' : inner n (perp n v1 v2) u = 0). { assert (/ Q <> 0) by (apply Rinv_neq_0_compat; lra). apply Rmult_integral in U2 as [|]; [contradiction|auto]. }
  rewrite rotate_co by auto.
  rewrite (mapply_ext n _ (rank2 (co v1) (perp n v1 v2) ((cos theta - 1) / p) (- sin theta / sqrt (p * r)) (sin theta / sqrt (p * r)) ((cos theta - 1) / r))
     _ (fun i => x * (/ P * co v1 i) + y * (/ Q * perp n v1 v2 i) + u i) i Hi) by
      (auto; intros a b Ha Hb; rewrite <- rank2_tr; apply E; auto).
  rewrite rank2_apply by auto. rewrite !inner_plus_r, !inner_scal_r, U1', U2'.
  rewrite (inner_comm n (perp n v1 v2) (co v1)), PO.
  change (inner n (co v1) (co v1)) with p. change (inner n (perp n v1 v2) (perp n v1 v2)) with r.
  rewrite sqrt_mult by lra. fold P Q. rewrite <- Pp, <- Pr. field. lra.
Qed.

(** ** rotation(from, to) *)
Lemma from_to_acts from to m : 0 < (eps : R) -> exact_dot eps n from to -> not_antiparallel eps n from to -> rot_from_to n from to = Ret m ->
  (forall i, (i < n)%nat -> co (vec_rotate n from m) i = norm n (co from) / norm n (co to) * co to i) /\
  (forall u, inner n (co from) (co u) = 0 -> inner n (co to) (co u) = 0 -> forall i, (i < n)%nat -> co (vec_rotate n u m) i = co u i).
Proof.
  intros He X NA H. apply from_to_ent in H as (Hp & Hr & Hk & D & E & F & V); auto.
  unfold norm. set (p := norm2 n (co from)) in *. set (r := norm2 n (co to)) in *. set (q := inner n (co from) (co to)) in *.
  assert (Hpr : 0 < p * r) by (apply Rmult_lt_0_compat; auto).
  assert (Hg : 0 < sqrt (p * r)) by (apply sqrt_lt_R0; auto). assert (G : p * r = sqrt (p * r) * sqrt (p * r)) by (rewrite sqrt_sqrt; lra).
  assert (Sp : p = sqrt p * sqrt p) by (rewrite sqrt_sqrt; lra). assert (0 < sqrt p) by (apply sqrt_lt_R0; auto). assert (0 < sqrt r) by (apply sqrt_lt_R0; auto).
  assert (Sg : sqrt (p * r) = sqrt p * sqrt r) by (apply sqrt_mult; lra).
  set (g := sqrt (p * r)) in *. set (k := q / g + 1) in *.
  assert (Hk' : 0 < k) by lra. assert (Q : q = g * (k - 1)) by (unfold k; field; lra).
  split.
  - intros i Hi. rewrite rotate_co by auto.
    rewrite (mapply_ext n _ (rank2 (co from) (co to) (- / (p * k)) (- / g + q / (p * r * k)) (/ g + q / (p * r * k)) (- / (r * k))) _ (co from) i Hi) by
      (auto; intros a b Ha Hb; rewrite <- rank2_tr; apply E; auto).
    rewrite rank2_apply by auto. rewrite (inner_comm n (co to) (co from)). fold q.
    change (inner n (co from) (co from)) with p.
    replace (sqrt p / sqrt r) with (p / g) by (rewrite Sg; rewrite Sp at 1; field; lra).
    clearbody k. rewrite Q.
    assert (R : r = g * g / p) by (rewrite <- G; field; lra). clearbody p r g. subst r. field. lra.
  - intros u U1 U2 i Hi. rewrite rotate_co by auto.
    rewrite (mapply_ext n _ (rank2 (co from) (co to) (- / (p * k)) (- / g + q / (p * r * k)) (/ g + q / (p * r * k)) (- / (r * k))) _ (co u) i Hi) by
      (auto; intros a b Ha Hb; rewrite <- rank2_tr; apply E; auto).
    rewrite rank2_apply by auto. rewrite U1, U2. ring.
Qed.

(** ** mirror(v) *)
Lemma mirror_acts v m u : rot_mirror_vec n v = Ret m -> forall i, (i < n)%nat ->
  co (vec_rotate n u m) i = co u i - 2 * inner n (co v) (co u) / norm2 n (co v) * co v i.
Proof.
  intros H i Hi. apply mirror_vec_ent in H as (Hv & D & E & _). rewrite rotate_co by auto.
  rewrite (mapply_ext n _ (rank2 (co v) (co v) (- 2 / norm2 n (co v)) 0 0 0) _ (co u) i Hi) by
    (auto; intros a b Ha Hb; rewrite <- rank2_tr; apply E; auto).
  rewrite rank2_apply by auto. field. lra.
Qed.
Lemma mirror_axis_acts k m u : rot_mirror_axis n k = Ret m -> forall i, (i < n)%nat ->
  co (vec_rotate n u m) i = if Nat.eqb k i then - co u i else co u i.
Proof.
  intros H i Hi. apply mirror_axis_ent in H as (Hk & D & E & _). rewrite rotate_co by auto.
  rewrite (mapply_ext n _ (rank2 (ej k) (ej k) (- 2) 0 0 0) _ (co u) i Hi) by
    (auto; intros a b Ha Hb; rewrite <- rank2_tr; apply E; auto).
  rewrite rank2_apply by auto. rewrite inner_ej_l by auto. unfold ej, delta. destruct (Nat.eqb_spec k i); [subst|]; ring.
Qed.
Lemma mirror_all_acts u i : (i < n)%nat -> co (vec_rotate (H := Rnum eps) n u (rot_mirror n)) i = - co u i.
Proof.
  intros Hi. rewrite rotate_co by auto.
  rewrite (mapply_ext n _ (fun a b => - delta a b) _ (co u) i Hi).
  - unfold mapply. rewrite (Rsum_ext n _ (fun k => - (delta i k * co u k))) by (intros; ring). rewrite Rsum_opp.
    rewrite (Rsum_delta_l n (co u) i Hi). reflexivity.
  - intros a b Ha Hb. unfold mtr. rewrite mirror_ent by auto. rewrite delta_sym. reflexivity.
  - auto.
Qed.
End R3.

(** ** ages, for any number type *)
Section Age.
Context {T} `{Num T}.
Lemma check_norm_age n (m m' : rotmatrix T) : mvalid m = true -> check_norm n m = Ret m' -> (mage m' < 20)%N /\ mvalid m' = true /\ ((mage m < 20)%N -> m' = m) /\ ((20 <= mage m)%N -> mage m' = 1%N).
Proof.
  intros V. unfold check_norm. change (N.of_nat max_norm_age) with 20%N. rewrite V, andb_true_r.
  destruct (N.leb_spec 20 (mage m)).
  - unfold rot_normalize. destruct (matrix_inverse _ _ _); [|discriminate]. intros X; inversion X; subst. simpl. repeat split; auto; try lia.
  - intros X; inversion X; subst. repeat split; auto. lia.
Qed.
Lemma prod_age n f (m1 m2 m : rotmatrix T) : prod_with n f m1 m2 = Ret m -> mvalid m = true ->
  (mage m < 20)%N /\ (age_add (mage m1) (mage m2) < 20 -> mage m = age_add (mage m1) (mage m2))%N /\ (20 <= age_add (mage m1) (mage m2) -> mage m = 1)%N.
Proof.
  unfold prod_with. intros H1 V.
  destruct (mvalid m1 && mvalid m2) eqn:E.
  - apply check_norm_age in H1 as (A & B & C & D); auto. simpl in *. split; auto. split; auto. intros L. rewrite C by auto. reflexivity.
  - unfold check_norm in H1. simpl in H1. rewrite andb_false_r in H1. inversion H1; subst. discriminate.
Qed.
End Age.
