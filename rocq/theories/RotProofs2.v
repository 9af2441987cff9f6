(** Constructors and products of rotation matrices in exact arithmetic. *)
From Coq Require Import Reals Lra Lia List Bool Psatz ZArith NArith.
From Flocq Require Import Core.Zaux Core.Raux.
From Verif Require Import Base Scalar ConstModel VecModel RotModel RSpec RLib VecSpec VecProofs RotSpec MatLib RotProofs.
Import ListNotations.
Open Scope R_scope.

Lemma sin2_cos2' x : sin x * sin x = 1 - cos x * cos x.
Proof. pose proof (sin2_cos2 x) as H. unfold Rsqr in H. lra. Qed.

Section R2.
Context (eps : Epsilon).
Variable n : nat.

(** ** normalize *)
Lemma transpose_rc A : meq n (rc (transpose n A)) (mtr (rc A)).
Proof. intros i j Hi Hj. unfold transpose. rewrite rc_mtab by auto. reflexivity. Qed.

Lemma normalize_ret m m' : rot_normalize n m = Ret m' ->
  exists B, inverse_of n (mtr (ent m)) B /\ meq n (ent m') (fun i j => (ent m i j + B i j) / 2) /\
    mdims n (me m') /\ mflip m' = mflip m /\ mvalid m' = mvalid m /\ mage m' = 1%N.
Proof.
  unfold rot_normalize. destruct (matrix_inverse n (transpose n (me m)) (mtab n kron)) as [B|] eqn:E; [|discriminate].
  intros X; inversion X; subst; clear X. apply matrix_inverse_correct in E. exists (rc B). simpl. split; [|split; [|split]]; auto.
  - destruct E as [E1 E2]. pose proof (meq_sym n _ _ (transpose_rc (me m))) as TR. split; [apply (meq_trans n _ _ _ (mmul_ext n _ _ _ _ TR (meq_refl n _)) E1)|apply (meq_trans n _ _ _ (mmul_ext n _ _ _ _ (meq_refl n _) TR) E2)].
  - intros i j Hi Hj. unfold ent at 1. simpl. unfold average. rewrite rc_mtab by auto. reflexivity.
  - apply mdims_mtab.
Qed.

(** A'A'^T = I + (S - I)^2 S^-1 / 4 with S = A A^T *)
Lemma normalize_defect m m' : rot_normalize n m = Ret m' ->
  exists Sinv, let A := ent m in let S := mmul n A (mtr A) in
    inverse_of n S Sinv /\
    meq n (fun i j => mmul n (ent m') (mtr (ent m')) i j - delta i j)
          (fun i j => mmul n (mmul n (fun a b => S a b - delta a b) (fun a b => S a b - delta a b)) Sinv i j / 4).
Proof.
  intros H. apply normalize_ret in H as (B & [HB1 HB2] & E & _).
  set (A := ent m) in *. set (BT := mtr B).
  (* BT = A^-1 *)
  assert (I1 : meq n (mmul n BT A) delta).
  { intros i j Hi Hj. rewrite <- (HB1 j i Hj Hi) || idtac. change (mmul n BT A i j) with (mmul n (mtr B) A i j).
    rewrite (delta_sym i j). rewrite <- (HB1 j i Hj Hi). unfold mmul, mtr. apply Rsum_ext. intros; ring. }
  assert (I2 : meq n (mmul n A BT) delta).
  { intros i j Hi Hj. rewrite (delta_sym i j). rewrite <- (HB2 j i Hj Hi). unfold BT, mmul, mtr. apply Rsum_ext. intros; ring. }
  set (S := mmul n A (mtr A)).
  exists (mmul n B BT). cbv zeta. fold A S.
  assert (SB : meq n (mmul n S B) A).
  { intros i j Hi Hj. unfold S. rewrite mmul_assoc. rewrite (mmul_ext n _ _ _ _ (meq_refl n A) HB1 i j Hi Hj). apply mmul_1_r; auto. }
  assert (IS : inverse_of n S (mmul n B BT)).
  { split; intros i j Hi Hj.
    - rewrite <- mmul_assoc. rewrite (mmul_ext n _ _ _ _ SB (meq_refl n BT) i j Hi Hj). apply I2; auto.
    - unfold S. rewrite mmul_assoc. rewrite <- (HB2 i j Hi Hj). apply mmul_ext; auto using meq_refl.
      intros a b Ha Hb. rewrite <- mmul_assoc. rewrite (mmul_ext n _ _ _ _ I1 (meq_refl n (mtr A)) a b Ha Hb). apply mmul_1_l; auto. }
  split; [exact IS|].
  (* A' A'^T = (S + 2 I + Sinv) / 4 *)
  assert (P : meq n (mmul n (ent m') (mtr (ent m'))) (fun i j => (S i j + 2 * delta i j + mmul n B BT i j) / 4)).
  { intros i j Hi Hj.
    rewrite (mmul_ext n _ _ _ _ E (mtr_ext n _ _ E) i j Hi Hj). unfold mmul at 1, mtr at 1.
    rewrite (Rsum_ext n _ (fun k => / 4 * ((A i k * mtr A k j + B i k * mtr B k j) + (A i k * mtr B k j + B i k * mtr A k j)))).
    2:{ intros; unfold mtr; field. }
    rewrite Rsum_scal_l, !Rsum_plus.
    change (Rsum n (fun k => A i k * mtr A k j)) with (S i j). change (Rsum n (fun k => B i k * mtr B k j)) with (mmul n B BT i j).
    change (Rsum n (fun k => A i k * mtr B k j)) with (mmul n A BT i j). change (Rsum n (fun k => B i k * mtr A k j)) with (mmul n B (mtr A) i j).
    rewrite I2 by auto. rewrite HB2 by auto. field. }
  intros i j Hi Hj. rewrite P by auto. clear P.
  (* (S - I)^2 Sinv = S - 2 I + Sinv *)
  assert (Q : meq n (mmul n (fun a b => S a b - delta a b) (mmul n B BT)) (fun i j => delta i j - mmul n B BT i j)).
  { intros a b Ha Hb. unfold mmul at 1. rewrite (Rsum_ext n _ (fun k => S a k * mmul n B BT k b - delta a k * mmul n B BT k b)) by (intros; ring).
    rewrite Rsum_minus. change (Rsum n (fun k => S a k * mmul n B BT k b)) with (mmul n S (mmul n B BT) a b).
    rewrite (proj1 IS) by auto. rewrite (Rsum_delta_l n (fun k => mmul n B BT k b) a Ha). reflexivity. }
  rewrite mmul_assoc. rewrite (mmul_ext n _ _ _ _ (meq_refl n _) Q i j Hi Hj).
  unfold mmul at 2. rewrite (Rsum_ext n _ (fun k => (S i k * delta k j - delta i k * delta k j) - (S i k - delta i k) * mmul n B BT k j)) by (intros; ring).
  rewrite Rsum_minus, Rsum_minus. rewrite (Rsum_delta_r n (fun k => S i k) j Hj). rewrite (Rsum_delta_l n (fun k => delta k j) i Hi).
  change (Rsum n (fun k => (S i k - delta i k) * mmul n B BT k j)) with (mmul n (fun a b => S a b - delta a b) (mmul n B BT) i j).
  rewrite Q by auto. field.
Qed.

Lemma normalize_orthogonal m m' : mdims n (me m) -> orthogonal n (ent m) -> rot_normalize n m = Ret m' ->
  same_rotation m' m /\ mage m' = 1%N.
Proof.
  intros D O H. apply normalize_ret in H as (B & [HB1 HB2] & E & D' & F & V & A).
  assert (EB : meq n B (ent m)).
  { apply (inverse_unique n (mtr (ent m))); auto. exact (orthogonal_cols n _ O). }
  repeat split; auto. apply (mdims_eq n); auto. intros i j Hi Hj. rewrite (E i j Hi Hj : rc (me m') i j = _). rewrite EB by auto.
  unfold ent. field.
Qed.

Lemma check_norm_orthogonal m m' : mdims n (me m) -> (mvalid m = true -> orthogonal n (ent m)) -> check_norm n m = Ret m' ->
  same_rotation m' m.
Proof.
  intros D O. unfold check_norm. destruct (_ <=? _)%N; simpl.
  - destruct (mvalid m) eqn:V; intros H.
    + apply normalize_orthogonal in H; auto. apply H.
    + inversion H. repeat split; auto.
  - intros H; inversion H. repeat split; auto.
Qed.

(** ** products *)
Lemma prod_with_spec f m1 m2 m : (mvalid m1 = true -> mvalid m2 = true -> orthogonal n f) ->
  @prod_with R (Rnum eps) n f m1 m2 = Ret m ->
  mdims n (me m) /\ meq n (ent m) f /\ mflip m = xorb (mflip m1) (mflip m2) /\ mvalid m = mvalid m1 && mvalid m2.
Proof.
  intros O H. unfold prod_with in H. set (m0 := mkM (mtab n f) _ _ _) in H.
  assert (E0 : meq n (ent m0) f) by (intros i j Hi Hj; unfold ent; simpl; apply rc_mtab; auto).
  apply check_norm_orthogonal in H as (E & F & V).
  - rewrite E. split; [apply mdims_mtab|]. split; auto. unfold ent in *. rewrite E. auto.
  - apply mdims_mtab.
  - simpl. intros V. apply andb_prop in V as [V1 V2]. eapply orthogonal_ext; [apply meq_sym; exact E0|]. auto.
Qed.

Lemma nsum_mmul A B i j : nsum n (fun k => A i k * B k j) = mmul n A B i j.
Proof. rewrite nsum_Rsum. reflexivity. Qed.

Definition valid_orth (m : rotmatrix R) : Prop := mvalid m = true -> orthogonal n (ent m).

Definition prod_result (m m1 m2 : rotmatrix R) (A B : nat -> nat -> R) : Prop :=
  mdims n (me m) /\ meq n (ent m) (mmul n A B) /\ mflip m = xorb (mflip m1) (mflip m2) /\ mvalid m = mvalid m1 && mvalid m2.

Lemma prod_any f m1 m2 m A B : (forall i j, (i < n)%nat -> (j < n)%nat -> f i j = mmul n A B i j) ->
  (mvalid m1 = true -> orthogonal n A) -> (mvalid m2 = true -> orthogonal n B) ->
  @prod_with R (Rnum eps) n f m1 m2 = Ret m -> prod_result m m1 m2 A B.
Proof.
  intros E OA OB H. apply prod_with_spec in H as (H1 & H2 & H3 & H4).
  - split; auto. split; auto. eapply meq_trans; [exact H2|]. exact E.
  - intros V1 V2. eapply orthogonal_ext; [apply meq_sym; exact E|]. apply orthogonal_mul; auto.
Qed.

Lemma prod_spec m1 m2 m : valid_orth m1 -> valid_orth m2 -> prod n m1 m2 = Ret m -> prod_result m m1 m2 (ent m1) (ent m2).
Proof. intros O1 O2. apply prod_any; auto. intros. tom. apply nsum_mmul. Qed.
Lemma prod_inv_spec m1 m2 m : valid_orth m1 -> valid_orth m2 -> prod_inv n m1 m2 = Ret m -> prod_result m m1 m2 (ent m1) (mtr (ent m2)).
Proof. intros O1 O2. apply prod_any; auto. intros. tom. apply (nsum_mmul (ent m1) (mtr (ent m2))). intros; apply orthogonal_tr; auto. Qed.
Lemma inv_prod_spec m1 m2 m : valid_orth m1 -> valid_orth m2 -> inv_prod n m1 m2 = Ret m -> prod_result m m1 m2 (mtr (ent m1)) (ent m2).
Proof. intros O1 O2. apply prod_any; auto. intros. tom. apply (nsum_mmul (mtr (ent m1)) (ent m2)). intros; apply orthogonal_tr; auto. Qed.
Lemma inv_prod_inv_spec m1 m2 m : valid_orth m1 -> valid_orth m2 -> inv_prod_inv n m1 m2 = Ret m -> prod_result m m1 m2 (mtr (ent m1)) (mtr (ent m2)).
Proof. intros O1 O2. apply prod_any; auto. intros. tom. apply (nsum_mmul (mtr (ent m1)) (mtr (ent m2))). all: intros; apply orthogonal_tr; auto. Qed.

Lemma inverse_spec m : mdims n (me (rot_inverse (H := Rnum eps) n m)) /\ meq n (ent (rot_inverse n m)) (mtr (ent m)).
Proof.
  split; [apply mdims_mtab|]. intros i j Hi Hj. unfold ent at 1. simpl. rewrite rc_mtab by auto. reflexivity.
Qed.

(** ** constructors *)
Lemma identity_ent : meq n (ent (rot_identity (H := Rnum eps) n)) delta.
Proof. intros i j Hi Hj. unfold ent. simpl. rewrite rc_mtab by auto. reflexivity. Qed.

Lemma mirror_ent : meq n (ent (rot_mirror (H := Rnum eps) n)) (fun i j => - delta i j).
Proof. intros i j Hi Hj. unfold ent. simpl. rewrite rc_mtab by auto. tom. unfold delta. cases; ring. Qed.

(** unit vectors *)
Definition ej (k i : nat) : R := delta k i.
Lemma inner_ej_l k a : (k < n)%nat -> inner n (ej k) a = a k.
Proof. intros. unfold inner, ej. apply (Rsum_delta_l n a k H). Qed.

Lemma mirror_axis_ent i m : rot_mirror_axis n i = Ret m ->
  (i < n)%nat /\ mdims n (me m) /\ meq n (ent m) (rank2 (ej i) (ej i) (-2) 0 0 0) /\ mflip m = true /\ mvalid m = true.
Proof.
  unfold rot_mirror_axis. destruct (Nat.ltb_spec i n); [|discriminate]. intros X; inversion X; subst; clear X. simpl.
  split; auto. split; [apply mdims_mtab|]. split; auto.
  intros k l Hk Hl. unfold ent; simpl. rewrite rc_mtab by auto. tom. unfold rank2, ej, delta.
  cases; simpl; try ring; cases; ring.
Qed.

Lemma plane_ent i j theta m : rot_plane n i j theta = Ret m ->
  (i < n)%nat /\ (j < n)%nat /\ i <> j /\ mdims n (me m) /\
  meq n (ent m) (rank2 (ej i) (ej j) (cos theta - 1) (sin theta) (- sin theta) (cos theta - 1)) /\ mflip m = false /\ mvalid m = true.
Proof.
  unfold rot_plane. destruct (Nat.ltb_spec i n); [|discriminate]. destruct (Nat.ltb_spec j n); [|discriminate].
  destruct (Nat.eqb_spec i j); [discriminate|]. simpl. intros X; inversion X; subst; clear X. simpl.
  split; auto. split; auto. split; auto. split; [apply mdims_mtab|]. split; auto.
  intros k l Hk Hl. unfold ent; simpl. rewrite rc_mtab by auto. tom. unfold rank2, ej, delta.
  cases; simpl; try ring; cases; simpl; try ring; cases; ring.
Qed.

Lemma mirror_vec_ent v m : rot_mirror_vec n v = Ret m ->
  0 < norm2 n (co v) /\ mdims n (me m) /\ meq n (ent m) (rank2 (co v) (co v) (- 2 / norm2 n (co v)) 0 0 0) /\ mflip m = true /\ mvalid m = true.
Proof.
  unfold rot_mirror_vec. rewrite sqr_mag_norm2. tom. destruct (Rlt_bool_spec 0 (norm2 n (co v))); [|discriminate]. simpl.
  intros X; inversion X; subst; clear X. simpl. split; auto. split; [apply mdims_mtab|]. split; auto.
  intros i j Hi Hj. unfold ent; simpl. rewrite rc_mtab by auto. unfold rank2, delta. toco.
  cases; subst; field; lra.
Qed.

Lemma norm2_pos_dim v : 0 < norm2 n v -> (0 < n)%nat.
Proof. destruct n; [|lia]. unfold norm2, inner. simpl. lra. Qed.

(** The part of v2 orthogonal to v1. *)
Definition perp (v1 v2 : vector R) (i : nat) : R := co v2 i - inner n (co v1) (co v2) / norm2 n (co v1) * co v1 i.
Lemma perp_orth v1 v2 : 0 < norm2 n (co v1) -> inner n (co v1) (perp v1 v2) = 0.
Proof.
  intros H. unfold perp. rewrite inner_minus_r, inner_scal_r. fold (norm2 n (co v1)). field. lra.
Qed.

Lemma vectors_ent v1 v2 theta m : 0 < (eps : R) -> exact_dot eps n v1 v2 -> rot_vectors n v1 v2 theta = Ret m ->
  let p := norm2 n (co v1) in let r := norm2 n (perp v1 v2) in
  0 < p /\ 0 < r /\ mdims n (me m) /\
  meq n (ent m) (rank2 (co v1) (perp v1 v2) ((cos theta - 1) / p) (sin theta / sqrt (p * r)) (- sin theta / sqrt (p * r)) ((cos theta - 1) / r)) /\
  mflip m = false /\ mvalid m = true.
Proof.
  intros He X H p r. unfold rot_vectors in H. rewrite !sqr_mag_norm2 in H. fold p in H.
  revert H. tom. destruct (Rlt_bool_spec 0 p) as [Hp|]; [|discriminate]. simpl oassert.
  set (vp := vec_sub n v2 _). assert (Evp : forall i, (i < n)%nat -> co vp i = perp v1 v2 i).
  { intros i Hi. unfold vp, vec_sub, vec_div, vec_scale, perp. rewrite co_tab by auto. rewrite !at_tab by auto. toco. rewrite X. fold p. field. apply Rgt_not_eq; exact Hp. }
  assert (Er : norm2 n (co vp) = r) by (apply inner_ext; auto). rewrite Er.
  assert (Hn : (0 < n)%nat) by (apply (norm2_pos_dim _ Hp)).
  destruct (Rlt_bool_spec (r / p) (IZR (Z.of_nat n) * eps * eps)) as [|Hr].
  { destruct (Rlt_bool 0 (norm2 n (co v2))); discriminate. }
  assert (0 < r).
  { assert (0 < IZR (Z.of_nat n)) by (apply IZR_lt; lia). assert (0 < IZR (Z.of_nat n) * eps * eps) by (repeat apply Rmult_lt_0_compat; auto).
    assert (0 < r / p) by lra. apply Rmult_lt_reg_r with (/ p); [apply Rinv_0_lt_compat; auto|]. unfold Rdiv in *. lra. }
  intros X'; inversion X'; subst; clear X'. simpl. split; auto. split; auto. split; [apply mdims_mtab|]. split; auto.
  assert (0 < p * r) by (apply Rmult_lt_0_compat; auto). assert (0 < sqrt (p * r)) by (apply sqrt_lt_R0; auto).
  intros i j Hi Hj. unfold ent; simpl. rewrite rc_mtab by auto. unfold rank2, delta. toco. rewrite !Evp by auto.
  fold p. set (q := sqrt (p * r)) in *. cases; field; lra.
Qed.

Lemma from_to_ent from to m : 0 < (eps : R) -> exact_dot eps n from to -> not_antiparallel eps n from to -> rot_from_to n from to = Ret m ->
  let p := norm2 n (co from) in let r := norm2 n (co to) in let q := inner n (co from) (co to) in
  let g := sqrt (p * r) in let k := q / g + 1 in
  0 < p /\ 0 < r /\ eps <= k /\ mdims n (me m) /\
  meq n (ent m) (rank2 (co from) (co to) (- / (p * k)) (/ g + q / (p * r * k)) (- / g + q / (p * r * k)) (- / (r * k))) /\
  mflip m = false /\ mvalid m = true.
Proof.
  intros He X NA H p r q g k. unfold rot_from_to in H. rewrite !sqr_mag_norm2 in H. fold p r in H.
  revert H. tom. destruct (Rlt_bool_spec 0 p) as [Hp|]; [|discriminate]. simpl oassert.
  destruct (Rlt_bool_spec 0 r) as [Hr|]; [|discriminate]. simpl oassert.
  rewrite X. fold q. change (sqrt (p * r)) with g. change (q / g + 1) with k.
  assert (Hk : eps <= k).
  { unfold not_antiparallel in NA. unfold k, g. unfold norm in NA. rewrite sqrt_mult by (unfold p, r; apply norm2_nonneg). exact NA. }
  rewrite (Rlt_bool_false k eps) by auto.
  intros X'; inversion X'; subst; clear X'. simpl. split; auto. split; auto. split; auto. split; [apply mdims_mtab|]. split; auto.
  assert (0 < p * r) by (apply Rmult_lt_0_compat; auto). assert (0 < g) by (apply sqrt_lt_R0; auto).
  assert (G : p * r = g * g) by (symmetry; apply sqrt_sqrt; lra).
  assert (K : 0 < k) by lra.
  intros i j Hi Hj. unfold ent; simpl. rewrite rc_mtab by auto. unfold rank2, delta. toco. fold p r q.
  clearbody g k p r q. rewrite !G.
  cases; subst; field; lra.
Qed.

(** ** orthogonality and determinant of the rank two forms *)
Lemma mirror_form_orth v : 0 < norm2 n v -> orthogonal n (rank2 v v (- 2 / norm2 n v) 0 0 0).
Proof. intros H. apply rank2_orthogonal; fold (norm2 n v); field; lra. Qed.
Lemma mirror_form_det v : dim23 n -> 0 < norm2 n v -> det n (rank2 v v (- 2 / norm2 n v) 0 0 0) = -1.
Proof. intros D H. rewrite rank2_det by auto. fold (norm2 n v). field. lra. Qed.

Lemma plane_form_orth a b theta p r g : p = norm2 n a -> r = norm2 n b -> inner n a b = 0 -> 0 < p -> 0 < r -> 0 < g -> p * r = g * g ->
  orthogonal n (rank2 a b ((cos theta - 1) / p) (sin theta / g) (- sin theta / g) ((cos theta - 1) / r)).
Proof.
  intros Ep Er Eq Hp Hr Hg G. apply rank2_orthogonal; rewrite <- ?Ep, <- ?Er, Eq; pose proof (sin2_cos2' theta) as SC; set (s := sin theta) in *; set (c := cos theta) in *;
  assert (r = g * g / p) as -> by (rewrite <- G; field; lra).
  - field_simplify_eq; [|split; lra]. replace (s ^ 2) with (1 - c * c) by (rewrite <- SC; ring). ring.
  - field. lra.
  - field_simplify_eq; [|split; lra]. replace (s ^ 2) with (1 - c * c) by (rewrite <- SC; ring). ring.
Qed.
Lemma plane_form_det a b theta p r g : dim23 n -> p = norm2 n a -> r = norm2 n b -> inner n a b = 0 -> 0 < p -> 0 < r -> 0 < g -> p * r = g * g ->
  det n (rank2 a b ((cos theta - 1) / p) (sin theta / g) (- sin theta / g) ((cos theta - 1) / r)) = 1.
Proof.
  intros D Ep Er Eq Hp Hr Hg G. rewrite rank2_det by auto. rewrite <- ?Ep, <- ?Er, Eq; pose proof (sin2_cos2' theta) as SC; set (s := sin theta) in *; set (c := cos theta) in *.
  assert (r = g * g / p) as -> by (rewrite <- G; field; lra).
  field_simplify_eq; [|split; lra]. replace (s ^ 2) with (1 - c * c) by (rewrite <- SC; ring). ring.
Qed.

Lemma from_to_form_orth a b p r q g k : p = norm2 n a -> r = norm2 n b -> q = inner n a b -> 0 < p -> 0 < r -> 0 < g -> p * r = g * g ->
  k = q / g + 1 -> 0 < k ->
  orthogonal n (rank2 a b (- / (p * k)) (/ g + q / (p * r * k)) (- / g + q / (p * r * k)) (- / (r * k))).
Proof.
  intros Ep Er Eq Hp Hr Hg G Ek Hk. apply rank2_orthogonal; rewrite <- ?Ep, <- ?Er, <- Eq;
  assert (q = g * (k - 1)) as -> by (rewrite Ek; field; lra);
  assert (r = g * g / p) as -> by (rewrite <- G; field; lra); field; repeat split; lra.
Qed.
Lemma from_to_form_det a b p r q g k : dim23 n -> p = norm2 n a -> r = norm2 n b -> q = inner n a b -> 0 < p -> 0 < r -> 0 < g -> p * r = g * g ->
  k = q / g + 1 -> 0 < k ->
  det n (rank2 a b (- / (p * k)) (/ g + q / (p * r * k)) (- / g + q / (p * r * k)) (- / (r * k))) = 1.
Proof.
  intros D Ep Er Eq Hp Hr Hg G Ek Hk. rewrite rank2_det by auto. rewrite <- ?Ep, <- ?Er, <- Eq.
  assert (q = g * (k - 1)) as -> by (rewrite Ek; field; lra).
  assert (r = g * g / p) as -> by (rewrite <- G; field; lra). field; repeat split; lra.
Qed.

Definition good (m : rotmatrix R) : Prop :=
  orthogonal n (ent m) /\ (dim23 n -> det n (ent m) = if mflip m then -1 else 1).

Lemma good_ext m A : meq n (ent m) A -> orthogonal n A -> (dim23 n -> det n A = if mflip m then -1 else 1) -> good m.
Proof.
  intros E O D. split. eapply orthogonal_ext; [apply meq_sym; eauto|auto]. intros H. rewrite (det_ext n _ _ E). auto.
Qed.

Lemma ej_norm2 k : (k < n)%nat -> norm2 n (ej k) = 1.
Proof. intros. unfold norm2. rewrite inner_ej_l by auto. apply delta_same. Qed.

Lemma prod_result_good m m1 m2 A B : prod_result m m1 m2 A B -> orthogonal n A -> orthogonal n B ->
  (dim23 n -> det n A = if mflip m1 then -1 else 1) -> (dim23 n -> det n B = if mflip m2 then -1 else 1) -> good m.
Proof.
  intros (D & E & F & V) OA OB DA DB. apply (good_ext m _ E). apply orthogonal_mul; auto.
  intros D2. rewrite det_mul, DA, DB, F by auto. destruct (mflip m1), (mflip m2); simpl; ring.
Qed.

Lemma meval_good e : 0 < (eps : R) -> forall m, exact_nodes eps n e -> meval eps n e = Ret m -> mdims n (me m) /\ (mvalid m = true -> good m).
Proof.
  intros He. induction e; intros m X H; simpl in H, X.
  - inversion H. split; [apply mdims_mtab|discriminate].
  - inversion H. split; [apply mdims_mtab|]. intros _. apply (good_ext _ delta identity_ent (orthogonal_delta n)). intros. apply det_delta.
  - apply plane_ent in H as (Hi & Hj & Ne & D & E & F & V). split; auto. intros _.
    assert (inner n (ej i) (ej j) = 0) by (rewrite inner_ej_l by auto; apply delta_diff; auto).
    replace (cos theta - 1) with ((cos theta - 1) / 1) in E by field. replace (sin theta) with (sin theta / 1) in E by field.
    replace (- (sin theta / 1)) with (- sin theta / 1) in E by field.
    apply (good_ext _ _ E).
    + apply plane_form_orth; rewrite ?ej_norm2; auto; lra.
    + intros. rewrite F. apply plane_form_det; rewrite ?ej_norm2; auto; lra.
  - apply vectors_ent in H as (Hp & Hr & D & E & F & V); auto. split; auto. intros _.
    assert (0 < norm2 n (co v1) * norm2 n (perp v1 v2)) by (apply Rmult_lt_0_compat; auto).
    assert (0 < sqrt (norm2 n (co v1) * norm2 n (perp v1 v2))) by (apply sqrt_lt_R0; auto).
    assert (norm2 n (co v1) * norm2 n (perp v1 v2) = sqrt (norm2 n (co v1) * norm2 n (perp v1 v2)) * sqrt (norm2 n (co v1) * norm2 n (perp v1 v2))) by (rewrite sqrt_sqrt; lra).
    apply (good_ext _ _ E).
    + apply plane_form_orth; auto. apply perp_orth; auto.
    + intros. rewrite F. apply plane_form_det; auto. apply perp_orth; auto.
  - destruct X as [X1 X2]. apply from_to_ent in H as (Hp & Hr & Hk & D & E & F & V); auto. split; auto. intros _.
    assert (0 < norm2 n (co from) * norm2 n (co to)) by (apply Rmult_lt_0_compat; auto).
    assert (0 < sqrt (norm2 n (co from) * norm2 n (co to))) by (apply sqrt_lt_R0; auto).
    assert (norm2 n (co from) * norm2 n (co to) = sqrt (norm2 n (co from) * norm2 n (co to)) * sqrt (norm2 n (co from) * norm2 n (co to))) by (rewrite sqrt_sqrt; lra).
    apply (good_ext _ _ E).
    + apply from_to_form_orth; auto. lra.
    + intros. rewrite F. apply from_to_form_det; auto. lra.
  - apply mirror_axis_ent in H as (Hi & D & E & F & V). split; auto. intros _.
    replace (-2) with (-2 / norm2 n (ej i)) in E by (rewrite ej_norm2 by auto; field).
    apply (good_ext _ _ E).
    + apply mirror_form_orth. rewrite ej_norm2 by auto; lra.
    + intros. rewrite F. apply mirror_form_det; auto. rewrite ej_norm2 by auto; lra.
  - apply mirror_vec_ent in H as (Hv & D & E & F & V). split; auto. intros _.
    apply (good_ext _ _ E).
    + apply mirror_form_orth; auto.
    + intros. rewrite F. apply mirror_form_det; auto.
  - inversion H. split; [apply mdims_mtab|]. intros _. apply (good_ext _ _ mirror_ent).
    + intros i j Hi Hj. unfold mmul, mtr. rewrite (Rsum_ext n _ (fun k => delta i k * delta j k)) by (intros; ring).
      rewrite (Rsum_delta_l n (fun k => delta j k) i Hi). apply delta_sym.
    + intros [D | D]; rewrite D in *; simpl; unfold det2, det3, delta; simpl; ring.
  - destruct (meval eps n e1) as [x| | |] eqn:E1; try discriminate. destruct (meval eps n e2) as [y| | |] eqn:E2; try discriminate. simpl in H.
    destruct X as [X1 X2]. destruct (IHe1 x X1 eq_refl) as [D1 G1]. destruct (IHe2 y X2 eq_refl) as [D2 G2].
    apply prod_spec in H; [|intro; apply G1; auto|intro; apply G2; auto]. split; [apply H|]. intros V.
    pose proof H as (_ & _ & _ & V'). rewrite V in V'. symmetry in V'. apply andb_prop in V' as [V1 V2].
    apply (prod_result_good _ _ _ _ _ H); try apply G1; try apply G2; auto.
  - destruct (meval eps n e1) as [x| | |] eqn:E1; try discriminate. destruct (meval eps n e2) as [y| | |] eqn:E2; try discriminate. simpl in H.
    destruct X as [X1 X2]. destruct (IHe1 x X1 eq_refl) as [D1 G1]. destruct (IHe2 y X2 eq_refl) as [D2 G2].
    apply prod_inv_spec in H; [|intro; apply G1; auto|intro; apply G2; auto]. split; [apply H|]. intros V.
    pose proof H as (_ & _ & _ & V'). rewrite V in V'. symmetry in V'. apply andb_prop in V' as [V1 V2].
    destruct (G1 V1) as [O1 T1], (G2 V2) as [O2 T2]. pose proof (orthogonal_tr n _ O1). pose proof (orthogonal_tr n _ O2).
    apply (prod_result_good _ _ _ _ _ H); rewrite ?det_tr; auto.
  - destruct (meval eps n e1) as [x| | |] eqn:E1; try discriminate. destruct (meval eps n e2) as [y| | |] eqn:E2; try discriminate. simpl in H.
    destruct X as [X1 X2]. destruct (IHe1 x X1 eq_refl) as [D1 G1]. destruct (IHe2 y X2 eq_refl) as [D2 G2].
    apply inv_prod_spec in H; [|intro; apply G1; auto|intro; apply G2; auto]. split; [apply H|]. intros V.
    pose proof H as (_ & _ & _ & V'). rewrite V in V'. symmetry in V'. apply andb_prop in V' as [V1 V2].
    destruct (G1 V1) as [O1 T1], (G2 V2) as [O2 T2]. pose proof (orthogonal_tr n _ O1). pose proof (orthogonal_tr n _ O2).
    apply (prod_result_good _ _ _ _ _ H); rewrite ?det_tr; auto.
  - destruct (meval eps n e1) as [x| | |] eqn:E1; try discriminate. destruct (meval eps n e2) as [y| | |] eqn:E2; try discriminate. simpl in H.
    destruct X as [X1 X2]. destruct (IHe1 x X1 eq_refl) as [D1 G1]. destruct (IHe2 y X2 eq_refl) as [D2 G2].
    apply inv_prod_inv_spec in H; [|intro; apply G1; auto|intro; apply G2; auto]. split; [apply H|]. intros V.
    pose proof H as (_ & _ & _ & V'). rewrite V in V'. symmetry in V'. apply andb_prop in V' as [V1 V2].
    destruct (G1 V1) as [O1 T1], (G2 V2) as [O2 T2]. pose proof (orthogonal_tr n _ O1). pose proof (orthogonal_tr n _ O2).
    apply (prod_result_good _ _ _ _ _ H); rewrite ?det_tr; auto.
  - destruct (meval eps n e) as [x| | |] eqn:E1; try discriminate. simpl in H. inversion H; subst; clear H.
    destruct (IHe x X eq_refl) as [D1 G1]. pose proof (inverse_spec x) as [D E]. split; auto. simpl. intros V.
    destruct (G1 V) as [O Dt]. apply (good_ext _ _ E). apply orthogonal_tr; auto. intros. rewrite det_tr. auto.
  - destruct (meval eps n e) as [x| | |] eqn:E1; try discriminate. simpl in H.
    destruct (IHe x X eq_refl) as [D1 G1].
    pose proof H as H'. apply normalize_ret in H' as (_ & _ & _ & D & F & V & _). split; auto. intros Vm. rewrite V in Vm.
    destruct (G1 Vm) as [O Dt]. apply normalize_orthogonal in H as [(Em & Ef & Ev) _]; auto.
    unfold good, ent. rewrite Em, Ef. split; auto.
Qed.
End R2.
