(** Lemmas about matrices given as functions of row and column. *)
From Coq Require Import Reals Lra Lia List Bool Psatz.
From Verif Require Import Base Scalar ConstModel VecModel RotModel RSpec RLib VecSpec RotSpec.
Import ListNotations.
Open Scope R_scope.

Lemma mdims_mtab {T} n (f : nat -> nat -> T) : mdims n (mtab n f).
Proof.
  unfold mdims, mtab. rewrite tab_length. split; auto. intros i Hi. rewrite nth_tab by auto. apply tab_length.
Qed.
Lemma mdims_eq n (a b : mat R) : mdims n a -> mdims n b -> meq n (rc a) (rc b) -> a = b.
Proof.
  intros [La Ra] [Lb Rb] H. apply (list_eq_nth _ _ []); [congruence|]. rewrite La. intros i Hi.
  apply (list_eq_nth _ _ 0); [rewrite Ra, Rb; auto|]. rewrite Ra by auto. intros j Hj. apply (H i j Hi Hj).
Qed.
Lemma mget_mtab {T} `{Num T} n f i j : (i < n)%nat -> (j < n)%nat -> mget (mtab n f) i j = f i j.
Proof. intros Hi Hj. unfold mget, mtab, get. rewrite nth_tab by auto. apply nth_tab; auto. Qed.
Lemma rc_mtab n f i j : (i < n)%nat -> (j < n)%nat -> rc (mtab n f) i j = f i j.
Proof. intros Hi Hj. unfold rc, mtab. rewrite nth_tab by auto. apply nth_tab; auto. Qed.
Lemma mget_rc eps m i j : @mget R (Rnum eps) m i j = rc m i j.
Proof. reflexivity. Qed.
Lemma elem_ent eps m i j : @elem R (Rnum eps) m i j = ent m i j.
Proof. reflexivity. Qed.
Lemma mtab_ext {T} n (f g : nat -> nat -> T) : (forall i j, (i < n)%nat -> (j < n)%nat -> f i j = g i j) -> mtab n f = mtab n g.
Proof. intros H. apply tab_ext. intros i Hi. apply tab_ext. auto. Qed.
Lemma mtab_rc n m : mdims n m -> mtab n (rc m) = m.
Proof. intros D. apply (mdims_eq n); auto using mdims_mtab. intros i j Hi Hj. apply rc_mtab; auto. Qed.

Section M.
Variable n : nat.

Lemma meq_refl A : meq n A A. Proof. intros ? ? ? ?; reflexivity. Qed.
Lemma meq_sym A B : meq n A B -> meq n B A. Proof. intros H i j Hi Hj. symmetry. auto. Qed.
Lemma meq_trans A B C : meq n A B -> meq n B C -> meq n A C.
Proof. intros H H' i j Hi Hj. rewrite H by auto. auto. Qed.
Lemma mmul_ext A A' B B' : meq n A A' -> meq n B B' -> meq n (mmul n A B) (mmul n A' B').
Proof. intros H H' i j Hi Hj. apply Rsum_ext. intros k Hk. rewrite H, H' by auto. reflexivity. Qed.
Lemma mtr_ext A A' : meq n A A' -> meq n (mtr A) (mtr A').
Proof. intros H i j Hi Hj. apply H; auto. Qed.
Lemma mmul_assoc A B C i j : mmul n (mmul n A B) C i j = mmul n A (mmul n B C) i j.
Proof.
  unfold mmul. erewrite Rsum_ext; [|intros k Hk; rewrite <- Rsum_scal_r; reflexivity].
  rewrite Rsum_swap. apply Rsum_ext. intros k Hk. rewrite <- Rsum_scal_l. apply Rsum_ext. intros; ring.
Qed.
Lemma mmul_1_l A : meq n (mmul n delta A) A.
Proof. intros i j Hi Hj. unfold mmul. rewrite (Rsum_delta_l n (fun k => A k j) i Hi). reflexivity. Qed.
Lemma mmul_1_r A : meq n (mmul n A delta) A.
Proof. intros i j Hi Hj. unfold mmul. rewrite (Rsum_delta_r n (fun k => A i k) j Hj). reflexivity. Qed.
Lemma mtr_mmul A B i j : mtr (mmul n A B) i j = mmul n (mtr B) (mtr A) i j.
Proof. unfold mtr, mmul. apply Rsum_ext. intros; ring. Qed.
Lemma mtr_delta : meq n (mtr delta) delta.
Proof. intros i j _ _. apply delta_sym. Qed.

(** ** Trace argument: rows orthonormal implies columns orthonormal *)
Definition tr (A : nat -> nat -> R) : R := Rsum n (fun i => A i i).
Lemma tr_ext A B : meq n A B -> tr A = tr B.
Proof. intros H. apply Rsum_ext. intros; apply H; auto. Qed.
Lemma tr_mmul_comm A B : tr (mmul n A B) = tr (mmul n B A).
Proof.
  unfold tr, mmul. rewrite Rsum_swap. apply Rsum_ext. intros i Hi. apply Rsum_ext. intros; ring.
Qed.
Lemma frobenius_zero A : tr (mmul n A (mtr A)) = 0 -> meq n A (fun _ _ => 0).
Proof.
  unfold tr, mmul, mtr. intros H i j Hi Hj.
  assert (Rsum n (fun k => A i k * A i k) = 0).
  { apply (Rsum_zero_inv n (fun i => Rsum n (fun k => A i k * A i k))); auto.
    intros; apply Rsum_nonneg; intros; nra. }
  apply Rsum_zero_inv with (i := j) in H0; auto. nra. intros; nra.
Qed.

Lemma orthogonal_cols A : orthogonal n A -> meq n (mmul n (mtr A) A) delta.
Proof.
  intros H.
  set (P := mmul n (mtr A) A).
  set (Q := fun i j => delta i j - P i j).
  assert (PP : meq n (mmul n P P) P).
  { intros i j Hi Hj. unfold P at 1. rewrite mmul_assoc.
    assert (E : meq n (mmul n A P) A).
    { intros a b Ha Hb. unfold P. rewrite <- mmul_assoc.
      rewrite (mmul_ext _ delta _ A H (meq_refl A) a b Ha Hb). apply mmul_1_l; auto. }
    apply (mmul_ext _ _ _ _ (meq_refl _) E); auto. }
  assert (PT : meq n (mtr P) P).
  { intros i j Hi Hj. unfold P, mtr, mmul. apply Rsum_ext. intros; ring. }
  assert (QQ : meq n (mmul n Q (mtr Q)) Q).
  { intros i j Hi Hj. unfold mmul, mtr, Q.
    rewrite (Rsum_ext n _ (fun k => delta i k * delta j k - (delta i k * P j k + P i k * delta j k) + P i k * P j k)) by (intros; ring).
    rewrite Rsum_plus, Rsum_minus, Rsum_plus.
    rewrite (Rsum_delta_l n (fun k => delta j k) i Hi).
    rewrite (Rsum_delta_l n (fun k => P j k) i Hi).
    rewrite (Rsum_ext n (fun k => P i k * delta j k) (fun k => P i k * delta k j)) by (intros; rewrite (delta_sym j); reflexivity).
    rewrite (Rsum_delta_r n (fun k => P i k) j Hj).
    rewrite (Rsum_ext n (fun k => P i k * P j k) (fun k => P i k * P k j)).
    2:{ intros k Hk. f_equal. apply PT; auto. }
    change (Rsum n (fun k => P i k * P k j)) with (mmul n P P i j). rewrite PP by auto.
    rewrite (PT i j Hi Hj : P j i = P i j). rewrite (delta_sym j i). ring. }
  assert (T0 : tr Q = 0).
  { unfold Q, tr. rewrite Rsum_minus. change (Rsum n (fun i => P i i)) with (tr P). unfold P. rewrite tr_mmul_comm.
    rewrite (tr_ext _ _ H). unfold tr. ring. }
  assert (Z : meq n Q (fun _ _ => 0)).
  { apply frobenius_zero. rewrite (tr_ext _ _ QQ). exact T0. }
  intros i j Hi Hj. specialize (Z i j Hi Hj). unfold Q in Z. simpl in Z. lra.
Qed.

Lemma orthogonal_tr A : orthogonal n A -> orthogonal n (mtr A).
Proof. intros H. exact (orthogonal_cols A H). Qed.
Lemma orthogonal_mul A B : orthogonal n A -> orthogonal n B -> orthogonal n (mmul n A B).
Proof.
  intros HA HB i j Hi Hj.
  rewrite (mmul_ext _ _ _ (mmul n (mtr B) (mtr A)) (meq_refl _) (fun a b _ _ => mtr_mmul A B a b) i j Hi Hj).
  rewrite mmul_assoc.
  rewrite (mmul_ext _ _ _ (mtr A) (meq_refl A)); auto.
  intros a b Ha Hb. rewrite <- mmul_assoc. rewrite (mmul_ext _ delta _ (mtr A) HB (meq_refl _) a b Ha Hb). apply mmul_1_l; auto.
Qed.
Lemma orthogonal_ext A B : meq n A B -> orthogonal n A -> orthogonal n B.
Proof.
  intros E H. eapply meq_trans; [|exact H]. apply meq_sym. apply mmul_ext; auto using mtr_ext.
Qed.
Lemma orthogonal_delta : orthogonal n delta.
Proof. eapply meq_trans; [apply mmul_1_l|apply mtr_delta]. Qed.

(** inverses are unique *)
Lemma inverse_unique A B C : meq n (mmul n B A) delta -> meq n (mmul n A C) delta -> meq n B C.
Proof.
  intros H1 H2 i j Hi Hj.
  rewrite <- (mmul_1_r B i j Hi Hj).
  rewrite <- (mmul_ext _ _ _ _ (meq_refl B) H2 i j Hi Hj).
  rewrite <- mmul_assoc. rewrite (mmul_ext _ _ _ _ H1 (meq_refl C) i j Hi Hj). apply mmul_1_l; auto.
Qed.

(** linear action *)
Lemma mapply_ext A B x y i : (i < n)%nat -> meq n A B -> (forall j, (j < n)%nat -> x j = y j) -> mapply n A x i = mapply n B y i.
Proof. intros Hi H H'. apply Rsum_ext. intros k Hk. rewrite H, H' by auto. reflexivity. Qed.
Lemma mapply_mmul A B x i : mapply n (mmul n A B) x i = mapply n A (mapply n B x) i.
Proof.
  unfold mapply, mmul. erewrite Rsum_ext; [|intros k Hk; rewrite <- Rsum_scal_r; reflexivity].
  rewrite Rsum_swap. apply Rsum_ext. intros k Hk. rewrite <- Rsum_scal_l. apply Rsum_ext. intros; ring.
Qed.
Lemma mapply_delta x i : (i < n)%nat -> mapply n delta x i = x i.
Proof. intros. apply (Rsum_delta_l n x i H). Qed.
Lemma inner_mapply A x y : inner n (mapply n A x) y = inner n x (mapply n (mtr A) y).
Proof.
  unfold inner, mapply, mtr.
  erewrite Rsum_ext; [|intros k Hk; rewrite <- Rsum_scal_r; reflexivity].
  rewrite Rsum_swap. apply Rsum_ext. intros k Hk. rewrite <- Rsum_scal_l. apply Rsum_ext. intros; ring.
Qed.
Lemma orthogonal_inner A x y : orthogonal n A -> inner n (mapply n A x) (mapply n A y) = inner n x y.
Proof.
  intros H. rewrite inner_mapply. apply inner_ext; auto. intros i Hi. rewrite <- mapply_mmul.
  rewrite (mapply_ext _ delta y y i Hi (orthogonal_cols A H)) by auto. apply mapply_delta; auto.
Qed.

(** ** Identity plus a matrix of rank two *)
Definition rank2 (a b : nat -> R) (x y z w : R) (i j : nat) : R :=
  delta i j + x * (a i * a j) + y * (a i * b j) + z * (b i * a j) + w * (b i * b j).
Lemma rank2_tr a b x y z w i j : mtr (rank2 a b x y z w) i j = rank2 a b x z y w i j.
Proof. unfold mtr, rank2. rewrite delta_sym. ring. Qed.
Lemma rank2_mul a b x y z w x' y' z' w' :
  let p := norm2 n a in let q := inner n a b in let r := norm2 n b in
  meq n (mmul n (rank2 a b x y z w) (rank2 a b x' y' z' w'))
    (rank2 a b (x + x' + (x * p + y * q) * x' + (x * q + y * r) * z')
               (y + y' + (x * p + y * q) * y' + (x * q + y * r) * w')
               (z + z' + (z * p + w * q) * x' + (z * q + w * r) * z')
               (w + w' + (z * p + w * q) * y' + (z * q + w * r) * w')).
Proof.
  intros p q r i j Hi Hj. unfold mmul, rank2.
  set (u := fun k => x * (a i * a k) + y * (a i * b k) + z * (b i * a k) + w * (b i * b k)).
  set (u' := fun k => x' * (a k * a j) + y' * (a k * b j) + z' * (b k * a j) + w' * (b k * b j)).
  rewrite (Rsum_ext n _ (fun k => (delta i k * delta k j + delta i k * u' k) + (u k * delta k j + u k * u' k))) by (intros; unfold u, u'; ring).
  rewrite Rsum_plus, !Rsum_plus.
  rewrite (Rsum_delta_l n (fun k => delta k j) i Hi).
  rewrite (Rsum_delta_l n u' i Hi). rewrite (Rsum_delta_r n u j Hj).
  rewrite (Rsum_ext n (fun k => u k * u' k) (fun k =>
     (((x * a i + z * b i) * (x' * a j + y' * b j)) * (a k * a k)
     + ((x * a i + z * b i) * (z' * a j + w' * b j) + (y * a i + w * b i) * (x' * a j + y' * b j)) * (a k * b k))
     + ((y * a i + w * b i) * (z' * a j + w' * b j)) * (b k * b k))) by (intros; unfold u, u'; ring).
  rewrite !Rsum_plus, !Rsum_scal_l.
  change (Rsum n (fun k => a k * a k)) with p. change (Rsum n (fun k => a k * b k)) with q. change (Rsum n (fun k => b k * b k)) with r.
  unfold u, u'. ring.
Qed.
(** the coefficients of M M^T vanish *)
Lemma rank2_orthogonal a b x y z w :
  let p := norm2 n a in let q := inner n a b in let r := norm2 n b in
  x + x + (x * p + y * q) * x + (x * q + y * r) * y = 0 ->
  y + z + (x * p + y * q) * z + (x * q + y * r) * w = 0 ->
  w + w + (z * p + w * q) * z + (z * q + w * r) * w = 0 ->
  orthogonal n (rank2 a b x y z w).
Proof.
  intros p q r Hx Hy Hw i j Hi Hj.
  rewrite (mmul_ext _ _ _ (rank2 a b x z y w) (meq_refl _) (fun i j _ _ => rank2_tr a b x y z w i j) i j Hi Hj).
  rewrite (rank2_mul a b x y z w x z y w i j Hi Hj). fold p q r. unfold rank2. rewrite Hx, Hy, Hw.
  replace (z + y + (z * p + w * q) * x + (z * q + w * r) * y) with (y + z + (x * p + y * q) * z + (x * q + y * r) * w) by ring.
  rewrite Hy. ring.
Qed.
Lemma rank2_apply a b x y z w v i : (i < n)%nat ->
  mapply n (rank2 a b x y z w) v i = v i + (x * inner n a v + y * inner n b v) * a i + (z * inner n a v + w * inner n b v) * b i.
Proof.
  intros Hi. unfold mapply, rank2.
  rewrite (Rsum_ext n _ (fun k => (delta i k * v k + (x * a i + z * b i) * (a k * v k)) + (y * a i + w * b i) * (b k * v k))) by (intros; ring).
  rewrite !Rsum_plus, !Rsum_scal_l. rewrite (Rsum_delta_l n v i Hi).
  change (Rsum n (fun k => a k * v k)) with (inner n a v). change (Rsum n (fun k => b k * v k)) with (inner n b v). ring.
Qed.
End M.

(** ** Determinants *)
Definition dim23 (n : nat) : Prop := n = 2%nat \/ n = 3%nat.
Lemma det_ext n A B : meq n A B -> det n A = det n B.
Proof.
  destruct n as [|[|[|[|n]]]]; intros H; try reflexivity; simpl; unfold det2, det3; rewrite !H by lia; reflexivity.
Qed.
Lemma det_mul n A B : det n (mmul n A B) = det n A * det n B.
Proof.
  destruct n as [|[|[|[|n]]]]; simpl; try ring; unfold det2, det3, mmul, Rsum; ring.
Qed.
Lemma det_tr n A : det n (mtr A) = det n A.
Proof. destruct n as [|[|[|[|n]]]]; simpl; try ring; unfold det2, det3, mtr; ring. Qed.
Lemma det_delta n : det n delta = 1.
Proof. destruct n as [|[|[|[|n]]]]; simpl; try ring; unfold det2, det3, delta; simpl; ring. Qed.
Lemma rank2_det n a b x y z w : dim23 n ->
  let p := norm2 n a in let q := inner n a b in let r := norm2 n b in
  det n (rank2 a b x y z w) = 1 + x * p + (y + z) * q + w * r + (x * w - y * z) * (p * r - q * q).
Proof.
  intros [-> | ->] p q r; unfold p, q, r; simpl det; unfold det2, det3, rank2, norm2, inner, Rsum, delta; simpl Nat.eqb; cbv iota; ring.
Qed.
