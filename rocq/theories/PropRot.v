(** Properties C23 - C30: rotation matrices. *)
From Coq Require Import Reals Lra Lia List Bool Psatz ZArith NArith.
From Flocq Require Import Core.Zaux Core.Raux.
From Verif Require Import Base Scalar ConstModel VecModel RotModel RSpec RLib VecSpec VecProofs VecProofs2 VecProofs4 RotSpec MatLib RotProofs RotProofs2 RotProofs3 RotProofs4 RotProofs5 RotProofs6 RotProofs7.
Import ListNotations.
Open Scope R_scope.

(** ** C23 *)
Theorem C23_orthogonal_partial : forall (eps : Epsilon) n e m, 0 < (eps : R) -> exact_nodes eps n e ->
  meval eps n e = Ret m -> mvalid m = true -> orthogonal n (ent m).
Proof. exact (fun eps n e m He Ex Ev V => proj1 (proj2 (meval_good eps n e He m Ex Ev) V)). Qed.
Print Assumptions C23_orthogonal_partial.

(** 2D, antiparallel vectors: the matrix is not orthogonal *)
Theorem C23_orthogonal_refuted : forall eps : Epsilon, 0 < (eps : R) <= / 4 ->
  exists e m, meval eps 2 e = Ret m /\ mvalid m = true /\ ~ orthogonal 2 (ent m).
Proof.
  intros eps He. destruct (antiparallel_witness eps He) as (from & to & m & _ & _ & _ & E & V & O & _).
  exists (MFromTo from to), m. auto.
Qed.
Print Assumptions C23_orthogonal_refuted.

Theorem C23_antiparallel_partial : forall (eps : Epsilon) from to m, 0 < (eps : R) -> exact_dot eps 2 from to ->
  ~ not_antiparallel eps 2 from to -> rot_from_to 2 from to = Ret m ->
  exists k, 0 <= k < eps /\ meq 2 (mmul 2 (ent m) (mtr (ent m))) (fun i j => (1 + k * k) * delta i j).
Proof.
  intros eps from to m He Ed An E. destruct (from_to_antiparallel_2 eps from to m He Ed An E) as (K & _ & _ & M). eauto.
Qed.
Print Assumptions C23_antiparallel_partial.

(** An expression with every kind of leaf that has a value *)
Definition sample_mexp : mexp :=
  MProdInv (MInverse (MProd (MPlane 0 2 1) (MMirrorAxis 1))) (MInvProd MMirror (MInvProdInv (MMirrorVec (mkC [1; 2; 0] true)) MIdentity)).
Lemma sample_mexp_value : exists m, meval 1 3 sample_mexp = Ret m /\ mvalid m = true.
Proof.
  assert (NM : forall f (a b : rotmatrix R), mvalid a = true -> mvalid b = true -> (age_add (mage a) (mage b) < 20)%N ->
     exists m, prod_with (H := Rnum 1) 3 f a b = Ret m /\ mvalid m = true /\ mage m = age_add (mage a) (mage b)).
  { intros f a b Va Vb A. unfold prod_with, check_norm. cbn [mage mvalid]. rewrite Va, Vb.
    replace (N.of_nat max_norm_age <=? age_add (mage a) (mage b))%N with false by (symmetry; apply N.leb_gt; exact A). simpl. eauto. }
  assert (NP : forall op, In op [prod (H := Rnum 1) 3; prod_inv (H := Rnum 1) 3; inv_prod (H := Rnum 1) 3; inv_prod_inv (H := Rnum 1) 3] ->
     forall a b, mvalid a = true -> mvalid b = true -> (age_add (mage a) (mage b) < 20)%N ->
     exists m, op a b = Ret m /\ mvalid m = true /\ mage m = age_add (mage a) (mage b)).
  { intros op Hop a b Va Vb A. destruct Hop as [<-|[<-|[<-|[<-|[]]]]]; apply NM; auto. }
  unfold sample_mexp. cbn [meval].
  unfold rot_plane, rot_mirror_axis. cbn [Nat.ltb Nat.leb Nat.eqb andb negb oassert obind].
  match goal with |- context [prod 3 ?a ?b] => destruct (NP (prod (H := Rnum 1) 3) ltac:(simpl; auto) a b eq_refl eq_refl ltac:(reflexivity)) as (m1 & E1 & V1 & A1); rewrite E1 end.
  cbn [obind]. unfold rot_mirror_vec. rewrite sqr_mag_norm2. cbn [nltb n0 nofZ Rnum].
  rewrite Rlt_bool_true by (unfold norm2, inner, co; simpl; lra). cbn [oassert obind].
  match goal with |- context [inv_prod_inv 3 ?a ?b] => destruct (NP (inv_prod_inv (H := Rnum 1) 3) ltac:(simpl; auto) a b eq_refl eq_refl ltac:(reflexivity)) as (m2 & E2 & V2 & A2); rewrite E2 end.
  cbn [obind].
  match goal with |- context [inv_prod 3 ?a m2] => destruct (NP (inv_prod (H := Rnum 1) 3) ltac:(simpl; auto) a m2 eq_refl V2 ltac:(rewrite A2; reflexivity)) as (m3 & E3 & V3 & A3); rewrite E3 end.
  cbn [obind].
  destruct (NP (prod_inv (H := Rnum 1) 3) ltac:(simpl; auto) (rot_inverse (H := Rnum 1) 3 m1) m3 V1 V3 ltac:(cbn [rot_inverse mage]; rewrite A1, A3, A2; reflexivity)) as (m4 & E4 & V4 & _).
  exists m4. auto.
Qed.
Example C23_example : exact_nodes 1 3 sample_mexp /\ exists m, meval 1 3 sample_mexp = Ret m /\ mvalid m = true.
Proof. split; [cbn; tauto|exact sample_mexp_value]. Qed.

(** ** C24 *)
Theorem C24_parity_partial : forall (eps : Epsilon) n e m, 0 < (eps : R) -> exact_nodes eps n e -> n = 2%nat \/ n = 3%nat ->
  meval eps n e = Ret m -> mvalid m = true ->
  det n (ent m) = determinant m /\ (parity m = true <-> det n (ent m) < 0).
Proof.
  intros eps n e m He Ex Hn Ev V. pose proof (proj2 (proj2 (meval_good eps n e He m Ex Ev) V) Hn) as D.
  unfold determinant, parity. rewrite D. destruct (mflip m); split; auto; split; intros; auto; try lra; discriminate.
Qed.
Print Assumptions C24_parity_partial.

(** ** C25: the group laws.  [valid_orth] says: orthogonal if valid, which C23 gives. *)
Theorem C25_associative : forall (eps : Epsilon) n m1 m2 m3 m12 m23 a b, valid_orth n m1 -> valid_orth n m2 -> valid_orth n m3 ->
  prod n m1 m2 = Ret m12 -> prod n m12 m3 = Ret a -> prod n m2 m3 = Ret m23 -> prod n m1 m23 = Ret b -> same_rotation a b.
Proof. exact prod_assoc. Qed.
Print Assumptions C25_associative.
Theorem C25_identity : forall (eps : Epsilon) n m a b, mdims n (me m) -> valid_orth n m ->
  prod n (rot_identity n) m = Ret a -> prod n m (rot_identity n) = Ret b -> same_rotation a m /\ same_rotation b m.
Proof. exact prod_identity. Qed.
Print Assumptions C25_identity.
Theorem C25_inverse : forall (eps : Epsilon) n m a b, mvalid m = true -> orthogonal n (ent m) ->
  prod n m (rot_inverse n m) = Ret a -> prod n (rot_inverse n m) m = Ret b ->
  same_rotation a (rot_identity n) /\ same_rotation b (rot_identity n).
Proof. exact prod_inverse. Qed.
Print Assumptions C25_inverse.
Theorem C25_mixed_products : forall (eps : Epsilon) n m1 m2 a b c d e f, valid_orth n m1 -> valid_orth n m2 ->
  prod_inv n m1 m2 = Ret a -> prod n m1 (rot_inverse n m2) = Ret b ->
  inv_prod n m1 m2 = Ret c -> prod n (rot_inverse n m1) m2 = Ret d ->
  inv_prod_inv n m1 m2 = Ret e -> prod n (rot_inverse n m1) (rot_inverse n m2) = Ret f ->
  same_rotation a b /\ same_rotation c d /\ same_rotation e f.
Proof. exact mixed_products. Qed.
Print Assumptions C25_mixed_products.
Theorem C25_inverse_of_product : forall (eps : Epsilon) n m1 m2 a b, valid_orth n m1 -> valid_orth n m2 -> prod n m1 m2 = Ret a ->
  prod n (rot_inverse n m2) (rot_inverse n m1) = Ret b -> same_rotation (rot_inverse n a) b.
Proof. exact inverse_prod. Qed.
Print Assumptions C25_inverse_of_product.
Theorem C25_action : forall (eps : Epsilon) n m1 m2 m v, valid_orth n m1 -> valid_orth n m2 -> prod n m1 m2 = Ret m ->
  vec_rotate n (vec_rotate n v m1) m2 = vec_rotate n v m.
Proof. exact rotate_rotate. Qed.
Print Assumptions C25_action.
Theorem C25_undo : forall (eps : Epsilon) n m v, mvalid m = true -> orthogonal n (ent m) -> dims n v ->
  prod_inv_vm n (vec_rotate n v m) m = v /\ vec_rotate n (vec_rotate n v m) (rot_inverse n m) = v /\ vec_rotate n (prod_mv n m v) m = v.
Proof. exact rotate_inverse. Qed.
Print Assumptions C25_undo.
Theorem C25_isometry : forall (eps : Epsilon) n m v w, orthogonal n (ent m) ->
  inner n (co (vec_rotate n v m)) (co (vec_rotate n w m)) = inner n (co v) (co w) /\
  inner n (co (prod_mv n m v)) (co (prod_mv n m w)) = inner n (co v) (co w) /\
  mag n (vec_rotate n v m) = mag n v /\ sqr_mag n (vec_rotate n v m) = sqr_mag n v.
Proof.
  intros eps n m v w O. rewrite !mag_norm, !sqr_mag_norm2. unfold norm, norm2. rewrite !rotate_inner, prod_mv_inner by auto. auto.
Qed.
Print Assumptions C25_isometry.

(** A product of orthogonal 2D matrices is always defined; in 3D unless an element of
    the first row is so small that its square underflows. *)
Theorem C25_product_defined_2d : forall (eps : Epsilon) m1 m2, valid_orth 2 m1 -> valid_orth 2 m2 ->
  exists a b c d, prod 2 m1 m2 = Ret a /\ prod_inv 2 m1 m2 = Ret b /\ inv_prod 2 m1 m2 = Ret c /\ inv_prod_inv 2 m1 m2 = Ret d.
Proof.
  intros eps m1 m2 O1 O2.
  assert (X : forall A B f, (mvalid m1 = true -> orthogonal 2 A) -> (mvalid m2 = true -> orthogonal 2 B) ->
     (forall i j, (i < 2)%nat -> (j < 2)%nat -> f i j = mmul 2 A B i j) -> exists m, prod_with (H := Rnum eps) 2 f m1 m2 = Ret m).
  { intros A B f OA OB E. apply prod_with_total_2. intros V1 V2. apply orthogonal_ext with (mmul 2 A B); [|apply orthogonal_mul; auto].
    intros i j Hi Hj. symmetry. auto. }
  destruct (X (ent m1) (ent m2) (fun i j => nsum 2 (fun k => elem m1 i k * elem m2 k j)) O1 O2) as [a Ea].
  { intros. unfold mmul. rewrite <- (nsum_Rsum eps). reflexivity. }
  destruct (X (ent m1) (mtr (ent m2)) (fun i j => nsum 2 (fun k => elem m1 i k * elem m2 j k)) O1 (fun V => orthogonal_tr 2 _ (O2 V))) as [b Eb].
  { intros. unfold mmul. rewrite <- (nsum_Rsum eps). reflexivity. }
  destruct (X (mtr (ent m1)) (ent m2) (fun i j => nsum 2 (fun k => elem m1 k i * elem m2 k j)) (fun V => orthogonal_tr 2 _ (O1 V)) O2) as [c Ec].
  { intros. unfold mmul. rewrite <- (nsum_Rsum eps). reflexivity. }
  destruct (X (mtr (ent m1)) (mtr (ent m2)) (fun i j => nsum 2 (fun k => elem m1 k i * elem m2 j k)) (fun V => orthogonal_tr 2 _ (O1 V)) (fun V => orthogonal_tr 2 _ (O2 V))) as [d Ed].
  { intros. unfold mmul. rewrite <- (nsum_Rsum eps). reflexivity. }
  exists a, b, c, d. auto.
Qed.
Print Assumptions C25_product_defined_2d.

Example C25_example : exists m, meval 1 3 (MPlane 0 1 1) = Ret m /\ mvalid m = true /\ orthogonal 3 (ent m) /\ valid_orth 3 m.
Proof.
  destruct (meval 1 3 (MPlane 0 1 1)) as [m| | |] eqn:E; try discriminate.
  assert (O : orthogonal 3 (ent m)) by (apply (C23_orthogonal_partial 1 3 (MPlane 0 1 1)); cbn; auto; try lra; inversion E; auto).
  exists m. split; [reflexivity|]. split; [inversion E; auto|]. split; auto. intros _; auto.
Qed.

(** ** C26 *)
Theorem C26_age_bound : forall (T : Type) (H : Num T) n (m1 m2 m : rotmatrix T),
  prod n m1 m2 = Ret m \/ prod_inv n m1 m2 = Ret m \/ inv_prod n m1 m2 = Ret m \/ inv_prod_inv n m1 m2 = Ret m ->
  mvalid m = true ->
  (mage m < 20)%N /\
  (age_add (mage m1) (mage m2) < 20 -> mage m = age_add (mage m1) (mage m2))%N /\
  (20 <= age_add (mage m1) (mage m2) -> mage m = 1)%N.
Proof. intros T H n m1 m2 m [E|[E|[E|E]]] V; exact (prod_age n _ m1 m2 m E V). Qed.
Print Assumptions C26_age_bound.

Theorem C26_normalize_keeps_orthogonal : forall (eps : Epsilon) n m m', mdims n (me m) -> orthogonal n (ent m) ->
  rot_normalize n m = Ret m' -> same_rotation m' m /\ mage m' = 1%N.
Proof. exact normalize_orthogonal. Qed.
Print Assumptions C26_normalize_keeps_orthogonal.

Theorem C26_normalize_defined_2d : forall (eps : Epsilon) m, orthogonal 2 (ent m) -> exists m', rot_normalize 2 m = Ret m'.
Proof. exact normalize_total_2. Qed.
Print Assumptions C26_normalize_defined_2d.
Theorem C26_normalize_defined_3d : forall (eps : Epsilon) m, orthogonal 3 (ent m) ->
  (forall j, (j < 3)%nat -> ent m 0 j = 0 \/ bpow radix2 (-500) <= Rabs (ent m 0 j)) -> exists m', rot_normalize 3 m = Ret m'.
Proof. exact normalize_total_3. Qed.
Print Assumptions C26_normalize_defined_3d.

Example C26_example : exists m m', orthogonal 2 (ent m) /\ mage m = 12%N /\ prod (H := Rnum 0) 2 m m = Ret m' /\ mage m' = 1%N /\ mvalid m' = true.
Proof.
  set (m := mkM [[0; 1]; [-1; 0]] false true 12). exists m.
  assert (O : orthogonal 2 (ent m)).
  { intros i j Hi Hj. unfold mmul, mtr, ent, rc, delta. destruct i as [|[|]]; try lia; destruct j as [|[|]]; try lia; cbn; lra. }
  destruct (C25_product_defined_2d 0 m m (fun _ => O) (fun _ => O)) as (a & _ & _ & _ & E & _).
  exists a. split; [exact O|]. split; [reflexivity|]. split; [exact E|].
  destruct (prod_spec 0 2 m m a (fun _ => O) (fun _ => O) E) as (_ & _ & _ & V).
  split; [|exact V]. apply (C26_age_bound R (Rnum 0) 2 m m a); auto. vm_compute; discriminate.
Qed.

(** ** C27, matrices *)
Theorem C27_matrix_defect : forall (eps : Epsilon) n m m', rot_normalize n m = Ret m' ->
  exists Sinv, let A := ent m in let S := mmul n A (mtr A) in
    inverse_of n S Sinv /\
    meq n (fun i j => mmul n (ent m') (mtr (ent m')) i j - delta i j)
          (fun i j => mmul n (mmul n (fun a b => S a b - delta a b) (fun a b => S a b - delta a b)) Sinv i j / 4).
Proof. exact normalize_defect. Qed.
Print Assumptions C27_matrix_defect.

Example C27_example : forall eps : Epsilon, exists m m', rot_normalize 2 m = Ret m' /\ ~ orthogonal 2 (ent m).
Proof.
  intros eps.
  set (m := mkM [[2; 0]; [0; 2]] false true 1 : rotmatrix R). exists m.
  pose proof small1023 as SM. pose proof TINY_eq as TE.
  assert (NO : ~ orthogonal 2 (ent m)).
  { intros O. specialize (O 0%nat 0%nat ltac:(lia) ltac:(lia)). unfold mmul, mtr, ent, rc, delta in O. cbn in O. lra. }
  unfold rot_normalize. set (A := transpose 2 (me m)). set (B := mtab 2 kron).
  assert (HA : forall i j, (i < 2)%nat -> (j < 2)%nat -> rc A i j = if Nat.eqb i j then 2 else 0).
  { intros i j Hi Hj. unfold A. rewrite (transpose_rc eps) by auto. destruct i as [|[|]]; try lia; destruct j as [|[|]]; try lia; reflexivity. }
  destruct (matrix_inverse 2 A B) as [b|] eqn:E; [eauto|]. exfalso. revert E.
  unfold matrix_inverse, inv_forward. cbn [seq fold_left].
  assert (Hp : inv_pivot 2 (A, B) 0 = Some (A, B)).
  { unfold inv_pivot. change (nltb (mget A 0 0 * mget A 0 0) (minval 2 A 0)) with (Rlt_bool (rc A 0 0 * rc A 0 0) (minval 2 A 0)).
    rewrite Rlt_bool_false; auto. rewrite !HA by lia. cbn [Nat.eqb]. apply (minval_le eps 2 A 0 4); [cbn [Rsum]; rewrite !HA by lia; cbn [Nat.eqb]; lra|cbn [nmul Rnum]; lra|cbn [nmul Rnum]; lra]. }
  rewrite Hp. destruct (inv_sub 2 (inv_norm 2 (A, B) 0) 0) as [a2 b2] eqn:E2.
  assert (E3 : forall r c, (r < 2)%nat -> (c < 2)%nat -> rc a2 r c = _) by (intros r c Hr Hc; pose proof (norm_sub_rc eps 2 0 A B r c ltac:(lia) Hr Hc) as X; rewrite E2 in X; exact X).
  destruct (inv_pivot 2 (a2, b2) 1) as [[a3 b3]|] eqn:P1.
  - destruct (inv_sub 2 (inv_norm 2 (a3, b3) 1) 1). discriminate.
  - exfalso. assert (X : rc a2 1 1 = 2 /\ rc a2 0 1 = 0).
    { rewrite !E3 by lia. cbn [Nat.ltb Nat.leb Nat.eqb]. rewrite !HA by lia. cbn [Nat.eqb]. split; lra. }
    destruct X as [X1 X2]. apply (pivot_success eps 2 1 a2 b2 1 ltac:(lia)) in P1; auto. rewrite X1.
    apply (minval_le eps 2 a2 1 4); [cbn [Rsum]; rewrite X1, X2; lra|lra|lra].
Qed.

(** ** C28 *)
Theorem C28_inverse_correct : forall (eps : Epsilon) n A B, matrix_inverse (H := Rnum eps) n A (mtab n kron) = Some B ->
  inverse_of n (rc A) (rc B).
Proof. exact matrix_inverse_correct. Qed.
Print Assumptions C28_inverse_correct.

(** On failure the input is equivalent (same solutions of A x = 0) to a matrix whose
    first i columns are unit upper triangular and whose i-th column has, from row i
    on, only elements below the smallest usable pivot. *)
Theorem C28_failure_means_tiny_pivots : forall (eps : Epsilon) n A B, matrix_inverse (H := Rnum eps) n A B = None ->
  exists i U, (i < n)%nat /\
    (forall r c, (r < n)%nat -> (c < i)%nat -> U r c = if Nat.ltb c r then 0 else if Nat.eqb c r then 1 else U r c) /\
    (forall x, (forall r, (r < n)%nat -> mapply n (rc A) x r = 0) <-> (forall r, (r < n)%nat -> mapply n U x r = 0)) /\
    (forall r, (i <= r < n)%nat -> U r i * U r i <
       Rmax (Rsum n (fun j => U j i * U j i) / (bpow radix2 1024 - bpow radix2 971)) (bpow radix2 (-1022))).
Proof. exact matrix_inverse_failure. Qed.
Print Assumptions C28_failure_means_tiny_pivots.

(** and so it never fails on a 2D rotation *)
Theorem C28_orthogonal_succeeds_2d : forall (eps : Epsilon) A B, orthogonal 2 (rc A) -> matrix_inverse 2 A B <> None.
Proof. exact inverse_success_2. Qed.
Print Assumptions C28_orthogonal_succeeds_2d.

Example C28_example : exists B, matrix_inverse (H := Rnum 0) 2 [[0; 1]; [-1; 0]] (mtab 2 (kron (H := Rnum 0))) = Some B.
Proof.
  destruct (matrix_inverse (H := Rnum 0) 2 [[0; 1]; [-1; 0]] (mtab 2 (kron (H := Rnum 0)))) eqn:E; [eauto|].
  exfalso. apply (C28_orthogonal_succeeds_2d 0) in E; auto.
  intros i j Hi Hj. unfold mmul, mtr, rc, delta. destruct i as [|[|]]; try lia; destruct j as [|[|]]; try lia; cbn; lra.
Qed.

(** ** C29 *)
Theorem C29_set_vals : forall (eps : Epsilon) n f m vals prec b m', set_vals n f m vals prec = Some (b, m') ->
  if b then
    (forall i j, (i < n)%nat -> (j < n)%nat -> Rabs (mmul n (rc vals) (mtr (rc vals)) i j - delta i j) <= Rabs prec) /\
    (forall i j, (i < n)%nat -> (j < n)%nat -> Rabs (mmul n (ent m') (mtr (ent m')) i j - delta i j) <= eps) /\
    mdims n (me m') /\ mvalid m' = true /\ mage m' = 1%N
  else m' = m.
Proof.
  intros eps n f m vals prec b m' E. pose proof (set_vals_sound eps n f m vals prec b m' E) as X. destruct b; tauto.
Qed.
Print Assumptions C29_set_vals.

Theorem C29_terminates : forall (eps : Epsilon) n m vals prec, 0 < (eps : R) ->
  exists f r, set_vals n f m vals prec = Some r /\ forall f', (f <= f')%nat -> set_vals n f' m vals prec = Some r.
Proof.
  intros eps n m vals prec He. destruct (set_vals_terminates eps n m vals prec He) as (f & r & E). exists f, r. split; auto.
  intros f' Hf. apply (set_vals_mono eps n f f'); auto.
Qed.
Print Assumptions C29_terminates.

Theorem C29_exact_input_kept : forall (eps : Epsilon) n f m vals prec, 0 <= (eps : R) -> mdims n vals -> orthogonal n (rc vals) ->
  Rabs prec < nine_tenths (T := R) -> exists m', set_vals n (S f) m vals prec = Some (true, m') /\ me m' = vals.
Proof. exact set_vals_exact. Qed.
Print Assumptions C29_exact_input_kept.

(** The parity in 2D; in 3D it is not proved that the product of the pivots has the
    sign of the determinant. *)
Theorem C29_parity_2d_partial : forall (eps : Epsilon) f m vals prec m', (eps : R) <= / 4 -> set_vals 2 f m vals prec = Some (true, m') ->
  det 2 (ent m') <> 0 /\ (parity m' = true <-> det 2 (ent m') < 0).
Proof.
  intros eps f m vals prec m' He E. pose proof (set_vals_sound eps 2 f m vals prec true m' E) as (_ & D & _ & _ & _ & F).
  destruct (det_sign_2 eps (me m') He D) as [N S]. split; [exact N|]. unfold parity. rewrite F, S. unfold ent.
  destruct (Rlt_bool_spec (det 2 (rc (me m'))) 0); split; intros; auto; try discriminate; lra.
Qed.
Print Assumptions C29_parity_2d_partial.

Example C29_example : exists m', set_vals (H := Rnum (/8)) 2 1 (rot_default (H := Rnum (/8)) 2) [[0; 1]; [1; 0]] (/ 2) = Some (true, m') /\ mflip m' = true.
Proof.
  assert (O : orthogonal 2 (rc [[0; 1]; [1; 0]])).
  { intros i j Hi Hj. unfold mmul, mtr, rc, delta. destruct i as [|[|]]; try lia; destruct j as [|[|]]; try lia; cbn; lra. }
  destruct (C29_exact_input_kept (/8) 2 0 (rot_default (H := Rnum (/8)) 2) [[0; 1]; [1; 0]] (/2)) as (m' & E & M); auto; try lra.
  - split; [reflexivity|]. intros i Hi. destruct i as [|[|]]; try lia; reflexivity.
  - rewrite Rabs_pos_eq by lra. unfold nine_tenths. cbn [nldexp nofZ Rnum]. change (bpow radix2 (-53)) with (/ 9007199254740992). lra.
  - exists m'. split; [exact E|]. apply (C29_parity_2d_partial (/8) 1 (rot_default (H := Rnum (/8)) 2) _ _ m' ltac:(lra) E). unfold ent. rewrite M. unfold det, det2, rc. simpl. lra.
Qed.

(** ** C30 *)
Theorem C30_plane_rotation : forall (eps : Epsilon) n v i j theta m w, dims n v -> rot_plane n i j theta = Ret m ->
  vec_rotate_axes n v i j theta = Ret w -> w = vec_rotate n v m.
Proof. exact plane_acts. Qed.
Print Assumptions C30_plane_rotation.

Theorem C30_vector_plane : forall (eps : Epsilon) n v1 v2 theta m, 0 < (eps : R) -> exact_dot eps n v1 v2 -> rot_vectors n v1 v2 theta = Ret m ->
  exists (e1 e2 : nat -> R) (l1 l2 m2 : R),
    norm2 n e1 = 1 /\ norm2 n e2 = 1 /\ inner n e1 e2 = 0 /\ 0 < l1 /\ 0 < m2 /\
    (forall i, (i < n)%nat -> co v1 i = l1 * e1 i /\ co v2 i = l2 * e1 i + m2 * e2 i) /\
    forall x y u v, inner n e1 u = 0 -> inner n e2 u = 0 ->
      (forall i, (i < n)%nat -> co v i = x * e1 i + y * e2 i + u i) ->
      forall i, (i < n)%nat -> co (vec_rotate n v m) i =
         (x * cos theta - y * sin theta) * e1 i + (x * sin theta + y * cos theta) * e2 i + u i.
Proof. exact vectors_acts. Qed.
Print Assumptions C30_vector_plane.

Theorem C30_from_to_partial : forall (eps : Epsilon) n from to m, 0 < (eps : R) -> exact_dot eps n from to -> not_antiparallel eps n from to ->
  rot_from_to n from to = Ret m ->
  (forall i, (i < n)%nat -> co (vec_rotate n from m) i = norm n (co from) / norm n (co to) * co to i) /\
  (forall u, inner n (co from) (co u) = 0 -> inner n (co to) (co u) = 0 -> forall i, (i < n)%nat -> co (vec_rotate n u m) i = co u i).
Proof. exact from_to_acts. Qed.
Print Assumptions C30_from_to_partial.

(** In dimensions other than 2 antiparallel vectors throw *)
Theorem C30_antiparallel_throws : forall (eps : Epsilon) n from to, exact_dot eps n from to -> ~ not_antiparallel eps n from to ->
  0 < norm2 n (co from) -> 0 < norm2 n (co to) -> n <> 2%nat -> rot_from_to n from to = Throws.
Proof.
  intros eps n from to Ed An P Q Hn. unfold rot_from_to. rewrite !sqr_mag_norm2, Ed. unfold oassert. cbn [nltb n0 nofZ Rnum].
  rewrite !Rlt_bool_true by auto. cbn [nmul nsqrt ndiv nadd neps n1 nofZ Rnum]. rewrite sqrt_mult by lra.
  change (sqrt (norm2 n (co from))) with (norm n (co from)). change (sqrt (norm2 n (co to))) with (norm n (co to)).
  unfold not_antiparallel in An. rewrite Rlt_bool_true by lra. destruct (Nat.eqb_spec n 2); [lia|reflexivity].
Qed.
Print Assumptions C30_antiparallel_throws.

(** In 2D they do not throw, and the result need not turn [from] onto [to]. *)
Theorem C30_antiparallel_2d_refuted : forall eps : Epsilon, 0 < (eps : R) <= / 4 ->
  exists from to m, valid from = true /\ valid to = true /\ rot_from_to 2 from to = Ret m /\ mvalid m = true /\
    ~ (exists k, 0 < k /\ forall i, (i < 2)%nat -> co (vec_rotate 2 from m) i = k * co to i).
Proof.
  intros eps He. destruct (antiparallel_witness eps He) as (from & to & m & V1 & V2 & _ & E & V & _ & D). exists from, to, m. auto.
Qed.
Print Assumptions C30_antiparallel_2d_refuted.

Theorem C30_mirror : forall (eps : Epsilon) n v m u, rot_mirror_vec n v = Ret m ->
  0 < norm2 n (co v) /\ forall i, (i < n)%nat -> co (vec_rotate n u m) i = co u i - 2 * inner n (co v) (co u) / norm2 n (co v) * co v i.
Proof. intros eps n v m u E. split; [apply (mirror_vec_ent eps n v m E)|apply mirror_acts; exact E]. Qed.
Print Assumptions C30_mirror.
Theorem C30_mirror_axis : forall (eps : Epsilon) n k m u, rot_mirror_axis n k = Ret m -> forall i, (i < n)%nat ->
  co (vec_rotate n u m) i = if Nat.eqb k i then - co u i else co u i.
Proof. exact mirror_axis_acts. Qed.
Print Assumptions C30_mirror_axis.
Theorem C30_mirror_all : forall (eps : Epsilon) n u i, (i < n)%nat -> co (vec_rotate (H := Rnum eps) n u (rot_mirror n)) i = - co u i.
Proof. exact mirror_all_acts. Qed.
Print Assumptions C30_mirror_all.

(** rotation(axis, theta) in 3D is the right-handed turn, by Rodrigues' formula *)
Theorem C30_axis_rotation : forall (eps : Epsilon) axis theta m, 0 < (eps : R) -> exact_axis eps axis -> rot_axis axis theta = Ret m ->
  0 < norm2 3 (co axis) /\ mvalid m = true /\ mflip m = false /\
  forall v i, (i < 3)%nat -> co (vec_rotate 3 v m) i =
    cos theta * co v i + sin theta / norm 3 (co axis) * cross_coord (co axis) (co v) i
    + (1 - cos theta) * inner 3 (co axis) (co v) / norm2 3 (co axis) * co axis i.
Proof. exact axis_acts. Qed.
Print Assumptions C30_axis_rotation.
(** rotation(axis) turns by the length of the axis *)
Theorem C30_axis_length_rotation : forall (eps : Epsilon) axis m, 0 < (eps : R) -> exact_axis eps axis -> rot_axis_mag axis = Ret m ->
  (norm 3 (co axis) = 0 /\ m = rot_identity 3) \/
  (mvalid m = true /\ mflip m = false /\
   forall v i, (i < 3)%nat -> co (vec_rotate 3 v m) i =
    cos (norm 3 (co axis)) * co v i + sin (norm 3 (co axis)) / norm 3 (co axis) * cross_coord (co axis) (co v) i
    + (1 - cos (norm 3 (co axis))) * inner 3 (co axis) (co v) / norm2 3 (co axis) * co axis i).
Proof. exact axis_mag_acts. Qed.
Print Assumptions C30_axis_length_rotation.

Example C30_example : forall eps : Epsilon, 0 < (eps : R) <= / 4 ->
  let from := mkC [1; 0; 0] true in let to := mkC [1; 1; 0] true in
  exact_dot eps 3 from to /\ not_antiparallel eps 3 from to /\ (exists m, rot_from_to 3 from to = Ret m) /\
  exact_axis eps (mkC [0; 0; 1] true).
Proof.
  intros eps He from to.
  assert (I : inner 3 (co from) (co to) = 1) by (unfold inner, co; cbn [Rsum el from to nth]; lra).
  assert (NF : norm2 3 (co from) = 1) by (unfold norm2, inner, co; cbn [Rsum el from to nth]; lra).
  assert (NT : norm2 3 (co to) = 2) by (unfold norm2, inner, co; cbn [Rsum el from to nth]; lra).
  assert (SC : forall a b : vector R, dims 3 a -> dims 3 b -> nonzero 3 a -> nonzero 3 b -> bounded_by 3 a 1 -> bounded_by 3 b 1 -> scale_eps_arr (el a) (el b) eps <= 1).
  { intros a b Da Db Na Nb Ba Bb. pose proof (arr_bound eps 3 a b 1 1 eps ltac:(lra) Da Db Na Nb Ba Bb) as U. rewrite Rmin_left in U by lra. lra. }
  assert (ED : exact_dot eps 3 from to).
  { unfold exact_dot. rewrite dot_def, I. rewrite Rle_bool_true; auto. rewrite Rabs_R1. apply SC; try reflexivity.
    - exists 0%nat. split; [lia|]. unfold co. simpl. lra.
    - exists 0%nat. split; [lia|]. unfold co. simpl. lra.
    - intros i Hi. unfold co. destruct i as [|[|[|]]]; try lia; simpl; rewrite ?Rabs_R1, ?Rabs_R0; lra.
    - intros i Hi. unfold co. destruct i as [|[|[|]]]; try lia; simpl; rewrite ?Rabs_R1, ?Rabs_R0; lra. }
  assert (NN : norm 3 (co from) * norm 3 (co to) = sqrt 2) by (unfold norm; rewrite NF, NT, sqrt_1; ring).
  assert (S2 : 0 < sqrt 2) by (apply sqrt_lt_R0; lra).
  assert (PI : 0 < 1 / sqrt 2) by (apply Rdiv_lt_0_compat; lra).
  split; [exact ED|]. split; [unfold not_antiparallel; rewrite I, NN; lra|]. split.
  - unfold rot_from_to. rewrite !sqr_mag_norm2, ED, I, NF, NT. unfold oassert. cbn [nltb n0 nofZ Rnum]. rewrite !Rlt_bool_true by lra.
    cbn [nmul nsqrt ndiv nadd neps n1 nofZ Rnum]. rewrite Rmult_1_l, Rlt_bool_false by lra. eauto.
  - set (ax := mkC [0; 0; 1] true : vector R).
    assert (AX : nonzero 3 ax /\ bounded_by 3 ax 1).
    { split; [exists 2%nat; split; [lia|unfold co; simpl; lra]|]. intros i Hi. unfold co. destruct i as [|[|[|]]]; try lia; simpl; rewrite ?Rabs_R1, ?Rabs_R0; lra. }
    assert (EC : forall b : vector R, dims 3 b -> (forall i, (i < 3)%nat -> co b i = 0 \/ co b i = 1 \/ co b i = -1) -> exact_cross eps ax b).
    { intros b Db Hb i Hi. rewrite cross3_co by auto. unfold rclamp. destruct (Rlt_bool_spec (Rabs (cross_coord (co ax) (co b) i)) (scale_eps_arr (el ax) (el b) eps)) as [L|L]; auto.
      assert (B0 := Hb 0%nat ltac:(lia)). assert (B1 := Hb 1%nat ltac:(lia)).
      assert (CC : cross_coord (co ax) (co b) i = 0 \/ ((nonzero 3 b) /\ Rabs (cross_coord (co ax) (co b) i) = 1)).
      { assert (X0 : forall k, (k < 3)%nat -> co b k <> 0 -> nonzero 3 b) by (intros k Hk Hx; exists k; auto).
        assert (C0 : co ax 0 = 0) by reflexivity. assert (C1 : co ax 1 = 0) by reflexivity. assert (C2 : co ax 2 = 1) by reflexivity.
        destruct i as [|[|[|]]]; try lia; unfold cross_coord; rewrite ?C0, ?C1, ?C2.
        - destruct B1 as [E|[E|E]]; [left; rewrite E; lra|right; split; [apply (X0 1%nat); [lia|lra]|]|right; split; [apply (X0 1%nat); [lia|lra]|]]; rewrite E.
          + replace (0 * co b 2 - 1 * 1) with (-1) by lra. rewrite Rabs_left; lra.
          + replace (0 * co b 2 - 1 * -1) with 1 by lra. rewrite Rabs_pos_eq; lra.
        - destruct B0 as [E|[E|E]]; [left; rewrite E; lra|right; split; [apply (X0 0%nat); [lia|lra]|]|right; split; [apply (X0 0%nat); [lia|lra]|]]; rewrite E.
          + replace (1 * 1 - 0 * co b 2) with 1 by lra. rewrite Rabs_pos_eq; lra.
          + replace (1 * -1 - 0 * co b 2) with (-1) by lra. rewrite Rabs_left; lra.
        - left. lra. }
      destruct CC as [->|[NZ CC]]; auto. exfalso. rewrite CC in L. apply (Rlt_not_le _ _ L). apply SC; try tauto; try reflexivity; auto.
      intros k Hk. destruct (Hb k Hk) as [->|[->| ->]]; [rewrite Rabs_R0|rewrite Rabs_R1|rewrite Rabs_left]; lra. }
    intros k Hk. assert (C1 : exact_cross eps ax (unit_vector k)).
    { apply EC; [apply dims_tab|]. intros i Hi. unfold unit_vector. rewrite co_tab by auto. destruct (Nat.eqb i k); auto. }
    split; [exact C1|]. apply EC; [apply cross3_dims|]. intros i Hi. rewrite C1 by auto.
    destruct i as [|[|[|]]]; try lia; unfold cross_coord, unit_vector; rewrite ?co_tab by lia; unfold co; simpl; destruct k as [|[|[|]]]; try lia; simpl; auto; try (left; lra); try (right; left; lra); try (right; right; lra).
Qed.
