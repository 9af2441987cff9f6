(** Property C14: validity flags, in any scalar arithmetic. *)
From Coq Require Import Reals Lra Lia List Bool ZArith NArith.
From Flocq Require Import Core.Raux.
From Verif Require Import Base Scalar ConstModel TimeModel VecModel RotModel QuatModel RSpec RLib VecSpec VecProofs QuatProofs6 ValidSpec ValidProofs.
Import ListNotations.

(** Missing for the full property: the functions in the _refuted theorems below. *)
Theorem C14_validity_partial : forall T (N : Num T) dim,
  (forall (e : vx (T := T)) v, vcons e -> vev dim e = Ret v -> valid v = vok e) /\
  (forall (e : mx (T := T)) m, mcons e -> mev dim e = Ret m -> mvalid m = mok e) /\
  (forall (e : qx (T := T)) q, qcons e -> qev dim e = Ret q -> qvalid q = qok e).
Proof.
  intros T N dim. destruct (all_valid (T := T) dim) as (A & B & C). split; [|split]; intros; eauto. eapply C; eauto.
Qed.
Print Assumptions C14_validity_partial.

Example C14_validity_example : forall m : libm,
  let bad := mkC [b64_ofZ 1; b64_ofZ 2; b64_ofZ 3] false in
  let good := mkC [b64_ofZ 1; b64_ofZ 2; b64_ofZ 3] true in
  let e v := VToLocalQ (VAdd (VLeaf good) (VRotate (VLeaf good) (MxInverse (MLeaf (rot_identity (H := B64 m) 3))))) (VLeaf v)
                       (QxMul (QLeaf (quat_identity (H := B64 m))) (QLeaf (quat_identity (H := B64 m)))) in
  (vcons (e bad) /\ vok (e bad) = false /\ exists v, vev (H := B64 m) 3 (e bad) = Ret v) /\
  (vcons (e good) /\ vok (e good) = true /\ exists v, vev (H := B64 m) 3 (e good) = Ret v).
Proof. intros m bad good e. repeat split; simpl; eexists; reflexivity. Qed.

Theorem C14_equality : forall T (N : Num T) dim,
  (forall (a b : coords T) e, valid a = false \/ valid b = false -> vec_equal dim a b e = false) /\
  (forall (a b : rotmatrix T) e r, mvalid a = false \/ mvalid b = false -> rot_equal dim a b e = Ret r -> r = false) /\
  (forall (a b : quat T) e r, qvalid a = false \/ qvalid b = false -> quat_equal a b e = Ret r -> r = false).
Proof.
  intros T N dim. split; [|split].
  - intros a b e [V|V]; unfold vec_equal; rewrite V; [rewrite Bool.orb_true_r|]; reflexivity.
  - intros a b e r V. unfold rot_equal, oassert. destruct (_ <? _)%num; [|discriminate].
    destruct V as [V|V]; rewrite V; [rewrite Bool.orb_true_r|]; cbn; intros E; injection E as <-; reflexivity.
  - intros a b e r V E. eapply any_equal_invalid; eauto.
Qed.
Print Assumptions C14_equality.

(** Barycenter of points *)
Theorem C14_barycenter : forall T (N : Num T) dim (c : list (coords T)), c <> [] -> valid (barycenter dim c) = forallb valid c.
Proof.
  intros T N dim [|p c] Hc; [contradiction|]. unfold barycenter. cbn [forallb].
  assert (G : forall l (acc : list T) n ok, exists acc' n', fold_left (fun (st : list T * T * bool) q =>
                   let '(acc, n, ok) := st in (tab dim (fun j => get acc j + at_ q j)%num, (n + n1)%num, ok && valid q)) l (acc, n, ok)
            = (acc', n', ok && forallb valid l)).
  { induction l as [|q l IH]; intros acc n ok; cbn [fold_left forallb]; [exists acc, n; rewrite Bool.andb_true_r; reflexivity|].
    destruct (IH (tab dim (fun j => get acc j + at_ q j)%num) (n + n1)%num (ok && valid q)) as (a' & n' & E). exists a', n'.
    rewrite E, Bool.andb_assoc. reflexivity. }
  destruct (G c (el p) n1 (valid p)) as (a' & n' & E). cbv zeta. rewrite E. reflexivity.
Qed.
Print Assumptions C14_barycenter.

(** ** Functions that return a valid result for an invalid argument *)
(** RotMatrix(q) *)
Theorem C14_matrix_of_quaternion_refuted : forall T (N : Num T) (q : quat T) nf m, rot_quat q nf = Ret m -> mvalid m = true.
Proof. intros T N q nf m E. unfold rot_quat, rot_from_quat in E. apply bind_ret in E as (m' & _ & E). injection E as <-. reflexivity. Qed.
Print Assumptions C14_matrix_of_quaternion_refuted.
Example C14_matrix_of_quaternion_example : forall T (N : Num T), qvalid quat_default = false /\ exists m, rot_quat (T := T) quat_default true = Ret m.
Proof. intros. split; [reflexivity|]. eexists. reflexivity. Qed.
(** mirror(v) *)
Theorem C14_mirror_matrix_refuted : forall T (N : Num T) dim (v : vector T) m, rot_mirror_vec dim v = Ret m -> mvalid m = true.
Proof. intros T N dim v m. unfold rot_mirror_vec, oassert. destruct (_ <? _)%num; intros E; [injection E as <-; reflexivity|discriminate]. Qed.
Print Assumptions C14_mirror_matrix_refuted.
Example C14_mirror_matrix_example : forall eps : Epsilon, exists m, rot_mirror_vec 2 (mkC [1%R; 0%R] false) = Ret m.
Proof.
  intros eps. unfold rot_mirror_vec, oassert. rewrite sqr_mag_norm2. cbn [nltb n0 nofZ Rnum]. rewrite Rlt_bool_true; [eauto|].
  unfold norm2, inner, co. cbn [Rsum el nth]. lra.
Qed.
(** v.rotate(q): after a failed rotation() q is invalid but v.rotate(q) is valid *)
Theorem C14_rotate_by_invalid_refuted : forall (eps : Epsilon) (v : vector R) angle, (0 < (eps : R))%R -> valid v = true ->
  let q := quat_rotation quat_identity (vec_zero 3) angle in qvalid q = false /\ valid (vec_rotate_q v q) = true.
Proof.
  intros eps v angle He V q.
  assert (E : q = mkQ (qw (quat_identity (H := Rnum eps))) (qv (quat_identity (H := Rnum eps))) false 0).
  { unfold q, quat_rotation. rewrite mag_norm. cbn [nltb neps Rnum]. rewrite Rlt_bool_true; [reflexivity|].
    unfold norm. replace (norm2 3 (co (vec_zero 3))) with 0%R; [rewrite sqrt_0; exact He|]. unfold norm2, inner, co. cbn. ring. }
  rewrite E. split; [reflexivity|]. rewrite rotate_q_any, V. reflexivity.
Qed.
Print Assumptions C14_rotate_by_invalid_refuted.

(** ** Time *)
Theorem C14_time_partial :
  (forall a b r, td_add a b = Ret r \/ td_sub a b = Ret r \/ td_add_assign a b = Ret r \/ td_sub_assign a b = Ret r -> d_valid r = d_valid a && d_valid b) /\
  (forall a r, td_neg a = Ret r -> d_valid r = d_valid a) /\
  (forall a b r, ts_add a b = Ret r \/ ts_sub a b = Ret r \/ ts_add_assign a b = Ret r \/ ts_sub_assign a b = Ret r -> t_valid r = t_valid a && d_valid b) /\
  (forall a b r, ts_diff a b = Ret r -> d_valid r = t_valid a && t_valid b).
Proof.
  assert (MD : forall s u b r, mk_timediff s u b = Ret r -> d_valid r = b).
  { intros s u b r E. unfold mk_timediff in E. apply bind_ret in E as (p & _ & E). injection E as <-. reflexivity. }
  assert (MT : forall s u b r, mk_timestamp s u b = Ret r -> t_valid r = b).
  { intros s u b r E. unfold mk_timestamp in E. apply bind_ret in E as ([p1 p2] & _ & E). injection E as <-. reflexivity. }
  split; [|split; [|split]].
  - intros a b r [E|[E|[E|E]]]; unfold td_add, td_sub, td_add_assign, td_sub_assign in E;
      repeat (apply bind_ret in E as (? & _ & E); try match type of E with context [let '(_, _) := ?x in _] => destruct x end); eauto; injection E as <-; reflexivity.
  - intros a r E. unfold td_neg in E. repeat (apply bind_ret in E as (? & _ & E); try match type of E with context [let '(_, _) := ?x in _] => destruct x end); eauto; injection E as <-; reflexivity.
  - intros a b r [E|[E|[E|E]]]; unfold ts_add, ts_sub, ts_add_assign, ts_sub_assign in E;
      repeat (apply bind_ret in E as (? & _ & E); try match type of E with context [let '(_, _) := ?x in _] => destruct x end); eauto; injection E as <-; reflexivity.
  - intros a b r E. unfold ts_diff in E. repeat (apply bind_ret in E as (? & _ & E)); eauto; injection E as <-; reflexivity.
Qed.
Print Assumptions C14_time_partial.
Example C14_time_example : exists a b r, td_sub a b = Ret r /\ d_valid a = true /\ d_valid b = false.
Proof.
  exists {| d_valid := true; d_fields := Some (1, 5)%Z |}, {| d_valid := false; d_fields := Some (2, 7)%Z |}. eexists. split; [reflexivity|auto].
Qed.

(** operator== on times ignores the flag: an invalid timestamp equals the epoch *)
Theorem C14_time_equality_refuted : exists a b, t_valid a = false /\ t_valid b = true /\ ts_eq a b = true.
Proof. exists timestamp_default, ts_epoch. auto. Qed.
Print Assumptions C14_time_equality_refuted.
