(** Proofs for C14. *)
From Coq Require Import List Bool ZArith NArith Lia.
From Verif Require Import Base Scalar ConstModel VecModel RotModel QuatModel ValidSpec QuatProofs6.
Import ListNotations.

Section V.
Context {T} `{Num T}.
Variable dim : nat.

Lemma bind_ret {A B} (x : outcome A) (f : A -> outcome B) r : obind x f = Ret r -> exists a, x = Ret a /\ f a = Ret r.
Proof. destruct x; simpl; intros E; try discriminate. eauto. Qed.

Lemma check_valid n (m m' : rotmatrix T) : check_norm n m = Ret m' -> mvalid m' = mvalid m.
Proof.
  unfold check_norm, rot_normalize. destruct (_ && _); [|intros E; injection E as <-; reflexivity].
  destruct (matrix_inverse _ _ _); intros E; [injection E as <-; reflexivity|discriminate].
Qed.
Lemma normalize_valid n (m m' : rotmatrix T) : rot_normalize n m = Ret m' -> mvalid m' = mvalid m.
Proof. unfold rot_normalize. destruct (matrix_inverse _ _ _); intros E; [injection E as <-; reflexivity|discriminate]. Qed.
Lemma prod_with_valid n f (a b m : rotmatrix T) : prod_with n f a b = Ret m -> mvalid m = mvalid a && mvalid b.
Proof. intros E. apply check_valid in E. exact E. Qed.

Lemma of_elems_valid (e : nat -> nat -> T) tr ok age q : quat_of_elems e tr ok age = Ret q -> qvalid q = ok /\ valid (qv q) = ok.
Proof.
  unfold quat_of_elems. destruct (_ <? _)%num; [intros E; injection E as <-; auto|].
  unfold oassert. cbv zeta. destruct (_ <? _)%num; intros E; [|discriminate]. injection E as <-. auto.
Qed.
Lemma from_matrix_valid (m : rotmatrix T) q b : quat_from_matrix m = Ret (q, b) -> qvalid q = mvalid m /\ valid (qv q) = mvalid m.
Proof.
  unfold quat_from_matrix. intros E. apply bind_ret in E as (mr & _ & E). apply bind_ret in E as (q' & E & R). injection R as <- _.
  eapply of_elems_valid. exact E.
Qed.
Lemma mul_vec_any (p q : quat T) : valid (qv (quat_mul p q)) = valid (qv p) && valid (qv q).
Proof. unfold quat_mul, quat_check. destruct (_ && _); cbn; destruct (valid (qv p)), (valid (qv q)); reflexivity. Qed.
Lemma div_vec_any (p q : quat T) : valid (qv (quat_div p q)) = valid (qv p) && valid (qv q).
Proof. unfold quat_div, quat_check. destruct (_ && _); cbn; destruct (valid (qv p)), (valid (qv q)); reflexivity. Qed.
Lemma rotate_q_any (v : vector T) q : valid (vec_rotate_q v q) = valid v && valid (qv q).
Proof. unfold vec_rotate_q. cbn. destruct (valid v), (valid (qv q)); reflexivity. Qed.

Ltac binds := repeat match goal with
  | H : obind _ _ = Ret _ |- _ => let a := fresh "a" in let E := fresh "E" in apply bind_ret in H as (a & E & H)
  end.
Ltac uses := repeat match goal with
  | IH : forall r, ?e = Ret r -> _, E : ?e = Ret ?a |- _ => specialize (IH a E)
  end.
Ltac bools := repeat match goal with
  | H : _ /\ _ |- _ => destruct H
  | H : valid _ = _ |- _ => rewrite H in *; clear H
  | H : mvalid _ = _ |- _ => rewrite H in *; clear H
  end.

Ltac all_ops AX AXS MA RQ RM :=
    cbn [vcons mcons qcons vev mev qev vok mok qok]; fold (@qcons T) (@mcons T) (@qev T _ dim) (@mev T _ dim) (@qok T) (@mok T); intros;
    repeat match goal with H : _ /\ _ |- _ => destruct H end; binds;
    repeat match goal with IH : vcons ?e -> _, C : vcons ?e |- _ => specialize (IH C) | IH : mcons ?e -> _, C : mcons ?e |- _ => specialize (IH C) | IH : qcons ?e -> _, C : qcons ?e |- _ => specialize (IH C) end; uses;
    repeat match goal with
     | I : forall e, mcons e -> _, C : mcons ?e, E : mev _ ?e = Ret ?m |- _ => match goal with H : mvalid m = _ |- _ => fail 1 | _ => pose proof (I e C m E) end
     | I : forall e, qcons e -> _, C : qcons ?e, E : qev _ ?e = Ret ?m |- _ => match goal with H : qvalid m = _ |- _ => fail 1 | _ => destruct (I e C m E) end
     end;
    repeat match goal with H : _ /\ _ |- _ => destruct H end;
    repeat match goal with
     | E : vec_rotate_axis _ _ _ = Ret _ |- _ => apply AX in E
     | E : vec_rotate_axes _ _ _ _ _ = Ret _ |- _ => apply AXS in E
     | E : mirror_axis _ _ _ = Ret _ |- _ => apply MA in E
     | E : rot_rotate_q _ _ = Ret _ |- _ => apply RQ in E
     | E : quat_rotate_m _ _ = Ret _ |- _ => apply RM in E as [? ?]
     | E : rot_normalize _ _ = Ret _ |- _ => apply normalize_valid in E
     | E : prod _ _ _ = Ret _ |- _ => apply prod_with_valid in E
     | E : prod_inv _ _ _ = Ret _ |- _ => apply prod_with_valid in E
     | E : inv_prod _ _ _ = Ret _ |- _ => apply prod_with_valid in E
     | E : inv_prod_inv _ _ _ = Ret _ |- _ => apply prod_with_valid in E
     | E : quat_from_matrix _ = Ret ?r |- _ => destruct r; apply from_matrix_valid in E as [? ?]
     | E : Ret _ = Ret _ |- _ => injection E as <-
     end;
    unfold point_rotate_q, point_to_local_q, point_to_parent_q;
    rewrite ?any_mul_valid, ?any_div_valid, ?mul_vec_any, ?div_vec_any; cbn; rewrite ?rotate_q_any; cbn; try split;
    repeat match goal with
     | H : valid _ = _ |- _ => rewrite H in *; clear H
     | H : qvalid _ = _ |- _ => rewrite H in *; clear H
     | H : mvalid _ = _ |- _ => rewrite H in *; clear H
     end; auto;
    repeat match goal with |- context [vok ?e] => destruct (vok e) | |- context [mok ?e] => destruct (mok e) | |- context [qok ?e] => destruct (qok e) end; try reflexivity.

Lemma all_valid :
  (forall e : vx, vcons e -> forall v, vev dim e = Ret v -> valid v = vok e) /\
  (forall e : mx, mcons e -> forall m, mev dim e = Ret m -> mvalid m = mok e) /\
  (forall e : qx, qcons e -> forall q, qev dim e = Ret q -> qvalid q = qok e /\ valid (qv q) = qok e).
Proof.
  assert (AX : forall a b (t : T) v, vec_rotate_axis a b t = Ret v -> valid v = valid a && valid b).
  { intros a b t v E. unfold vec_rotate_axis, oassert in E. destruct (negb _); [|discriminate]. injection E as <-. cbn.
    destruct (valid a), (valid b); reflexivity. }
  assert (AXS : forall (a : vector T) i j t v, vec_rotate_axes dim a i j t = Ret v -> valid v = valid a).
  { intros a i j t v E. unfold vec_rotate_axes, oassert in E. destruct (_ && _); [|discriminate]. injection E as <-. reflexivity. }
  assert (MA : forall (a : vector T) i v, mirror_axis dim a i = Ret v -> valid v = valid a).
  { intros a i v E. unfold mirror_axis in E. apply bind_ret in E as (l & _ & E). injection E as <-. reflexivity. }
  assert (RQ : forall (a : rotmatrix T) q m, rot_rotate_q a q = Ret m -> mvalid m = mvalid a && qvalid q).
  { intros a q m E. apply check_valid in E. exact E. }
  assert (RM : forall (q : quat T) m r, quat_rotate_m q m = Ret r -> qvalid r = qvalid q && mvalid m /\ valid (qv r) = valid (qv q) && mvalid m).
  { intros q m r E. unfold quat_rotate_m in E. apply bind_ret in E as ((t & b) & E & R). injection R as <-. cbn [fst].
    apply from_matrix_valid in E as [E1 E2]. rewrite any_mul_valid, mul_vec_any, E1, E2. auto. }
  assert (MQ : (forall e : mx, mcons e -> forall m, mev dim e = Ret m -> mvalid m = mok e) /\
               (forall e : qx, qcons e -> forall q, qev dim e = Ret q -> qvalid q = qok e /\ valid (qv q) = qok e)).
  { split; [apply (mx_mut T (fun e => mcons e -> forall m, mev dim e = Ret m -> mvalid m = mok e)
                        (fun e => qcons e -> forall q, qev dim e = Ret q -> qvalid q = qok e /\ valid (qv q) = qok e))
    |apply (qx_mut T (fun e => mcons e -> forall m, mev dim e = Ret m -> mvalid m = mok e)
                        (fun e => qcons e -> forall q, qev dim e = Ret q -> qvalid q = qok e /\ valid (qv q) = qok e))].
    all: all_ops AX AXS MA RQ RM. }
  destruct MQ as [Ms Qs]. split; [|auto]. induction e; all_ops AX AXS MA RQ RM.
Qed.
End V.
