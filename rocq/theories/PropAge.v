(** C26: the age of a quaternion goes over to the matrix made from it, and counts in the products of that matrix. *)
From Coq Require Import NArith List Bool Lia Reals.
From Verif Require Import Base Scalar VecModel RotModel QuatModel PropRot.

(** In any arithmetic, NaN included: a matrix made from a quaternion of age a, multiplied by a matrix of age b, has the age a + b (in unsigned
    arithmetic) as long as that is below 20, and has been renormalised to age 1 if it is not. *)
Theorem C26_quaternion_to_matrix_age : forall (T : Type) (N : Num T) old (q : quat T) m,
  rot_from_quat old q true = Ret m ->
  mage m = qage q /\
  forall m2 p, prod 3 m m2 = Ret p -> mvalid p = true ->
    (age_add (qage q) (mage m2) < 20 -> mage p = age_add (qage q) (mage m2))%N /\ (20 <= age_add (qage q) (mage m2) -> mage p = 1)%N.
Proof.
  intros T N old q m E. unfold rot_from_quat in E. cbn in E. injection E as <-. split; [reflexivity|]. intros m2 p P V.
  destruct (C26_age_bound T N 3 _ m2 p (or_introl P) V) as (_ & A & B). split; [exact A|exact B].
Qed.
Print Assumptions C26_quaternion_to_matrix_age.
Example C26_quaternion_to_matrix_example : exists m, rot_from_quat (H := Rnum 0) (mkM nil false false 0) (mkQ 1%R (mkC (0%R :: 0%R :: 0%R :: nil) true) true 7) true = Ret m /\ mage m = 7%N.
Proof. eexists. split; [reflexivity|reflexivity]. Qed.
