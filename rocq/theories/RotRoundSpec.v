(** Specification vocabulary for rotation matrices of doubles. *)
From Coq Require Import Reals List SpecFloat NArith.
From Verif Require Import Base Scalar VecModel RotModel RSpec VecSpec RotSpec RoundSpec.
Import ListNotations.
Open Scope R_scope.

(** The matrix holds finite doubles, and the inner products of its rows are within d of those of an orthogonal matrix. *)
Definition near_orthogonal (m : libm) (n : nat) (M : rotmatrix spec_float) (d : R) : Prop :=
  mdoubles m n M /\ forall i j, (i < n)%nat -> (j < n)%nat -> Rabs (Rsum n (fun k => mco m M i k * mco m M j k) - delta i j) <= d.
(** The matrix of doubles M stands for the rotation (or mirror) O: O is orthogonal and every element of M is within 4 half units of it; M is
    valid and its age is at most 1, as the constructors leave it. *)
Definition stands_for (m : libm) (n : nat) (M : rotmatrix spec_float) (O : nat -> nat -> R) : Prop :=
  mdoubles m n M /\ mvalid M = true /\ (mage M <= 1)%N /\ orthogonal n O /\ forall i j, (i < n)%nat -> (j < n)%nat -> Rabs (mco m M i j - O i j) <= 4 * half_ulp.

(** Moves: multiply by a matrix, or by its inverse, from the right; and what they do to the exact rotation. *)
Inductive turn (A : Type) : Type := Times (x : A) | Over (x : A).
Arguments Times {A} x.
Arguments Over {A} x.
Definition do_turn (m : libm) (n : nat) (p : outcome (rotmatrix spec_float)) (t : turn (rotmatrix spec_float)) : outcome (rotmatrix spec_float) :=
  do a <- p; match t with Times x => prod (H := B64 m) n a x | Over x => prod_inv (H := B64 m) n a x end.
Definition exact_turn (n : nat) (A : nat -> nat -> R) (t : turn (nat -> nat -> R)) : nat -> nat -> R :=
  match t with Times X => mmul n A X | Over X => mmul n A (mtr X) end.
Definition turn_for (m : libm) (n : nat) (t : turn (rotmatrix spec_float)) (u : turn (nat -> nat -> R)) : Prop :=
  match t, u with Times x, Times X => stands_for m n x X | Over x, Over X => stands_for m n x X | _, _ => False end.

(** The matrix of doubles M is within e of the orthogonal matrix O, in every element. *)
Definition near (m : libm) (n : nat) (M : rotmatrix spec_float) (O : nat -> nat -> R) (e : R) : Prop :=
  mdoubles m n M /\ orthogonal n O /\ forall i j, (i < n)%nat -> (j < n)%nat -> Rabs (mco m M i j - O i j) <= e.
(** The point x of the frame at o, whose axes are the rows of O, in the coordinates of the parent, and the way back; x turned by O about o. *)
Definition to_parent (n : nat) (O : nat -> nat -> R) (o x : nat -> R) : nat -> R := fun i => o i + Rsum n (fun j => x j * O j i).
Definition to_local (n : nat) (O : nat -> nat -> R) (o x : nat -> R) : nat -> R := fun i => Rsum n (fun j => O i j * (x j - o j)).
Definition turn_about (n : nat) (O : nat -> nat -> R) (o x : nat -> R) : nat -> R := to_parent n O o (fun i => x i - o i).
