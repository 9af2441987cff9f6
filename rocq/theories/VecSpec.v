(** Specification vocabulary for vectors and points. *)
From Coq Require Import Reals List ZArith.
From Verif Require Import Base Scalar VecModel RSpec.
Open Scope R_scope.

(** An object of the C++ class for dimension [n]: an array of n coordinates. *)
Definition dims {T} (n : nat) (v : coords T) : Prop := length (el v) = n.

(** The i-th coordinate. *)
Definition co (v : coords R) (i : nat) : R := nth i (el v) 0.

(** B bounds every coordinate of v in absolute value. *)
Definition bounded_by (n : nat) (v : coords R) (B : R) : Prop := forall i, (i < n)%nat -> Rabs (co v i) <= B.

(** Not the zero vector (the origin). *)
Definition nonzero (n : nat) (v : coords R) : Prop := exists i, (i < n)%nat /\ co v i <> 0.

(** The cross product of R^3. *)
Definition cross_coord (a b : nat -> R) (i : nat) : R :=
  match i with
  | O => a 1%nat * b 2%nat - a 2%nat * b 1%nat
  | S O => a 2%nat * b 0%nat - a 0%nat * b 2%nat
  | _ => a 0%nat * b 1%nat - a 1%nat * b 0%nat
  end.

(** Coordinatewise mean and weighted mean. *)
Fixpoint lsum {A} (f : A -> R) (l : list A) : R :=
  match l with
  | nil => 0
  | cons x t => f x + lsum f t
  end.
Definition mean_coord (c : list (coords R)) (i : nat) : R := lsum (fun p => co p i) c / INR (length c).
Definition wmean_coord (cw : list (coords R * R)) (i : nat) : R :=
  lsum (fun pw => co (fst pw) i * snd pw) cw / lsum snd cw.

(** A map of points given by a matrix and a translation. *)
Definition affine (n : nat) (f : coords R -> coords R) : Prop :=
  exists (A : nat -> nat -> R) (b : nat -> R), forall p i, (i < n)%nat ->
    co (f p) i = Rsum n (fun j => A i j * co p j) + b i.
