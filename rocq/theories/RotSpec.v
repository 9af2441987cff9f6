(** Specification vocabulary for rotation matrices. *)
From Coq Require Import Reals List ZArith NArith Bool.
From Verif Require Import Base Scalar VecModel RotModel RSpec VecSpec.
Import ListNotations.
Open Scope R_scope.

(** An object of RotMatrix<n>: n rows of n elements. *)
Definition mdims {T} (n : nat) (m : mat T) : Prop := length m = n /\ forall i, (i < n)%nat -> length (nth i m []) = n.

(** The element in row i, column j. *)
Definition rc (m : mat R) (i j : nat) : R := nth j (nth i m []) 0.
Definition ent (m : rotmatrix R) : nat -> nat -> R := rc (me m).

(** Matrices as functions of the row and the column. *)
Definition meq (n : nat) (A B : nat -> nat -> R) : Prop := forall i j, (i < n)%nat -> (j < n)%nat -> A i j = B i j.
Definition mmul (n : nat) (A B : nat -> nat -> R) (i j : nat) : R := Rsum n (fun k => A i k * B k j).
Definition mtr (A : nat -> nat -> R) (i j : nat) : R := A j i.
Definition mapply (n : nat) (A : nat -> nat -> R) (x : nat -> R) (i : nat) : R := Rsum n (fun j => A i j * x j).

(** A * A^T is the identity. *)
Definition orthogonal (n : nat) (A : nat -> nat -> R) : Prop := meq n (mmul n A (mtr A)) delta.

(** Two-sided inverse. *)
Definition inverse_of (n : nat) (A B : nat -> nat -> R) : Prop := meq n (mmul n A B) delta /\ meq n (mmul n B A) delta.

(** Determinants in the two dimensions the library provides. *)
Definition det2 (A : nat -> nat -> R) : R := A 0%nat 0%nat * A 1%nat 1%nat - A 0%nat 1%nat * A 1%nat 0%nat.
Definition det3 (A : nat -> nat -> R) : R :=
  A 0%nat 0%nat * (A 1%nat 1%nat * A 2%nat 2%nat - A 1%nat 2%nat * A 2%nat 1%nat)
  - A 0%nat 1%nat * (A 1%nat 0%nat * A 2%nat 2%nat - A 1%nat 2%nat * A 2%nat 0%nat)
  + A 0%nat 2%nat * (A 1%nat 0%nat * A 2%nat 1%nat - A 1%nat 1%nat * A 2%nat 0%nat).
Definition det (n : nat) (A : nat -> nat -> R) : R := match n with 2 => det2 A | 3 => det3 A | _ => 1 end.

(** Same elements, same parity, same validity (the age may differ). *)
Definition same_rotation (a b : rotmatrix R) : Prop := me a = me b /\ mflip a = mflip b /\ mvalid a = mvalid b.

(** ** Everything the API can build *)
Inductive mexp : Type :=
| MDefault | MIdentity
| MPlane (i j : nat) (theta : R)
| MVectors (v1 v2 : vector R) (theta : R)
| MFromTo (from to : vector R)
| MMirrorAxis (i : nat) | MMirrorVec (v : vector R) | MMirror
| MProd (a b : mexp) | MProdInv (a b : mexp) | MInvProd (a b : mexp) | MInvProdInv (a b : mexp)
| MInverse (a : mexp) | MNormalize (a : mexp).

Section Eval.
Context (eps : Epsilon).
Variable n : nat.
Fixpoint meval (e : mexp) : outcome (rotmatrix R) :=
  match e with
  | MDefault => Ret (rot_default n)
  | MIdentity => Ret (rot_identity n)
  | MPlane i j theta => rot_plane n i j theta
  | MVectors v1 v2 theta => rot_vectors n v1 v2 theta
  | MFromTo from to => rot_from_to n from to
  | MMirrorAxis i => rot_mirror_axis n i
  | MMirrorVec v => rot_mirror_vec n v
  | MMirror => Ret (rot_mirror n)
  | MProd a b => do x <- meval a; do y <- meval b; prod n x y
  | MProdInv a b => do x <- meval a; do y <- meval b; prod_inv n x y
  | MInvProd a b => do x <- meval a; do y <- meval b; inv_prod n x y
  | MInvProdInv a b => do x <- meval a; do y <- meval b; inv_prod_inv n x y
  | MInverse a => do x <- meval a; Ret (rot_inverse n x)
  | MNormalize a => do x <- meval a; rot_normalize n x
  end.

(** Dot returned the exact inner product (it rounds a tiny one to zero). *)
Definition exact_dot (a b : vector R) : Prop := dot n a b = inner n (co a) (co b).

(** The two vectors are not numerically antiparallel. *)
Definition not_antiparallel (a b : vector R) : Prop :=
  eps <= inner n (co a) (co b) / (norm n (co a) * norm n (co b)) + 1.

(** Dot was exact in every rotation built from two vectors, and no rotation between
    antiparallel vectors was built (2D only: in other dimensions that throws). *)
Fixpoint exact_nodes (e : mexp) : Prop :=
  match e with
  | MVectors v1 v2 _ => exact_dot v1 v2
  | MFromTo from to => exact_dot from to /\ not_antiparallel from to
  | MProd a b | MProdInv a b | MInvProd a b | MInvProdInv a b => exact_nodes a /\ exact_nodes b
  | MInverse a | MNormalize a => exact_nodes a
  | _ => True
  end.
End Eval.
