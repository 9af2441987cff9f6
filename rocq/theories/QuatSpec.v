(** Specification vocabulary for quaternions: Hamilton's quaternions. *)
From Coq Require Import Reals List ZArith NArith Bool.
From Verif Require Import Base Scalar VecModel RotModel QuatModel RSpec VecSpec RotSpec.
Import ListNotations.
Open Scope R_scope.

Record ham := mkH { hw : R; hx : R; hy : R; hz : R }.

(** i^2 = j^2 = k^2 = ijk = -1 *)
Definition hmul (p q : ham) : ham := mkH
  (hw p * hw q - hx p * hx q - hy p * hy q - hz p * hz q)
  (hw p * hx q + hx p * hw q + hy p * hz q - hz p * hy q)
  (hw p * hy q - hx p * hz q + hy p * hw q + hz p * hx q)
  (hw p * hz q + hx p * hy q - hy p * hx q + hz p * hw q).
Definition hconj (p : ham) : ham := mkH (hw p) (- hx p) (- hy p) (- hz p).
Definition hneg (p : ham) : ham := mkH (- hw p) (- hx p) (- hy p) (- hz p).
Definition hone : ham := mkH 1 0 0 0.
Definition hnorm2 (p : ham) : R := hw p * hw p + hx p * hx p + hy p * hy p + hz p * hz p.

(** A wfmath quaternion and a wfmath vector as Hamilton quaternions. *)
Definition q4 (q : quat R) : ham := mkH (qw q) (co (qv q) 0) (co (qv q) 1) (co (qv q) 2).
Definition pure (v : nat -> R) : ham := mkH 0 (v 0%nat) (v 1%nat) (v 2%nat).
Definition unit_quat (q : quat R) : Prop := hnorm2 (q4 q) = 1.

(** Rotation of a vector by a quaternion: q v q^-1 for unit q. *)
Definition sandwich (q : ham) (v : nat -> R) : ham := hmul (hmul q (pure v)) (hconj q).

(** Three coordinates. *)
Definition qdims (q : quat R) : Prop := dims 3 (qv q).

(** Same rotation up to age. *)
Definition same_quat (p q : quat R) : Prop := qw p = qw q /\ qv p = qv q /\ qvalid p = qvalid q.

(** Dot and Cross did not round a coordinate to zero. *)
Definition exact_cross3 (eps : Epsilon) (a b : vector R) : Prop :=
  forall i, (i < 3)%nat -> co (cross3 (H := Rnum eps) a b) i = cross_coord (co a) (co b) i.
Definition exact_pair (eps : Epsilon) (a b : vector R) : Prop := exact_dot eps 3 a b /\ exact_cross3 eps a b.

(** ** Everything the API can build from numbers and vectors *)
Inductive qexp : Type :=
| QIdentity
| QMake (w x y z : R)
| QAxis (old : qexp) (axis : Z) (angle : R)
| QRotation (old : qexp) (axis : vector R) (angle : R)
| QRotationMag (old : qexp) (axis : vector R)
| QFromTo (old : qexp) (from to : vector R)
| QFromToFb (old : qexp) (from to fallback : vector R)
| QMul (a b : qexp) | QDiv (a b : qexp) | QInverse (a : qexp) | QNormalize (a : qexp)
| QDefault.

Section Eval.
Context (eps : Epsilon).
Fixpoint qeval (e : qexp) : outcome (quat R) :=
  match e with
  | QIdentity => Ret quat_identity
  | QMake w x y z => Ret (quat_make w x y z)
  | QAxis o axis angle => do q <- qeval o; Ret (quat_axis q axis angle)
  | QRotation o axis angle => do q <- qeval o; Ret (quat_rotation q axis angle)
  | QRotationMag o axis => do q <- qeval o; Ret (quat_rotation_mag q axis)
  | QFromTo o from to => do q <- qeval o; quat_from_to q from to
  | QFromToFb o from to fb => do q <- qeval o; Ret (quat_from_to_fb q from to fb)
  | QMul a b => do p <- qeval a; do q <- qeval b; Ret (quat_mul p q)
  | QDiv a b => do p <- qeval a; do q <- qeval b; Ret (quat_div p q)
  | QInverse a => do p <- qeval a; Ret (quat_inverse p)
  | QNormalize a => do p <- qeval a; Ret (quat_normalize p)
  | QDefault => Ret quat_default
  end.

(** Side conditions: (w,x,y,z) not all zero; Dot and Cross exact in every product and
    every rotation between two vectors. *)
Fixpoint exact_qnodes (e : qexp) : Prop :=
  match e with
  | QMake w x y z => w * w + x * x + y * y + z * z <> 0
  | QAxis o _ _ | QRotation o _ _ | QRotationMag o _ => exact_qnodes o
  | QFromTo o from to | QFromToFb o from to _ => exact_qnodes o /\ exact_pair eps from to
  | QMul a b | QDiv a b => exact_qnodes a /\ exact_qnodes b /\
      forall p q, qeval a = Ret p -> qeval b = Ret q -> exact_pair eps (qv p) (qv q)
  | QInverse a | QNormalize a => exact_qnodes a
  | _ => True
  end.
End Eval.

(** Rodrigues' formula: v turned by angle theta about the axis (right handed). *)
Definition rodrigues (axis : nat -> R) (theta : R) (v : nat -> R) (i : nat) : R :=
  cos theta * v i + sin theta / norm 3 axis * cross_coord axis v i
  + (1 - cos theta) * inner 3 axis v / norm2 3 axis * axis i.

(** The matrix of v -> q v q^-1 for a unit quaternion. *)
Definition ham_matrix (q : ham) (i j : nat) : R :=
  nth j (nth i
   [[1 - 2 * (hy q * hy q + hz q * hz q); 2 * (hx q * hy q - hw q * hz q); 2 * (hx q * hz q + hw q * hy q)];
    [2 * (hx q * hy q + hw q * hz q); 1 - 2 * (hx q * hx q + hz q * hz q); 2 * (hy q * hz q - hw q * hx q)];
    [2 * (hx q * hz q - hw q * hy q); 2 * (hy q * hz q + hw q * hx q); 1 - 2 * (hx q * hx q + hy q * hy q)]] []) 0.
Definition tr3 (A : nat -> nat -> R) : R := A 0%nat 0%nat + A 1%nat 1%nat + A 2%nat 2%nat.
(** A matrix with its first column negated: the product with the mirror of the x axis. *)
Definition flip_x (A : nat -> nat -> R) (i j : nat) : R := if Nat.eqb j 0 then - A i j else A i j.
(** What fromRotMatrix stores for a matrix with trace <= 0: the transpose with the
    signs of row and column i changed. *)
Definition sign_at (i r : nat) : R := if Nat.eqb r i then -1 else 1.
Definition twisted (i : nat) (A : nat -> nat -> R) (r s : nat) : R := sign_at i r * sign_at i s * A s r.
(** Largest difference of components at most e. *)
Definition ham_close (p q : ham) (e : R) : Prop :=
  Rabs (hw p - hw q) <= e /\ Rabs (hx p - hx q) <= e /\ Rabs (hy p - hy q) <= e /\ Rabs (hz p - hz q) <= e.
