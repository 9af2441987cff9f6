(** Specification vocabulary for quaternions of doubles: the Hamilton quaternion a quaternion of doubles denotes, the length of a
    Hamilton quaternion, its direction, and distances. *)
From Coq Require Import Reals List SpecFloat NArith.
From Verif Require Import Scalar VecModel QuatModel ConstSpec VecSpec RSpec QuatSpec RoundSpec.
Open Scope R_scope.

(** All four components are finite doubles. *)
Definition qdoubles (q : quat spec_float) : Prop := finite_double (qw q) /\ doubles 3 (qv q).
(** What it denotes. *)
Definition rq4 (q : quat spec_float) : ham := mkH (real (qw q)) (rco (qv q) 0) (rco (qv q) 1) (rco (qv q) 2).

Definition hsub (a b : ham) : ham := mkH (hw a - hw b) (hx a - hx b) (hy a - hy b) (hz a - hz b).
Definition hscal (k : R) (a : ham) : ham := mkH (k * hw a) (k * hx a) (k * hy a) (k * hz a).
Definition hlen (a : ham) : R := sqrt (hnorm2 a).
(** The quaternion of length one in the same direction: the rotation that a stands for. *)
Definition hdir (a : ham) : ham := hscal (/ hlen a) a.
Definition hdist (a b : ham) : R := hlen (hsub a b).
(** Its four components. *)
Definition h4 (a : ham) (i : nat) : R := match i with 0%nat => hw a | 1%nat => hx a | 2%nat => hy a | _ => hz a end.
(** The vector part. *)
Definition hvec (a : ham) (i : nat) : R := h4 a (S i).
(** The sine and the cosine that the C library gives for the double h are within two half units of the exact ones. *)
Definition accurate_at (m : libm) (h : spec_float) : Prop :=
  finite_double (m_sin m h) /\ finite_double (m_cos m h) /\ Rabs (real (m_sin m h) - sin (real h)) <= 2 * half_ulp /\ Rabs (real (m_cos m h) - cos (real h)) <= 2 * half_ulp.
