(** The set of points a polygon in space stands for, and the frames its operations leave behind. *)
From Coq Require Import Reals List Bool.
From Verif Require Import Base Scalar VecModel VecSpec RSpec ShapeSpec PolyModel EvenOddSpec RegionSpec.
Import ListNotations.
Open Scope R_scope.

(** The place in space of the point of the plane with coordinates u: the origin and the axes that are set. *)
Definition placed (o : porient R) (u : pt) : pt := fun i =>
  co (porigin o) i + (if valid (pax0 o) then u 0%nat * co (pax0 o) i else 0) + (if valid (pax1 o) then u 1%nat * co (pax1 o) i else 0).
Definition space_region (n : nat) (p : polygon R) (y : pt) : Prop := exists u, region (pcorners p) u /\ pteq n y (placed (pplane p) u).
Definition space_interior (n : nat) (p : polygon R) (y : pt) : Prop := exists u, interior (pcorners p) u /\ pteq n y (placed (pplane p) u).
(** Every axis, set or not, is zero or a unit vector: what the default constructor and the operations on corners leave. *)
Definition axes_ok (n : nat) (o : porient R) : Prop :=
  (norm2 n (co (pax0 o)) = 0 \/ norm2 n (co (pax0 o)) = 1) /\ (norm2 n (co (pax1 o)) = 0 \/ norm2 n (co (pax1 o)) = 1).
(** How far x is above the plane of the polygon: along the normal, the cross product of the axes. *)
Definition height (o : porient R) (x : pt) : R := inner 3 (cross_coord (co (pax0 o)) (co (pax1 o))) (fun i => x i - co (porigin o) i).
(** The polygon spans a plane, its normal, and the cosine of the angle between two planes: 0 when they are at right angles. *)
Definition spans_plane (p : polygon R) : Prop := valid (pax0 (pplane p)) = true /\ valid (pax1 (pplane p)) = true.
Definition normal (o : porient R) : pt := cross_coord (co (pax0 o)) (co (pax1 o)).
Definition tilt (p1 p2 : polygon R) : R := inner 3 (normal (pplane p1)) (normal (pplane p2)).
