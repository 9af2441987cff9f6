(** Specification vocabulary for shapes: the set of points each shape stands for. *)
From Coq Require Import Reals List ZArith NArith SpecFloat.
From Verif Require Import B64Lib Base Scalar VecModel RotModel ShapeModel RSpec VecSpec RotSpec.
Open Scope R_scope.

Section Sets.
Variable n : nat.
Definition pt : Type := nat -> R.

(** x and y are the same point of R^n. *)
Definition pteq (x y : pt) : Prop := forall i, (i < n)%nat -> x i = y i.

(** The closed box, its interior, and the box enlarged by t on every side. *)
Definition in_box (b : axisbox R) (x : pt) : Prop := forall i, (i < n)%nat -> co (low b) i <= x i <= co (high b) i.
Definition in_box_open (b : axisbox R) (x : pt) : Prop := forall i, (i < n)%nat -> co (low b) i < x i < co (high b) i.
Definition near_box (t : R) (b : axisbox R) (x : pt) : Prop :=
  forall i, (i < n)%nat -> co (low b) i - t <= x i <= co (high b) i + t.
(** Corners in order; positive extent along every axis. *)
Definition box_ordered (b : axisbox R) : Prop := forall i, (i < n)%nat -> co (low b) i <= co (high b) i.
Definition box_thick (b : axisbox R) : Prop := forall i, (i < n)%nat -> co (low b) i < co (high b) i.
Definition box_dims {T} (b : axisbox T) : Prop := dims n (low b) /\ dims n (high b).

(** Every coordinate differs by at most t. *)
Definition close (t : R) (x y : pt) : Prop := forall i, (i < n)%nat -> Rabs (x i - y i) <= t.

(** The closed ball and its interior. *)
Definition in_ball (b : ball R) (x : pt) : Prop := dist n (co (center b)) x <= radius b.
Definition in_ball_open (b : ball R) (x : pt) : Prop := dist n (co (center b)) x < radius b.

(** The point a fraction t along the segment; the segment with and without its ends. *)
Definition seg_at (s : segment R) (t : R) : pt := fun i => (1 - t) * co (end1 s) i + t * co (end2 s) i.
Definition in_segment (s : segment R) (x : pt) : Prop := exists t, 0 <= t <= 1 /\ pteq x (seg_at s t).
Definition in_segment_open (s : segment R) (x : pt) : Prop := exists t, 0 < t < 1 /\ pteq x (seg_at s t).

(** The point of a rotated box with fractions s of its edges; row k of the orientation
    is the direction of edge k. *)
Definition rb_at (r : rotbox R) (s : pt) : pt :=
  fun i => co (corner0 r) i + Rsum n (fun k => s k * co (rsize r) k * ent (orient r) k i).
Definition in_rotbox (r : rotbox R) (x : pt) : Prop :=
  exists s, (forall k, (k < n)%nat -> 0 <= s k <= 1) /\ pteq x (rb_at r s).
Definition in_rotbox_open (r : rotbox R) (x : pt) : Prop :=
  exists s, (forall k, (k < n)%nat -> 0 < s k < 1) /\ pteq x (rb_at r s).

(** The points whose coordinates y along the edges are within t of the box. *)
Definition near_rotbox (t : R) (r : rotbox R) (x : pt) : Prop :=
  exists y : pt, (forall k, (k < n)%nat -> Rmin 0 (co (rsize r) k) - t <= y k <= Rmax 0 (co (rsize r) k) + t) /\
    pteq x (fun i => co (corner0 r) i + Rsum n (fun k => y k * ent (orient r) k i)).
(** Non-zero extent along every edge. *)
Definition rb_thick (r : rotbox R) : Prop := forall k, (k < n)%nat -> co (rsize r) k <> 0.
(** Where the rotation by the matrix m about the point p moves the point x: the offset
    from p is multiplied, as a row, by m. *)
Definition turned (m : rotmatrix R) (p x : pt) : pt := fun i => p i + Rsum n (fun j => (x j - p j) * ent m j i).

(** Two sets share a point; one is part of the other. *)
Definition meet (A B : pt -> Prop) : Prop := exists x, A x /\ B x.
Definition incl (A B : pt -> Prop) : Prop := forall x, A x -> B x.
End Sets.

(** ** Shapes of doubles *)
(** The first n coordinates are finite doubles. *)
Definition dpoint (n : nat) (p : point spec_float) : Prop :=
  forall i, (i < n)%nat -> is_double (nth i (el p) (S754_zero false)) /\ finite (nth i (el p) (S754_zero false)).
(** The real numbers they stand for. *)
Definition dval (p : point spec_float) : point R := mkC (map val (el p)) (valid p).
Definition dbox (b : axisbox spec_float) : axisbox R := mkB (dval (low b)) (dval (high b)).
(** The library epsilon for doubles, 30 * 2^-52. *)
Definition deps : R := val b64_eps.
