(** Specification vocabulary for motions of shapes. *)
From Coq Require Import Reals List ZArith NArith Bool.
From Verif Require Import Base Scalar VecModel RotModel QuatModel ShapeModel PolyModel RSpec VecSpec RotSpec QuatSpec ShapeSpec.
Import ListNotations.
Open Scope R_scope.

(** The translation by v. *)
Definition shifted (v x : pt) : pt := fun i => x i + v i.
(** The rotation by a unit quaternion about p: q (x - p) q^-1, moved back to p.  (The
    rotation by a matrix about p is [turned] in ShapeSpec.) *)
Definition hpart (h : ham) (i : nat) : R := match i with 0%nat => hx h | 1%nat => hy h | _ => hz h end.
Definition turned_q (q : quat R) (p x : pt) : pt := fun i => p i + hpart (sandwich (q4 q) (fun j => x j - p j)) i.

(** A rigid motion of R^n: an orthogonal matrix and a translation. *)
Definition rigid (n : nat) (f : pt -> pt) : Prop :=
  exists A c, orthogonal n A /\ forall x, pteq n (f x) (fun i => c i + Rsum n (fun j => x j * A j i)).
Definition isometry (n : nat) (f : pt -> pt) : Prop := forall x y, dist n (f x) (f y) = dist n x y.

(** The image of a set of points. *)
Definition image (n : nat) (f : pt -> pt) (A : pt -> Prop) (y : pt) : Prop := exists x, A x /\ pteq n y (f x).
Definition same_set (A B : pt -> Prop) : Prop := forall x, A x <-> B x.

(** The shape s' is the shape s moved by f: corner by corner, and as a set of points. *)
Definition seg_moved (n : nat) (f : pt -> pt) (s s' : segment R) : Prop :=
  (forall i, pteq n (co (seg_corner s' i)) (f (co (seg_corner s i)))) /\ same_set (in_segment n s') (image n f (in_segment n s)).
Definition ball_moved (n : nat) (f : pt -> pt) (b b' : ball R) : Prop :=
  pteq n (co (center b')) (f (co (center b))) /\ radius b' = radius b /\ same_set (in_ball n b') (image n f (in_ball n b)).
Definition box_moved (eps : Epsilon) (n : nat) (f : pt -> pt) (b b' : axisbox R) : Prop :=
  (forall i, pteq n (co (box_corner n b' i)) (f (co (box_corner n b i)))) /\ same_set (in_box n b') (image n f (in_box n b)).
Definition rb_moved (eps : Epsilon) (n : nat) (f : pt -> pt) (r r' : rotbox R) : Prop :=
  (forall k c, rb_corner n r k = Ret c -> exists c', rb_corner n r' k = Ret c' /\ pteq n (co c') (f (co c))) /\
  same_set (in_rotbox n r') (image n f (in_rotbox n r)).
(** Corner lists: Line and Polygon<2>; [b] is false if the motion makes corners invalid. *)
Definition list_moved (n : nat) (b : bool) (f : pt -> pt) (l l' : list (coords R)) : Prop :=
  Forall2 (fun c c' => pteq n (co c') (f (co c)) /\ valid c' = valid c && b) l l'.
(** Polygon<dim>. *)
Definition pg_moved (eps : Epsilon) (n : nat) (f : pt -> pt) (p p' : polygon R) : Prop :=
  pg_num p' = pg_num p /\
  forall i c, pg_corner n p i = Ret c -> exists c', pg_corner n p' i = Ret c' /\ pteq n (co c') (f (co c)) /\ valid c' = valid c.

(** Polygons the API can build: the second axis is only set together with the first. *)
Definition plane_good {T} (o : porient T) : Prop := valid (pax1 o) = true -> valid (pax0 o) = true.
(** From local to parent coordinates and back: the frame at o with the axes the rows of M. *)
Definition parent (n : nat) (m : rotmatrix R) (o x : pt) : pt := fun i => o i + Rsum n (fun j => x j * ent m j i).
Definition local (n : nat) (m : rotmatrix R) (o x : pt) : pt := fun i => Rsum n (fun j => ent m i j * (x j - o j)).
Definition parent_q (q : quat R) (o x : pt) : pt := fun i => o i + hpart (sandwich (q4 q) x) i.
