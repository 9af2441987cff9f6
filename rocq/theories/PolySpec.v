(** Specification vocabulary for corner lists: what inserting, deleting and replacing an
    element of a sequence does, read by index; and the polygons in space that the API
    builds. *)
From Coq Require Import Reals List ZArith NArith Bool.
From Verif Require Import Base Scalar VecModel RotModel QuatModel ShapeModel PolyModel RSpec VecSpec RotSpec ShapeSpec.
Import ListNotations.
Open Scope R_scope.

Definition inserted {A} (l : list A) (i : nat) (x : A) (l' : list A) : Prop :=
  forall k, nth_error l' k = if Nat.ltb k i then nth_error l k else if Nat.eqb k i then Some x else nth_error l (k - 1).
Definition deleted {A} (l : list A) (i : nat) (l' : list A) : Prop :=
  forall k, nth_error l' k = if Nat.ltb k i then nth_error l k else nth_error l (S k).
Definition replaced {A} (l : list A) (i : nat) (x : A) (l' : list A) : Prop :=
  forall k, nth_error l' k = if Nat.eqb k i then Some x else nth_error l k.
(** Where the corner k goes when a corner is inserted before i, or the corner i deleted. *)
Definition after_insert (i k : nat) : nat := if Nat.ltb k i then k else S k.
Definition after_delete (i k : nat) : nat := if Nat.ltb k i then k else (k - 1)%nat.

(** Polygon<dim>: the axes that are set are unit vectors at right angles, the second is only
    set after the first, and corners have no coordinate along an axis that is not set. *)
Definition frame_ok (n : nat) (o : porient R) : Prop :=
  (valid (pax1 o) = true -> valid (pax0 o) = true) /\ (valid (pax0 o) = true -> valid (porigin o) = true) /\
  (valid (pax0 o) = true -> norm2 n (co (pax0 o)) = 1) /\
  (valid (pax1 o) = true -> norm2 n (co (pax1 o)) = 1 /\ inner n (co (pax0 o)) (co (pax1 o)) = 0).
Definition flat_ok (o : porient R) (c : coords R) : Prop :=
  valid (porigin o) = true /\ (valid (pax0 o) = false -> co c 0 = 0) /\ (valid (pax1 o) = false -> co c 1 = 0).
Definition pg_ok (n : nat) (p : polygon R) : Prop := frame_ok n (pplane p) /\ Forall (flat_ok (pplane p)) (pcorners p).

(** The rest of the corners: corner k of p is corner (to k) of p', at most (by c) away. *)
Definition corners_kept (eps : Epsilon) (n : nat) (p p' : polygon R) (skip : option nat) (to : nat -> nat) (by_ : coords R -> R) : Prop :=
  forall k c, skip <> Some k -> pg_corner n p k = Ret c ->
    exists c', pg_corner n p' (to k) = Ret c' /\ valid c' = valid c /\ dist n (co c') (co c) <= by_ c.
(** The plane through the polygon: what the corners of a polygon with two axes can be. *)
Definition in_plane (n : nat) (o : porient R) (y : pt) : Prop :=
  exists u v, pteq n y (fun i => co (porigin o) i + u * co (pax0 o) i + v * co (pax1 o) i).

(** The inner products of the plane test are not rounded to zero by Dot's tolerance: s is the new
    point seen from the origin, shift what is left without its part along the first axis, shift'
    without the part along the second. *)
Definition expand_exact (eps : Epsilon) (n : nat) (o : porient R) (x : coords R) : Prop :=
  let s := vec_sub n x (porigin o) in
  let shift := vec_sub n s (vec_scale n (pax0 o) (dot n s (pax0 o))) in
  let shift' := vec_sub n shift (vec_scale n (pax1 o) (dot n shift (pax1 o))) in
  exact_dot eps n s s /\
  (valid (pax0 o) = true -> exact_dot eps n s (pax0 o) /\ exact_dot eps n shift s /\
   (valid (pax1 o) = true -> exact_dot eps n shift (pax1 o) /\ exact_dot eps n shift' s)).
(** The first corner other than corner i. *)
Definition first_corner (eps : Epsilon) (n : nat) (p : polygon R) (i : nat) : pt :=
  match pg_corner n p (if Nat.eqb i 0 then 1 else 0) with Ret f => co f | _ => fun _ => 0 end.
(** Every corner but i is where that one is, or farther from it than the tolerance. *)
Definition apart (eps : Epsilon) (n : nat) (p : polygon R) (i : nat) : Prop :=
  forall f c k, pg_corner n p (if Nat.eqb i 0 then 1 else 0) = Ret f -> k <> i -> pg_corner n p k = Ret c ->
    pteq n (co c) (co f) \/ eps * (1 + 2 * dist n (co f) (co (porigin (pplane p)))) <= dist n (co c) (co f).
