(** Model of the exact bounding spheres of lines and polygons: src/wfmath/line.h, polygon.h, polygon_funcs.h. *)
From Coq Require Import List.
From Verif Require Import Base Scalar VecModel ShapeModel PolyModel MiniballModel.

Section Sphere.
Context {T : Type} {H : Num T}.
Variable dim : nat.
Variable tau : T.
(** polygon.h 121; line.h 136 *)
Definition poly_bounding_sphere (fuel : nat) (l : list (point T)) : res (ball T) := bounding_sphere dim tau fuel l.
(** polygon_funcs.h 337-343 *)
Definition pg_bounding_sphere (fuel : nat) (p : polygon T) : res (ball T) :=
  rbind (bounding_sphere 2 tau fuel (pcorners p)) (fun b =>
    rbind (Some (orient_convert dim (pplane p) (center b))) (fun c => Some (Ret (ball_make c (radius b))))).
End Sphere.
