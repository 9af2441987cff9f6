(** The set of points a polygon in the plane stands for. *)
From Coq Require Import Reals List Bool.
From Verif Require Import Base Scalar VecModel VecSpec RSpec ShapeSpec EvenOddSpec.
Import ListNotations.
Open Scope R_scope.

(** Off the sides, inside by the even-odd rule. *)
Definition interior (l : list (coords R)) (x : pt) : Prop := ~ on_boundary l x /\ even_odd l x true.
(** The sides together with the points inside. *)
Definition region (l : list (coords R)) (x : pt) : Prop := on_boundary l x \/ interior l x.
