(** Short names for operations modelled elsewhere: operators on matrices, mirrors and
    turns named after an axis, Parallel with two arguments, the zero constants. *)
From Coq Require Import List Bool Arith ZArith.
From Verif Require Import Base Scalar VecModel RotModel.
Import ListNotations.

Section Wrap.
Context {T} `{Num T}.
Open Scope num_scope.
Variable dim : nat.

(** rotmatrix_funcs.h 204-208 operator*(m1, m2) *)
Definition op_mm (m1 m2 : rotmatrix T) : outcome (rotmatrix T) := prod dim m1 m2.
(** rotmatrix_funcs.h 210-214 operator*(m, v) *)
Definition op_mv (m : rotmatrix T) (v : vector T) : vector T := prod_mv dim m v.
(** rotmatrix_funcs.h 216-220 operator*(v, m) *)
Definition op_vm (v : vector T) (m : rotmatrix T) : vector T := inv_prod_mv dim m v.

(** vector.h 461-466 Parallel(v1, v2) *)
Definition parallel2 (a b : vector T) : bool := fst (parallel dim a b).

(** vector.h 326-328: mirrorX, mirrorY exist in every dimension *)
Definition mirror_x (v : vector T) : outcome (vector T) := mirror_axis dim v 0.
(** vector.h 326-328, as above *)
Definition mirror_y (v : vector T) : outcome (vector T) := mirror_axis dim v 1.
(** rotmatrix.h 243-245 *)
Definition rot_mirror_x : outcome (rotmatrix T) := rot_mirror_axis dim 0.
(** rotmatrix.h 243-245, as above *)
Definition rot_mirror_y : outcome (rotmatrix T) := rot_mirror_axis dim 1.

(** zero.h 42-48: ZeroPrimitive(dim) writes dim zeros over the elements of a default
    constructed shape and marks it valid.  [contents] are the elements before the loop:
    the constructor of the shape need not initialise them.  Writing past the end is
    undefined. *)
Definition zero_primitive (count : nat) (contents : list T) : outcome (coords T) :=
  if Nat.leb count (length contents)
  then Ret (mkC (fold_left (fun l i => upd l i n0) (seq 0 count) contents) true)
  else Undef.
End Wrap.

Section Wrap3.
Context {T} `{Num T}.
(** vector.h 368-372 mirrorZ, 3D only *)
Definition mirror_z (v : vector T) : outcome (vector T) := mirror_axis 3 v 2.
(** rotmatrix.h 260-264 mirrorZ, 3D only *)
Definition rot_mirror_z : outcome (rotmatrix T) := rot_mirror_axis 3 2.
End Wrap3.
