(** Model of the Vector and Point classes: src/wfmath/vector.h, vector_funcs.h,
    vector.cpp, point.h, point_funcs.h, point.cpp, basis.h, zero.h (the parts that
    do not use matrices or quaternions). *)
From Coq Require Import ZArith Bool List.
From Verif Require Import Base Scalar ConstModel.
Import ListNotations.

(** vector.h 352-353 and point.h 261-262: both classes are an array of [dim]
    coordinates and a validity flag.  One record is used for both. *)
Record coords (T : Type) := mkC { el : list T; valid : bool }.
Arguments mkC {T} el valid.
Arguments el {T} c.
Arguments valid {T} c.
(** vector.h 352-353, as above *)
Definition vector := coords.
(** point.h 261-262, as above *)
Definition point := coords.

Section Vec.
Context {T} `{Num T}.
Variable dim : nat.
Open Scope num_scope.

(** operator[] const, vector.h 188, point.h 201 *)
Definition at_ (v : coords T) (i : nat) : T := get (el v) i.
Local Notation "v .[ i ]" := (at_ v i) (at level 2, i at level 200, left associativity).

(** vector.h 125, point.h 100: zero elements, not valid *)
Definition coords_default : coords T := mkC (tab dim (fun _ => n0)) false.

(** vector_funcs.h 145-155 zero(); 51-56 ZERO() with zero.h 42-48; point_funcs.h
    55-65 setToOrigin(), 47-52 *)
Definition vec_zero : coords T := mkC (tab dim (fun _ => n0)) true.

(** vector_funcs.h 43-49 and point_funcs.h 39-45: conversions between Point and Vector *)
Definition vec_of_point (p : point T) : vector T := mkC (tab dim (fun i => p.[i])) (valid p).
(** vector_funcs.h 43-49, as above *)
Definition point_of_vec (v : vector T) : point T := mkC (tab dim (fun i => v.[i])) (valid v).

(** vector_funcs.h 58-74 and point_funcs.h 67-83 isEqualTo *)
Definition vec_equal (a b : coords T) (epsilon : T) : bool :=
  if negb (valid b) || negb (valid a) then false
  else let delta := scale_eps_arr (el a) (el b) epsilon in
       all_below dim (fun i => negb (nabs (a.[i] - b.[i]) >? delta)).

(** vector_funcs.h 76-86 operator+=, vector.h 399-407 operator+; point_funcs.h
    99-109 and point.h 277-295 for a point and a vector *)
Definition vec_add (a b : coords T) : coords T :=
  mkC (tab dim (fun i => a.[i] + b.[i])) (valid a && valid b).

(** vector_funcs.h 88-98 operator-=, vector.h 409-417; point_funcs.h 85-97 (point
    minus point), 111-121 and point.h 297-305 (point minus vector) *)
Definition vec_sub (a b : coords T) : coords T :=
  mkC (tab dim (fun i => a.[i] - b.[i])) (valid a && valid b).

(** vector_funcs.h 100-108 operator*=, vector.h 419-437 *)
Definition vec_scale (a : vector T) (d : T) : vector T :=
  mkC (tab dim (fun i => a.[i] * d)) (valid a).

(** vector_funcs.h 110-118 operator/=, vector.h 439-447 *)
Definition vec_div (a : vector T) (d : T) : vector T :=
  mkC (tab dim (fun i => a.[i] / d)) (valid a).

(** vector_funcs.h 121-133 unary minus *)
Definition vec_neg (a : vector T) : vector T := mkC (tab dim (fun i => - a.[i])) (valid a).

(** vector_funcs.h 203-215 *)
Definition dot (a b : vector T) : T :=
  let delta := scale_eps_arr (el a) (el b) neps in
  let ans := nsum dim (fun i => a.[i] * b.[i]) in
  if nabs ans >=? delta then ans else n0.

(** vector_funcs.h 217-228 *)
Definition sqr_mag (a : vector T) : T := nsum dim (fun i => a.[i] * a.[i]).

(** vector.h 217 *)
Definition mag (a : vector T) : T := nsqrt (sqr_mag a).

(** vector.h 219-220 *)
Definition normalize (a : vector T) (norm : T) : vector T := vec_scale a (norm / mag a).

(** vector_funcs.h 157-169 *)
Definition angle (v u : vector T) : T :=
  nacos (float_clamp (dot u v / nsqrt (sqr_mag u * sqr_mag v)) (- n1) n1).

(** vector_funcs.h 171-184 rotate(int, int, theta); the assertion is [AssertFail] *)
Definition vec_rotate_axes (a : vector T) (axis1 axis2 : nat) (theta : T) : outcome (vector T) :=
  oassert (Nat.ltb axis1 dim && Nat.ltb axis2 dim && negb (Nat.eqb axis1 axis2))
    (let tmp1 := a.[axis1] in
     let tmp2 := a.[axis2] in
     let s := nsin theta in
     let c := ncos theta in
     Ret (mkC (upd (upd (el a) axis1 (tmp1 * c - tmp2 * s)) axis2 (tmp2 * c + tmp1 * s)) (valid a))).

(** vector_funcs.h 230-251 *)
Definition perpendicular (a b : vector T) : bool :=
  let exp1 := nfrexp (max_abs (el a)) in
  let exp2 := nfrexp (max_abs (el b)) in
  nabs (dot a b) <? nldexp neps (exp1 + exp2).

(** vector.h 449-459: result and same_dir *)
Definition parallel (a b : vector T) : bool * bool :=
  let d := dot a b in
  (equal (d * d) (sqr_mag a * sqr_mag b) neps, d >? n0).

(** vector.h 271 mirror(int); an index outside the vector is undefined *)
Definition mirror_axis (a : vector T) (i : nat) : outcome (vector T) :=
  do l <- (if Nat.ltb i dim then oset (el a) i (a.[i] * - n1) else Undef);
  Ret (mkC l (valid a)).

(** vector.h 273-274 mirror(v): this -= 2 * v * Dot(v, this) / v.sqrMag() *)
Definition mirror_vec (a v : vector T) : vector T :=
  vec_sub a (vec_div (vec_scale (vec_scale v n2) (dot v a)) (sqr_mag v)).

(** vector.h 279 mirror() *)
Definition mirror_all (a : vector T) : vector T := vec_scale a (- n1).

(** point_funcs.h 123-134 *)
Definition squared_distance (p q : point T) : T :=
  let ans := nsum dim (fun i => let diff := p.[i] - q.[i] in diff * diff) in
  if nabs ans >=? scale_eps_arr (el p) (el q) neps then ans else n0.

(** point.h 55-58 Distance *)
Definition distance (p q : point T) : T := nsqrt (squared_distance p q).

(** point_funcs.h 218-231 *)
Definition midpoint (p q : point T) (dist : T) : point T :=
  let conj := n1 - dist in
  mkC (tab dim (fun i => p.[i] * conj + q.[i] * dist)) (valid p && valid q).

(** point_funcs.h 185-216 Barycenter(c): sums in container order, the counter is a
    floating point number *)
Definition barycenter (c : list (point T)) : point T :=
  match c with
  | [] => coords_default
  | p :: rest =>
      let tot := fold_left (fun (st : list T * T * bool) q =>
                   let '(acc, n, ok) := st in
                   (tab dim (fun j => get acc j + q.[j]), n + n1, ok && valid q))
                 rest (el p, n1, valid p) in
      let '(acc, n, ok) := tot in
      mkC (tab dim (fun j => get acc j / n)) ok
  end.

(** point_funcs.h 136-183 Barycenter(c, weights).  [out] starts invalid and is
    returned invalid when the weights (nearly) cancel. *)
Definition wbarycenter (c : list (point T)) (w : list T) : point T :=
  match c, w with
  | p :: c', w0 :: w' =>
      let tot := fold_left (fun (st : list T * T * T * bool) qw =>
                   let '(acc, tw, mw, ok) := st in
                   let (q, wi) := (qw : point T * T) in
                   (tab dim (fun j => get acc j + q.[j] * wi), tw + wi,
                    (if nabs wi >? mw then nabs wi else mw), ok && valid q))
                 (combine c' w') (tab dim (fun j => p.[j] * w0), w0, nabs w0, valid p) in
      let '(acc, tw, mw, ok) := tot in
      if (mw <=? n0) || (nabs tw <=? mw * neps) then mkC acc false
      else mkC (tab dim (fun j => get acc j / tw)) ok
  | _, _ => coords_default
  end.
End Vec.

Section Vec23.
Context {T} `{Num T}.
Open Scope num_scope.
Local Notation "v .[ i ]" := (at_ v i) (at level 2, i at level 200, left associativity).

(** Vector/Point constructors for two and three dimensions, vector_funcs.h 284-287,
    point.h 307-320 *)
Definition mk2 (x y : T) : coords T := mkC [x; y] true.
(** vector_funcs.h 284-287, point.h 307-320 *)
Definition mk3 (x y z : T) : coords T := mkC [x; y; z] true.

(** vector.cpp 102-107 *)
Definition cross2 (a b : vector T) : T :=
  let ans := a.[0] * b.[1] - b.[0] * a.[1] in
  if ans >=? scale_eps_arr (el a) (el b) neps then ans else n0.

(** vector.cpp 109-126 *)
Definition cross3 (a b : vector T) : vector T :=
  let delta := scale_eps_arr (el a) (el b) neps in
  let clamp x := if nabs x <? delta then n0 else x in
  mkC [clamp (a.[1] * b.[2] - b.[1] * a.[2]);
       clamp (a.[2] * b.[0] - b.[2] * a.[0]);
       clamp (a.[0] * b.[1] - b.[0] * a.[1])] (valid a && valid b).

(** vector_funcs.h 281-282 Vector<1>::sloppyMag *)
Definition sloppy_mag1 (a : vector T) : T := nabs a.[0].

(** vector.cpp 42-56 Vector<2>::sloppyMag *)
Definition sloppy_mag2 (a : vector T) : T :=
  let ax := nabs a.[0] in
  let ay := nabs a.[1] in
  let p := nsqrt2 - n1 in
  if ax >? ay then ax + p * ay
  else if ay >? n0 then ay + p * ax
  else n0.

(** vector.cpp 58-77 Vector<3>::sloppyMag *)
Definition sloppy_mag3 (a : vector T) : T :=
  let ax := nabs a.[0] in
  let ay := nabs a.[1] in
  let az := nabs a.[2] in
  let p := nsqrt2 - n1 in
  let q := nsqrt3 + n1 - n2 * nsqrt2 in
  if (ax >? ay) && (ax >? az) then ax + p * (ay + az) + q * ay * az / ax
  else if ay >? az then ay + p * (ax + az) + q * ax * az / ay
  else if az >? n0 then az + p * (ax + ay) + q * ax * ay / az
  else n0.

(** vector.h 469-503 sloppyMagMax and sloppyMagMaxSqrt.  The literals have suffix f:
    the value used is the nearest single precision number, an integer over 2^23. *)
Definition sloppy_max1 : T := n1.
(** vector.h 469-503, as above *)
Definition sloppy_max2 : T := nofZ 9079764 / nofZ 8388608.
(** vector.h 469-503, as above *)
Definition sloppy_max3 : T := nofZ 9612797 / nofZ 8388608.
(** vector.h 469-503, as above *)
Definition sloppy_max_sqrt2 : T := nofZ 8727347 / nofZ 8388608.
(** vector.h 469-503, as above *)
Definition sloppy_max_sqrt3 : T := nofZ 8979866 / nofZ 8388608.

(** point.h 56-58 SloppyDistance *)
Definition sloppy_distance2 (p q : point T) : T := sloppy_mag2 (vec_sub 2 p q).
(** point.h 56-58, as above *)
Definition sloppy_distance3 (p q : point T) : T := sloppy_mag3 (vec_sub 3 p q).

(** vector_funcs.h 289-297 *)
Definition rotate2 (a : vector T) (theta : T) := vec_rotate_axes 2 a 0 1 theta.
(** vector_funcs.h 289-297, as above *)
Definition rotateX (a : vector T) (theta : T) := vec_rotate_axes 3 a 1 2 theta.
(** vector_funcs.h 289-297, as above *)
Definition rotateY (a : vector T) (theta : T) := vec_rotate_axes 3 a 2 0 theta.
(** vector_funcs.h 289-297, as above *)
Definition rotateZ (a : vector T) (theta : T) := vec_rotate_axes 3 a 0 1 theta.

(** vector_funcs.h 135-143 sloppyNorm, 2D and 3D; the assertion is [AssertFail] *)
Definition sloppy_norm2 (a : vector T) (norm : T) : outcome (vector T) :=
  let m := sloppy_mag2 a in
  oassert (m >? norm / nmaxval) (Ret (vec_scale 2 a (norm / m))).
(** vector_funcs.h 135-143, as above *)
Definition sloppy_norm3 (a : vector T) (norm : T) : outcome (vector T) :=
  let m := sloppy_mag3 a in
  oassert (m >? norm / nmaxval) (Ret (vec_scale 3 a (norm / m))).

(** vector.cpp 79-91 rotate(axis, theta) *)
Definition vec_rotate_axis (a axis : vector T) (theta : T) : outcome (vector T) :=
  let m := sqr_mag 3 axis in
  oassert (negb (m =? n0))
    (let perp := vec_sub 3 a (vec_div 3 (vec_scale 3 axis (dot 3 a axis)) m) in
     let rot90 := vec_div 3 (cross3 axis perp) (nsqrt m) in
     Ret (vec_add 3 a (vec_add 3 (vec_scale 3 perp (ncos theta - n1)) (vec_scale 3 rot90 (nsin theta))))).

(** basis.h 40-44; vector.cpp 137-144, point.cpp 50-57 asPolar *)
Definition as_polar (a : coords T) : T * T :=
  (nsqrt (a.[0] * a.[0] + a.[1] * a.[1]), natan2 a.[0] a.[1]).

(** basis.h 47-51; vector.cpp 128-135, point.cpp 41-48 polar(r, theta) *)
Definition polar2 (r theta : T) : coords T := mk2 (r * ncos theta) (r * nsin theta).

(** vector.cpp 146-164, point.cpp 59-77 *)
Definition polar3 (r theta z : T) : coords T := mk3 (r * ncos theta) (r * nsin theta) z.
(** vector.cpp 146-164, as above *)
Definition as_polar3 (a : coords T) : T * T * T :=
  (nsqrt (a.[0] * a.[0] + a.[1] * a.[1]), natan2 a.[0] a.[1], a.[2]).

(** basis.h 54-59; vector.cpp 175-184, point.cpp 88-97 asSpherical *)
Definition as_spherical (a : coords T) : T * T * T :=
  (nsqrt (a.[0] * a.[0] + a.[1] * a.[1] + a.[2] * a.[2]),
   natan2 a.[2] (nsqrt (a.[0] * a.[0] + a.[1] * a.[1])),
   natan2 a.[0] a.[1]).

(** basis.h 62-69; vector.cpp 166-173, point.cpp 79-86 spherical(r, theta, phi) *)
Definition spherical (r theta phi : T) : coords T :=
  let s := nsin theta in
  mk3 (r * s * ncos phi) (r * s * nsin phi) (r * ncos theta).
End Vec23.

Notation "v .[ i ]" := (at_ v i) (at level 2, i at level 200, left associativity) : num_scope.
