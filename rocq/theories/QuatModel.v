(** Model of the Quaternion class: src/wfmath/quaternion.h, quaternion.cpp, and of the
    RotMatrix, Vector and Point functions that use quaternions (rotmatrix.cpp 39-96,
    vector.cpp 93-100, point.cpp 99-123). *)
From Coq Require Import ZArith NArith Bool List.
From Verif Require Import Base Scalar ConstModel VecModel RotModel.
Import ListNotations.

(** quaternion.h 192-195: m_w, m_vec, m_valid, m_age.  m_vec has its own validity
    flag. *)
Record quat (T : Type) := mkQ { qw : T; qv : vector T; qvalid : bool; qage : N }.
Arguments mkQ {T} qw qv qvalid qage.
Arguments qw {T} q.
Arguments qv {T} q.
Arguments qvalid {T} q.
Arguments qage {T} q.

Section Quat.
Context {T} `{Num T}.
Open Scope num_scope.
Local Notation "v .[ i ]" := (at_ v i) (at level 2, i at level 200, left associativity).

(** quaternion.h 53 *)
Definition quat_default : quat T := mkQ n0 (coords_default 3) false 0.
(** quaternion.h 49-51 (IDENTITY) and 102 identity() *)
Definition quat_identity : quat T := mkQ n1 (vec_zero 3) true 0.
(** quaternion.cpp 49-62 *)
Definition quat_make (w x y z : T) : quat T :=
  let norm := nsqrt (w * w + x * x + y * y + z * z) in
  mkQ (w / norm) (mkC [x / norm; y / norm; z / norm] true) true 1.

(** quaternion.cpp 75-105 isEqualTo *)
Definition quat_equal (p q : quat T) (epsilon : T) : outcome bool :=
  oassert (n0 <? epsilon)
   (if negb (qvalid q) || negb (qvalid p) then Ret false
    else if (nabs (qw p - qw q) <=? epsilon) && all_below 3 (fun i => negb (nabs ((qv p).[i] - (qv q).[i]) >? epsilon)) then Ret true
    else if nabs (qw p + qw q) <=? epsilon then Ret (all_below 3 (fun i => negb (nabs ((qv p).[i] + (qv q).[i]) >? epsilon)))
    else Ret false).

(** quaternion.cpp 322-332 normalize() *)
Definition quat_normalize (q : quat T) : quat T :=
  let norm := (qw q * qw q + sqr_mag 3 (qv q) + n1) / n2 in
  mkQ (qw q / norm) (vec_div 3 (qv q) norm) (qvalid q) 1.
(** quaternion.h 191 checkNormalization() *)
Definition quat_check (q : quat T) : quat T :=
  if (N.of_nat max_norm_age <=? qage q)%N && qvalid q then quat_normalize q else q.

(** quaternion.cpp 112-123 operator*=, quaternion.h 111-115 operator*, 148 rotate(q).
    The left operand is normalised before the product; rhs is another object. *)
Definition quat_mul (p q : quat T) : quat T :=
  let a := quat_check (mkQ (qw p) (qv p) (qvalid p && qvalid q) (age_add (qage p) (qage q))) in
  mkQ (qw a * qw q - dot 3 (qv a) (qv q))
      (vec_sub 3 (vec_add 3 (vec_scale 3 (qv q) (qw a)) (vec_scale 3 (qv a) (qw q))) (cross3 (qv a) (qv q)))
      (qvalid a) (qage a).
(** quaternion.cpp 125-136 operator/=, quaternion.h 117-121 operator/ *)
Definition quat_div (p q : quat T) : quat T :=
  let a := quat_check (mkQ (qw p) (qv p) (qvalid p && qvalid q) (age_add (qage p) (qage q))) in
  mkQ (qw a * qw q + dot 3 (qv a) (qv q))
      (vec_add 3 (vec_sub 3 (vec_scale 3 (qv a) (qw q)) (vec_scale 3 (qv q) (qw a))) (cross3 (qv a) (qv q)))
      (qvalid a) (qage a).
(** The same two functions called as q *= q and q /= q (or q.rotate(q)): rhs is the
    object itself, so rhs.m_w on line 120 (133) is the new scalar part. *)
Definition quat_mul_self (q : quat T) : quat T :=
  let a := quat_check (mkQ (qw q) (qv q) (qvalid q) (age_add (qage q) (qage q))) in
  let w := qw a * qw a - dot 3 (qv a) (qv a) in
  mkQ w (vec_sub 3 (vec_add 3 (vec_scale 3 (qv a) (qw a)) (vec_scale 3 (qv a) w)) (cross3 (qv a) (qv a))) (qvalid a) (qage a).
(** quaternion.cpp 125-136 with rhs the object itself *)
Definition quat_div_self (q : quat T) : quat T :=
  let a := quat_check (mkQ (qw q) (qv q) (qvalid q) (age_add (qage q) (qage q))) in
  let w := qw a * qw a + dot 3 (qv a) (qv a) in
  mkQ w (vec_add 3 (vec_sub 3 (vec_scale 3 (qv a) w) (vec_scale 3 (qv a) (qw a))) (cross3 (qv a) (qv a))) (qvalid a) (qage a).

(** quaternion.cpp 189-196 *)
Definition quat_inverse (q : quat T) : quat T := mkQ (qw q) (vec_neg 3 (qv q)) (qvalid q) (qage q).

(** quaternion.cpp 138-187 fromRotMatrix.  Besides the quaternion the function returns
    not_flip.  The old value matters nowhere: every member is assigned. *)
Definition quat_of_elems (e : nat -> nat -> T) (tr : T) (ok : bool) (age : N) : outcome (quat T) :=
  if tr >? n0 then
    let s := nsqrt (tr + n1) in
    let w := s / n2 in
    let s := nhalf / s in
    Ret (mkQ w (mkC [(e 2%nat 1%nat - e 1%nat 2%nat) * s; (e 0%nat 2%nat - e 2%nat 0%nat) * s; (e 1%nat 0%nat - e 0%nat 1%nat) * s] ok) ok age)
  else
    let i := if e 1%nat 1%nat >? e 0%nat 0%nat then 1%nat else 0%nat in
    let i := if e 2%nat 2%nat >? e i i then 2%nat else i in
    let nxt i := match i with 0%nat => 1%nat | 1%nat => 2%nat | _ => 0%nat end in
    let j := nxt i in let k := nxt j in
    let s := nsqrt (n1 + e i i - e j j - e k k) in
    let vi := - (s * nhalf) in
    oassert (s >? n0)
     (let s := nhalf / s in
      let w := (e k j - e j k) * s in
      let vj := (e i j + e j i) * s in
      let vk := (e i k + e k i) * s in
      Ret (mkQ w (mkC (tab 3 (fun x => if Nat.eqb x i then vi else if Nat.eqb x j then vj else vk)) ok) ok age)).
(** quaternion.cpp 138-187, as above *)
Definition quat_from_matrix (m : rotmatrix T) : outcome (quat T * bool) :=
  let not_flip := negb (parity m) in
  do m_ref <- (if not_flip then Ret m else do mx <- rot_mirror_axis 3 0; prod 3 m mx);
  do q <- quat_of_elems (elem m_ref) (trace 3 m_ref) (mvalid m) (mage m);
  Ret (q, not_flip).

(** quaternion.cpp 198-205 rotate(m) *)
Definition quat_rotate_m (q : quat T) (m : rotmatrix T) : outcome (quat T) :=
  do t <- quat_from_matrix m; Ret (quat_mul q (fst t)).

(** quaternion.cpp 207-226 rotation(int axis, angle); old is the value before the call *)
Definition quat_axis (old : quat T) (axis : Z) (angle : T) : quat T :=
  if (axis <? 0)%Z || (2 <? axis)%Z then mkQ (qw old) (qv old) false (qage old)
  else let half := angle / n2 in
       mkQ (ncos half) (mkC (tab 3 (fun i => if Nat.eqb i (Z.to_nat axis) then nsin half else n0)) true) true 1.
(** quaternion.cpp 228-245 rotation(axis, angle) *)
Definition quat_rotation (old : quat T) (axis : vector T) (angle : T) : quat T :=
  let axis_mag := mag 3 axis in
  let half := angle / n2 in
  if axis_mag <? neps then mkQ (qw old) (qv old) false (qage old)
  else mkQ (ncos half) (vec_scale 3 axis (nsin half / axis_mag)) (valid axis) 1.
(** quaternion.cpp 247-264 rotation(axis) *)
Definition quat_rotation_mag (old : quat T) (axis : vector T) : quat T :=
  let axis_mag := mag 3 axis in
  let half := axis_mag / n2 in
  if axis_mag <? neps then mkQ (qw old) (qv old) false (qage old)
  else mkQ (ncos half) (vec_scale 3 axis (nsin half / axis_mag)) (valid axis) 1.
(** quaternion.cpp 266-292 rotation(from, to) *)
Definition quat_from_to (old : quat T) (from to : vector T) : outcome (quat T) :=
  let mag_prod := nsqrt (sqr_mag 3 from * sqr_mag 3 to) in
  let cp1 := dot 3 from to / mag_prod + n1 in
  if mag_prod <? neps then Ret (mkQ (qw old) (qv old) false (qage old))
  else if cp1 <? neps then Throws
  else let w := nsqrt (cp1 / n2) in
       Ret (mkQ w (vec_div 3 (cross3 from to) (n2 * mag_prod * w)) (valid from && valid to) 1).
(** quaternion.cpp 294-320 rotation(from, to, fallbackAxis) *)
Definition quat_from_to_fb (old : quat T) (from to fallback : vector T) : quat T :=
  let mag_prod := nsqrt (sqr_mag 3 from * sqr_mag 3 to) in
  let cp1 := dot 3 from to / mag_prod + n1 in
  if mag_prod <? neps then mkQ (qw old) (qv old) false (qage old)
  else if cp1 <? neps then quat_rotation old fallback npi
  else let w := nsqrt (cp1 / n2) in
       mkQ w (vec_div 3 (cross3 from to) (n2 * mag_prod * w)) (valid from && valid to) 1.

(** ** Uses in the other classes *)

(** vector.cpp 93-100 rotate(q): the scalar factors are doubles, the vector products
    are formed from the left *)
Definition vec_rotate_q (v : vector T) (q : quat T) : vector T :=
  vec_add 3 (vec_add 3 (vec_scale 3 v (n2 * qw q * qw q - n1))
                       (vec_scale 3 (vec_scale 3 (qv q) n2) (dot 3 (qv q) v)))
            (vec_scale 3 (cross3 (qv q) v) (n2 * qw q)).

(** point.cpp 99-109 rotate(q, p), rotatePoint; 111-123 toLocalCoords, toParentCoords *)
Definition point_rotate_q (x : point T) (q : quat T) (p : point T) : point T :=
  vec_add 3 p (vec_rotate_q (vec_sub 3 x p) q).
(** point.cpp 99-109, as above *)
Definition point_to_local_q (x origin : point T) (q : quat T) : point T :=
  vec_add 3 (vec_zero 3) (vec_rotate_q (vec_sub 3 x origin) (quat_inverse q)).
(** point.cpp 99-109, as above *)
Definition point_to_parent_q (x origin : point T) (q : quat T) : point T :=
  vec_add 3 origin (vec_rotate_q (vec_sub 3 x (vec_zero 3)) q).

(** rotmatrix.cpp 39-74 fromQuaternion; old is the matrix before the call: its m_valid
    is what Prod sees.  rotmatrix.cpp 369-373: the constructor starts with an invalid
    matrix. *)
Definition rot_of_quat_elems (q : quat T) : mat T :=
  let v := qv q in
  let xx := v.[0] * v.[0] in let xy := v.[0] * v.[1] in let xz := v.[0] * v.[2] in
  let yy := v.[1] * v.[1] in let yz := v.[1] * v.[2] in let zz := v.[2] * v.[2] in
  let wv := vec_scale 3 v (qw q) in
  [[n1 - n2 * (yy + zz); n2 * (xy - wv.[2]); n2 * (xz + wv.[1])];
   [n2 * (xy + wv.[2]); n1 - n2 * (xx + zz); n2 * (yz - wv.[0])];
   [n2 * (xz - wv.[1]); n2 * (yz + wv.[0]); n1 - n2 * (xx + yy)]].
(** rotmatrix.cpp 39-74, as above *)
Definition rot_from_quat (old : rotmatrix T) (q : quat T) (not_flip : bool) : outcome (rotmatrix T) :=
  let m := mkM (rot_of_quat_elems q) (negb not_flip) (mvalid old) (qage q) in
  do m' <- (if not_flip then Ret m else do mx <- rot_mirror_axis 3 0; prod 3 m mx);
  Ret (mkM (me m') (mflip m') true (mage m')).
(** rotmatrix.cpp 39-74, as above *)
Definition rot_quat (q : quat T) (not_flip : bool) : outcome (rotmatrix T) :=
  rot_from_quat (mkM (mtab 3 (fun _ _ => n0)) false false 0) q not_flip.

(** rotmatrix.cpp 76-96 rotate(q): each row is rotated *)
Definition rot_rotate_q (m : rotmatrix T) (q : quat T) : outcome (rotmatrix T) :=
  check_norm 3 (mkM (tab 3 (fun r => el (vec_rotate_q (mkC (tab 3 (elem m r)) true) q)))
                    (mflip m) (mvalid m && qvalid q) (age_add (mage m) (qage q))).
End Quat.
