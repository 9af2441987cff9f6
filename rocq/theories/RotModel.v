(** Model of the RotMatrix class: src/wfmath/rotmatrix.h, rotmatrix_funcs.h,
    rotmatrix.cpp (the parts that do not use quaternions), and of the Vector and
    Point functions that use matrices. *)
From Coq Require Import ZArith NArith Bool List.
From Verif Require Import Base Scalar ConstModel VecModel.
Import ListNotations.

(** rotmatrix.h 250-253: elements, parity flag, validity flag, round-off age. *)
Definition mat (T : Type) := list (list T).
(** rotmatrix.h 250-253, as above *)
Record rotmatrix (T : Type) := mkM { me : mat T; mflip : bool; mvalid : bool; mage : N }.
Arguments mkM {T} me mflip mvalid mage.
Arguments me {T} r.
Arguments mflip {T} r.
Arguments mvalid {T} r.
Arguments mage {T} r.

(** m_age is an [unsigned]: additions wrap. *)
Definition age_add (a b : N) : N := ((a + b) mod 2 ^ 32)%N.

Section Rot.
Context {T} `{Num T}.
Variable dim : nat.
Open Scope num_scope.

(** Element (i, j); used with indices below the size only. *)
Definition mget (m : mat T) (i j : nat) : T := get (nth i m []) j.
(** [for(i...) for(j...) m[i][j] = f(i,j);] *)
Definition mtab (f : nat -> nat -> T) : mat T := tab dim (fun i => tab dim (f i)).
(** rotmatrix.h 112 elem *)
Definition elem (m : rotmatrix T) (i j : nat) : T := mget (me m) i j.

(** rotmatrix.h 92 *)
Definition rot_default : rotmatrix T := mkM (mtab (fun _ _ => n0)) false false 0.

(** The value (i == j) ? 1 : 0 *)
Definition kron (i j : nat) : T := if Nat.eqb i j then n1 else n0.

(** ** _MatrixInverseImpl, rotmatrix.cpp 302-366.  The flat arrays in[i*size+j] and
    out[i*size+j] are matrices.  Inner loops that write the elements of a row (or
    the rows below the pivot) independently of each other are written as one update
    of the whole matrix. *)

(** rotmatrix.cpp 310-314 (and 267-271 of the determinant): threshold for a usable pivot *)
Definition minval (m : mat T) (i : nat) : T :=
  let v := nsum dim (fun j => mget m j i * mget m j i) / nmaxval in
  if v <? nminval then nminval else v.

(** rotmatrix.cpp 317-319, 274-276: first row below i with a large enough element in column i *)
Definition find_row (m : mat T) (i : nat) (mv : T) : option nat :=
  find (fun j => mget m j i * mget m j i >=? mv) (seq (i + 1) (dim - (i + 1))).

(** rotmatrix.cpp 322-325 *)
Definition add_row (m : mat T) (i j : nat) : mat T :=
  mtab (fun r c => if Nat.eqb r i then mget m r c + mget m j c else mget m r c).

(** rotmatrix.cpp 309-326: make the pivot usable, or fail *)
Definition inv_pivot (io : mat T * mat T) (i : nat) : option (mat T * mat T) :=
  let (inn, out) := io in
  let mv := minval inn i in
  if mget inn i i * mget inn i i <? mv then
    match find_row inn i mv with
    | None => None
    | Some j => Some (add_row inn i j, add_row out i j)
    end
  else Some (inn, out).

(** rotmatrix.cpp 329-336: divide row i by the pivot *)
Definition inv_norm (io : mat T * mat T) (i : nat) : mat T * mat T :=
  let (inn, out) := io in
  let tmp := mget inn i i in
  (mtab (fun r c => if Nat.eqb r i then (if Nat.eqb c i then n1
                                         else if Nat.ltb i c then mget inn r c / tmp else mget inn r c)
                    else mget inn r c),
   mtab (fun r c => if Nat.eqb r i then mget out r c / tmp else mget out r c)).

(** rotmatrix.cpp 339-348: subtract multiples of row i from the rows below.  As in the code the
    element below the pivot is set to 0 first and then takes part in the
    subtraction. *)
Definition inv_sub (io : mat T * mat T) (i : nat) : mat T * mat T :=
  let (inn, out) := io in
  (mtab (fun r c => if Nat.ltb i r then
                      let tmp2 := mget inn r i in
                      let x := if Nat.eqb c i then n0 else mget inn r c in
                      if negb (tmp2 =? n0) then x - mget inn i c * tmp2 else x
                    else mget inn r c),
   mtab (fun r c => if Nat.ltb i r then
                      let tmp2 := mget inn r i in
                      if negb (tmp2 =? n0) then mget out r c - mget out i c * tmp2 else mget out r c
                    else mget out r c)).

(** rotmatrix.cpp 307-349 *)
Definition inv_forward (io : mat T * mat T) : option (mat T * mat T) :=
  fold_left (fun st i => match st with
                         | None => None
                         | Some io => match inv_pivot io i with
                                      | None => None
                                      | Some io' => Some (inv_sub (inv_norm io' i) i)
                                      end
                         end) (seq 0 dim) (Some io).

(** rotmatrix.cpp 354-363: for i = size-1 downto 1, subtract multiples of row i of [out] from the
    rows above *)
Definition inv_back (inn : mat T) (out : mat T) (i : nat) : mat T :=
  mtab (fun r c => if Nat.ltb r i then
                     let tmp := mget inn r i in
                     if negb (tmp =? n0) then mget out r c - mget out i c * tmp else mget out r c
                   else mget out r c).
(** rotmatrix.cpp 354-363 *)
Definition inv_backward (inn out : mat T) : mat T :=
  fold_left (inv_back inn) (rev (seq 1 (dim - 1))) out.

(** rotmatrix.cpp 302-366 *)
Definition matrix_inverse (inn out : mat T) : option (mat T) :=
  match inv_forward (inn, out) with
  | None => None
  | Some (inn', out') => Some (inv_backward inn' out')
  end.

(** ** _MatrixDeterminantImpl, rotmatrix.cpp 258-300 *)

(** rotmatrix.cpp 279-281: the pivot is replaced, the rest of the row is added *)
Definition det_add_row (m : mat T) (i j : nat) : mat T :=
  mtab (fun r c => if Nat.eqb r i then (if Nat.eqb c i then mget m j c
                                        else if Nat.ltb i c then mget m r c + mget m j c else mget m r c)
                   else mget m r c).
(** rotmatrix.cpp 264-292 for one i *)
Definition det_step (m : mat T) (i : nat) : option (mat T) :=
  let mv := minval m i in
  let piv := if mget m i i * mget m i i <? mv then
               match find_row m i mv with
               | None => None
               | Some j => Some (det_add_row m i j)
               end
             else Some m in
  match piv with
  | None => None
  | Some m' =>
      Some (mtab (fun r c => if Nat.ltb i r then
                               let factor := mget m' r i / mget m' i i in
                               if Nat.eqb c i then n0
                               else if Nat.ltb i c && negb (factor =? n0) then mget m' r c - mget m' i c * factor
                               else mget m' r c
                             else mget m' r c))
  end.
(** rotmatrix.cpp 258-292 *)
Definition matrix_det (m : mat T) : T :=
  match fold_left (fun st i => match st with None => None | Some m => det_step m i end) (seq 0 (dim - 1)) (Some m) with
  | None => n0
  | Some m' => fold_left (fun out i => out * mget m' i i) (seq 0 dim) n1
  end.

(** ** normalize(), rotmatrix_funcs.h 537-567.  buf1 is the transpose, so that buf2
    becomes the inverse transpose. *)
Definition average (m b : mat T) : mat T := mtab (fun i j => (mget m i j + mget b i j) / n2).
(** rotmatrix_funcs.h 537-567 *)
Definition transpose (m : mat T) : mat T := mtab (fun i j => mget m j i).
(** rotmatrix_funcs.h 537-567 *)
Definition rot_normalize (m : rotmatrix T) : outcome (rotmatrix T) :=
  match matrix_inverse (transpose (me m)) (mtab kron) with
  | None => AssertFail
  | Some buf2 => Ret (mkM (average (me m) buf2) (mflip m) (mvalid m) 1)
  end.

(** rotmatrix.h 259; WFMATH_MAX_NORM_AGE is const.h 137 *)
Definition check_norm (m : rotmatrix T) : outcome (rotmatrix T) :=
  if (N.of_nat max_norm_age <=? mage m)%N && mvalid m then rot_normalize m else Ret m.

(** rotmatrix_funcs.h 71-157 *)
Definition prod_with (f : nat -> nat -> T) (m1 m2 : rotmatrix T) : outcome (rotmatrix T) :=
  check_norm (mkM (mtab f) (xorb (mflip m1) (mflip m2)) (mvalid m1 && mvalid m2) (age_add (mage m1) (mage m2))).
(** rotmatrix_funcs.h 71-157, as above *)
Definition prod (m1 m2 : rotmatrix T) : outcome (rotmatrix T) :=
  prod_with (fun i j => nsum dim (fun k => elem m1 i k * elem m2 k j)) m1 m2.
(** rotmatrix_funcs.h 71-157, as above *)
Definition prod_inv (m1 m2 : rotmatrix T) : outcome (rotmatrix T) :=
  prod_with (fun i j => nsum dim (fun k => elem m1 i k * elem m2 j k)) m1 m2.
(** rotmatrix_funcs.h 71-157, as above *)
Definition inv_prod (m1 m2 : rotmatrix T) : outcome (rotmatrix T) :=
  prod_with (fun i j => nsum dim (fun k => elem m1 k i * elem m2 k j)) m1 m2.
(** rotmatrix_funcs.h 71-157, as above *)
Definition inv_prod_inv (m1 m2 : rotmatrix T) : outcome (rotmatrix T) :=
  prod_with (fun i j => nsum dim (fun k => elem m1 k i * elem m2 j k)) m1 m2.

(** rotmatrix_funcs.h 159-174 Prod(m, v), 176-191 InvProd(m, v), 193-197 Prod(v, m),
    199-203 ProdInv(v, m) *)
Definition prod_mv (m : rotmatrix T) (v : vector T) : vector T :=
  mkC (tab dim (fun i => nsum dim (fun j => elem m i j * v.[j]))) (mvalid m && valid v).
(** rotmatrix_funcs.h 159-174, as above *)
Definition inv_prod_mv (m : rotmatrix T) (v : vector T) : vector T :=
  mkC (tab dim (fun i => nsum dim (fun j => elem m j i * v.[j]))) (mvalid m && valid v).
(** rotmatrix_funcs.h 159-174, as above *)
Definition prod_vm (v : vector T) (m : rotmatrix T) : vector T := inv_prod_mv m v.
(** rotmatrix_funcs.h 159-174, as above *)
Definition prod_inv_vm (v : vector T) (m : rotmatrix T) : vector T := prod_mv m v.

(** rotmatrix_funcs.h 41-69; the first assertion is on the tolerance, the second
    says that equal elements imply equal flags *)
Definition rot_equal (m1 m : rotmatrix T) (epsilon : T) : outcome bool :=
  oassert (n0 <? epsilon)
   (if negb (mvalid m) || negb (mvalid m1) then Ret false
    else if all_below dim (fun i => all_below dim (fun j => negb (nabs (elem m1 i j - elem m i j) >? epsilon)))
         then oassert (Bool.eqb (mflip m1) (mflip m)) (Ret true)
         else Ret false).

(** rotmatrix_funcs.h 275-299 *)
Definition rot_row (m : rotmatrix T) (i : nat) : vector T := mkC (tab dim (fun j => elem m i j)) (mvalid m).
(** rotmatrix_funcs.h 275-299, as above *)
Definition rot_column (m : rotmatrix T) (i : nat) : vector T := mkC (tab dim (fun j => elem m j i)) (mvalid m).

(** rotmatrix_funcs.h 301-315 *)
Definition rot_inverse (m : rotmatrix T) : rotmatrix T :=
  mkM (mtab (fun i j => elem m j i)) (mflip m) (mvalid m) (age_add (mage m) 1).

(** rotmatrix_funcs.h 317-329 *)
Definition rot_identity : rotmatrix T := mkM (mtab kron) false true 0.

(** rotmatrix_funcs.h 331-340 *)
Definition trace (m : rotmatrix T) : T := nsum dim (fun i => elem m i i).

(** rotmatrix.h 144, 154 *)
Definition determinant (m : rotmatrix T) : T := if mflip m then - n1 else n1.
(** rotmatrix.h 144, 154, as above *)
Definition parity (m : rotmatrix T) : bool := mflip m.

(** rotmatrix_funcs.h 342-374 *)
Definition rot_plane (i j : nat) (theta : T) : outcome (rotmatrix T) :=
  oassert (Nat.ltb i dim && Nat.ltb j dim && negb (Nat.eqb i j))
    (let c := ncos theta in let s := nsin theta in
     Ret (mkM (mtab (fun k l =>
            if Nat.eqb k l then (if Nat.eqb k i || Nat.eqb k j then c else n1)
            else if Nat.eqb k i && Nat.eqb l j then s
            else if Nat.eqb k j && Nat.eqb l i then - s
            else n0)) false true 1)).

(** rotmatrix_funcs.h 376-419.  [nofZ dim] is the int -> double conversion of dim. *)
Definition rot_vectors (v1 v2 : vector T) (theta : T) : outcome (rotmatrix T) :=
  let v1_sqr := sqr_mag dim v1 in
  oassert (v1_sqr >? n0)
   (let vperp := vec_sub dim v2 (vec_div dim (vec_scale dim v1 (dot dim v1 v2)) v1_sqr) in
    let vp_sqr := sqr_mag dim vperp in
    if vp_sqr / v1_sqr <? nofZ (Z.of_nat dim) * neps * neps then
      oassert (sqr_mag dim v2 >? n0) Throws
    else
      let mag_prod := nsqrt (v1_sqr * vp_sqr) in
      let c := ncos theta in let s := nsin theta in
      Ret (mkM (mtab (fun i j =>
             kron i j + ((c - n1) * (v1.[i] * v1.[j] / v1_sqr + vperp.[i] * vperp.[j] / vp_sqr)
                         - s * (vperp.[i] * v1.[j] - v1.[i] * vperp.[j]) / mag_prod))) false true 1)).

(** rotmatrix_funcs.h 421-481.  The double loop visits i <= j and writes (i,j) and
    (j,i); it is written here for each element. *)
Definition rot_from_to (from to : vector T) : outcome (rotmatrix T) :=
  let from_sqr := sqr_mag dim from in
  oassert (from_sqr >? n0)
   (let to_sqr := sqr_mag dim to in
    oassert (to_sqr >? n0)
     (let d := dot dim from to in
      let sqrmagprod := from_sqr * to_sqr in
      let magprod := nsqrt sqrmagprod in
      let cp1 := d / magprod + n1 in
      if cp1 <? neps then
        if Nat.eqb dim 2 then
          let c := cp1 - n1 in
          let sin_theta := nsqrt (n2 * cp1) in
          let direction := to.[0] * from.[1] - to.[1] * from.[0] >=? n0 in
          let m01 := if direction then sin_theta else - sin_theta in
          Ret (mkM [[c; m01]; [- m01; c]] false true 1)
        else Throws
      else
        let combined i j :=
          (from.[i] * from.[j] / from_sqr + to.[i] * to.[j] / to_sqr
           - (from.[i] * to.[j] + to.[i] * from.[j]) * d / sqrmagprod) / cp1 in
        let diffterm i j := (to.[i] * from.[j] - from.[i] * to.[j]) / magprod in
        Ret (mkM (mtab (fun i j =>
               if Nat.eqb i j then n1 - combined i i
               else if Nat.ltb i j then - diffterm i j - combined i j
               else diffterm j i - combined j i)) false true 1))).

(** rotmatrix.h 267-276; an index outside the matrix is undefined *)
Definition rot_mirror_axis (i : nat) : outcome (rotmatrix T) :=
  if Nat.ltb i dim then
    Ret (mkM (mtab (fun k l => if Nat.eqb k i && Nat.eqb l i then - n1 else kron k l)) true true 0)
  else Undef.

(** rotmatrix_funcs.h 491-518.  -2 * v[i] * v[j] / sqr_mag is grouped from the left;
    the loop writes m[i][j] = m[j][i] for i < j. *)
Definition rot_mirror_vec (v : vector T) : outcome (rotmatrix T) :=
  let s := sqr_mag dim v in
  oassert (s >? n0)
   (Ret (mkM (mtab (fun i j =>
          if Nat.eqb i j then n1 - n2 * v.[i] * v.[i] / s
          else if Nat.ltb i j then nofZ (-2) * v.[i] * v.[j] / s
          else nofZ (-2) * v.[j] * v.[i] / s)) true true 1)).

(** rotmatrix_funcs.h 520-533 *)
Definition rot_mirror : rotmatrix T :=
  mkM (mtab (fun i j => if Nat.eqb i j then - n1 else n0)) (Nat.odd dim) true 0.

(** rotmatrix.h 196 rotate(RotMatrix) *)
Definition rot_rotate (m m2 : rotmatrix T) : outcome (rotmatrix T) := prod m m2.

(** ** setVals: _MatrixSetValsImpl, rotmatrix.cpp 160-256 *)

(** rotmatrix.cpp 176-190: largest absolute element of vals * vals^T - I, as the loops compute it *)
Definition orth_defect (vals : mat T) : T :=
  fold_left (fun tp i => fold_left (fun tp j =>
      let ans := nsum dim (fun k => mget vals i k * mget vals j k) in
      let ans := if Nat.eqb i j then ans - n1 else ans in
      let ans := nabs ans in
      if ans >=? tp then ans else tp) (seq 0 dim) tp) (seq 0 dim) n0.

(** rotmatrix.cpp 171-242.  [None]: the loop has not ended after [fuel] iterations; [Some None]:
    return false; [Some (Some vals)]: leave the loop with these values. *)
Fixpoint set_vals_loop (fuel : nat) (precision : T) (vals : mat T) : option (option (mat T)) :=
  match fuel with
  | O => None
  | S fuel =>
      let try_prec := orth_defect vals in
      if try_prec >? precision then Some None
      else if try_prec <=? neps then Some (Some vals)
      else match matrix_inverse (transpose vals) (mtab kron) with
           | None => Some None
           | Some buf2 => set_vals_loop fuel precision (average vals buf2)
           end
  end.

(** rotmatrix.cpp 160-256 and rotmatrix_funcs.h 223-273.  The result is the new matrix and the
    return value; on failure the matrix is unchanged.  The literal .9 is the double
    nearest to 0.9, which is 8106479329266893 * 2^-53. *)
Definition nine_tenths : T := nldexp (nofZ 8106479329266893) (-53).
(** rotmatrix.cpp 160-256 and rotmatrix_funcs.h 223-273 *)
Definition set_vals (fuel : nat) (m : rotmatrix T) (vals : mat T) (precision : T) : option (bool * rotmatrix T) :=
  let precision := nabs precision in
  if precision >=? nine_tenths then Some (false, m)
  else match set_vals_loop fuel precision (mtab (fun i j => mget vals i j)) with
       | None => None
       | Some None => Some (false, m)
       | Some (Some v) => Some (true, mkM v (matrix_det v <? n0) true 1)
       end.

(** ** Vectors and points *)

(** vector_funcs.h 186-192 rotate(v1, v2, theta) *)
Definition vec_rotate_plane (v v1 v2 : vector T) (theta : T) : outcome (vector T) :=
  do m <- rot_vectors v1 v2 theta; Ret (prod_vm v m).
(** vector_funcs.h 194-198 rotate(m) *)
Definition vec_rotate (v : vector T) (m : rotmatrix T) : vector T := prod_vm v m.

(** point.h 145-146 rotate(m, p): this = p + Prod(this - p, m) *)
Definition point_rotate (x : point T) (m : rotmatrix T) (p : point T) : point T :=
  vec_add dim p (prod_vm (vec_sub dim x p) m).
(** point.h 177-190 toParentCoords, toLocalCoords with a matrix; Point().setToOrigin()
    is the origin *)
Definition point_to_parent (x : point T) (origin : point T) (rotation : rotmatrix T) : point T :=
  vec_add dim origin (prod_vm (vec_sub dim x (vec_zero dim)) rotation).
(** point.h 177-190, as above *)
Definition point_to_local (x : point T) (origin : point T) (rotation : rotmatrix T) : point T :=
  vec_add dim (vec_zero dim) (prod_mv rotation (vec_sub dim x origin)).
End Rot.

Section Rot3.
Context {T} `{Num T}.
Open Scope num_scope.

(** rotmatrix.cpp 102-111, 134-141: index of the largest component, None if all zero *)
Definition main_comp (axis : vector T) : option nat :=
  snd (fold_left (fun (st : T * option nat) i =>
         let (mx, mc) := st in
         let val := nabs axis.[i] in
         if val >? mx then (val, Some i) else (mx, mc)) (seq 0 3) (n0, None)).

(** rotmatrix.cpp 98-125 rotation(axis, theta).  tmp is a default constructed vector
    with assigned elements, so it is not valid; rotation(v1, v2, theta) does not look
    at the validity of its arguments. *)
Definition rot_axis_with (axis : vector T) (mc : nat) (theta : T) : outcome (rotmatrix T) :=
  let new_comp := match mc with O => 2 | S k => k end in
  let tmp := mkC (tab 3 (fun i => if Nat.eqb i new_comp then n1 else n0)) false in
  let v1 := cross3 axis tmp in
  let v2 := cross3 axis v1 in
  rot_vectors 3 v1 v2 theta.
(** rotmatrix.cpp 98-125, as above *)
Definition rot_axis (axis : vector T) (theta : T) : outcome (rotmatrix T) :=
  match main_comp axis with
  | None => AssertFail
  | Some mc => rot_axis_with axis mc theta
  end.
(** rotmatrix.cpp 127-158 rotation(axis) *)
Definition rot_axis_mag (axis : vector T) : outcome (rotmatrix T) :=
  let angle := mag 3 axis in
  if angle =? n0 then Ret (rot_identity 3)
  else match main_comp axis with
       | None => AssertFail
       | Some mc => rot_axis_with axis mc angle
       end.

(** rotmatrix.h 220-228 *)
Definition rot_2d (theta : T) := rot_plane 2 0 1 theta.
(** rotmatrix.h 220-228, as above *)
Definition rot_x (theta : T) := rot_plane 3 1 2 theta.
(** rotmatrix.h 220-228, as above *)
Definition rot_y (theta : T) := rot_plane 3 2 0 theta.
(** rotmatrix.h 220-228, as above *)
Definition rot_z (theta : T) := rot_plane 3 0 1 theta.
End Rot3.
