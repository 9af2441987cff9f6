(** Model of Intersect and Contains for Point, AxisBox, Ball, Segment and RotBox:
    src/wfmath/intersect_decls.h, intersect.h, intersect.cpp.  Intersect with the
    arguments exchanged is the same function (intersect.h 44-48); Contains(s, point) is
    Intersect(s, point) (59-63). *)
From Coq Require Import ZArith NArith Bool List.
From Verif Require Import Base Scalar ConstModel VecModel RotModel QuatModel ShapeModel.
Import ListNotations.

Section Intersect.
Context {T} `{Num T}.
Open Scope num_scope.
Variable dim : nat.
Local Notation "v .[ i ]" := (at_ v i) (at level 2, i at level 200, left associativity).

(** intersect_decls.h 35-53 *)
Definition less_ (x1 x2 : T) (proper : bool) : bool := if proper then x1 <=? x2 else x2 - x1 >? neps.
(** intersect_decls.h 35-53, as above *)
Definition less_eq_ (x1 x2 : T) (proper : bool) : bool := if negb proper then x1 <=? x2 else x1 <? x2.
(** intersect_decls.h 35-53, as above *)
Definition greater_ (x1 x2 : T) (proper : bool) : bool := if proper then x1 >=? x2 else x1 - x2 >? neps.
(** intersect_decls.h 35-53, as above *)
Definition greater_eq_ (x1 x2 : T) (proper : bool) : bool := if negb proper then x1 >=? x2 else x1 >? x2.

(** point.h operator==: isEqualTo with the default tolerance *)
Definition same (p q : coords T) : bool := vec_equal dim p q neps.

(** intersect.h 52-56, 64-68 *)
Definition i_point_point (p1 p2 : point T) (proper : bool) : bool := negb proper && same p1 p2.

(** intersect.h 72-86 *)
Definition i_box_point (b : axisbox T) (p : point T) (proper : bool) : bool :=
  all_below dim (fun i => negb (greater_ (low b).[i] p.[i] proper || less_ (high b).[i] p.[i] proper)).
(** intersect.h 72-86, as above *)
Definition c_point_box (p : point T) (b : axisbox T) (proper : bool) : bool :=
  negb proper && same p (low b) && same p (high b).
(** intersect.h 88-108 *)
Definition i_box_box (b1 b2 : axisbox T) (proper : bool) : bool :=
  all_below dim (fun i => negb (greater_ (low b1).[i] (high b2).[i] proper || less_ (high b1).[i] (low b2).[i] proper)).
(** intersect.h 88-108, as above *)
Definition c_box_box (outer inner : axisbox T) (proper : bool) : bool :=
  all_below dim (fun i => negb (less_ (low inner).[i] (low outer).[i] proper || greater_ (high inner).[i] (high outer).[i] proper)).

(** intersect.h 112-123 *)
Definition i_ball_point (b : ball T) (p : point T) (proper : bool) : bool :=
  less_eq_ (squared_distance dim (center b) p) (radius b * radius b * (n1 + neps)) proper.
(** intersect.h 112-123, as above *)
Definition c_point_ball (p : point T) (b : ball T) (proper : bool) : bool :=
  negb proper && (radius b =? n0) && same p (center b).
(** intersect.h 125-142; the loop skips axes on which the centre is inside *)
Definition i_ball_box (b : ball T) (a : axisbox T) (proper : bool) : bool :=
  let dist := fold_left (fun acc i =>
      if (center b).[i] <? (low a).[i] then let d := (center b).[i] - (low a).[i] in acc + d * d
      else if (center b).[i] >? (high a).[i] then let d := (center b).[i] - (high a).[i] in acc + d * d
      else acc) (seq 0 dim) n0 in
  less_eq_ dist (radius b * radius b) proper.
(** intersect.h 144-156 *)
Definition c_ball_box (b : ball T) (a : axisbox T) (proper : bool) : bool :=
  let sqr_dist := nsum dim (fun i =>
      let f := float_max (nabs ((center b).[i] - (low a).[i])) (nabs ((center b).[i] - (high a).[i])) in f * f) in
  less_eq_ sqr_dist (radius b * radius b * (n1 + neps)) proper.
(** intersect.h 158-167 *)
Definition c_box_ball (a : axisbox T) (b : ball T) (proper : bool) : bool :=
  all_below dim (fun i => negb (less_ ((center b).[i] - radius b) (low a).[i] proper
                                || greater_ ((center b).[i] + radius b) (high a).[i] proper)).
(** intersect.h 169-189 *)
Definition i_ball_ball (b1 b2 : ball T) (proper : bool) : bool :=
  let rad_sum := radius b1 + radius b2 in
  less_eq_ (squared_distance dim (center b1) (center b2)) (rad_sum * rad_sum) proper.
(** intersect.h 169-189, as above *)
Definition c_ball_ball (outer inner : ball T) (proper : bool) : bool :=
  let rad_diff := radius outer - radius inner in
  if less_ rad_diff n0 proper then false
  else less_eq_ (squared_distance dim (center outer) (center inner)) (rad_diff * rad_diff) proper.

(** intersect.h 193-213 *)
Definition i_seg_point (s : segment T) (p : point T) (proper : bool) : bool :=
  let v1 := vec_sub dim (end1 s) p in
  let v2 := vec_sub dim (end2 s) p in
  let proj := dot dim v1 v2 in
  if greater_ proj n0 proper then false
  else equal (proj * proj) (sqr_mag dim v1 * sqr_mag dim v2) neps.
(** intersect.h 193-213, as above *)
Definition c_point_seg (p : point T) (s : segment T) (proper : bool) : bool :=
  negb proper && same p (end1 s) && same p (end2 s).
(** intersect.h 215-251: None is the early return false *)
Definition seg_box_axis (s : segment T) (b : axisbox T) (proper : bool) (st : option (T * T)) (i : nat) : option (T * T) :=
  match st with
  | None => None
  | Some (mn, mx) =>
      let dist := (end2 s).[i] - (end1 s).[i] in
      if dist =? n0 then
        if less_ (end1 s).[i] (low b).[i] proper || greater_ (end1 s).[i] (high b).[i] proper then None else Some (mn, mx)
      else
        let lo := ((low b).[i] - (end1 s).[i]) / dist in
        let hi := ((high b).[i] - (end1 s).[i]) / dist in
        let (lo, hi) := if lo >? hi then (hi, lo) else (lo, hi) in
        Some (if lo >? mn then lo else mn, if hi <? mx then hi else mx)
  end.
(** intersect.h 215-251, as above *)
Definition i_seg_box (s : segment T) (b : axisbox T) (proper : bool) : bool :=
  match fold_left (seg_box_axis s b proper) (seq 0 dim) (Some (n0, n1)) with
  | None => false
  | Some (mn, mx) => less_eq_ mn mx proper
  end.
(** intersect.h 253-272: None is the early return false *)
Definition c_seg_box (s : segment T) (b : axisbox T) (proper : bool) : bool :=
  match fold_left (fun st i => match st with
                    | None => None
                    | Some got => if (low b).[i] =? (high b).[i] then Some got else if got : bool then None else Some true
                    end) (seq 0 dim) (Some false) with
  | None => false
  | Some got => i_seg_point s (low b) proper && (if got then i_seg_point s (high b) proper else true)
  end.
(** intersect.h 274-278 *)
Definition c_box_seg (b : axisbox T) (s : segment T) (proper : bool) : bool :=
  i_box_point b (end1 s) proper && i_box_point b (end2 s) proper.
(** intersect.h 280-316 *)
Definition i_seg_ball (s : segment T) (b : ball T) (proper : bool) : bool :=
  let line := vec_sub dim (end2 s) (end1 s) in
  let offset := vec_sub dim (center b) (end1 s) in
  let proj := dot dim line offset in
  if proj <=? n0 then i_ball_point b (end1 s) proper
  else
    let line_sqr := sqr_mag dim line in
    if proj >=? line_sqr then i_ball_point b (end2 s) proper
    else let perp_part := vec_sub dim offset (vec_scale dim line (proj / line_sqr)) in
         less_eq_ (sqr_mag dim perp_part) (radius b * radius b) proper.
(** intersect.h 280-316, as above *)
Definition c_ball_seg (b : ball T) (s : segment T) (proper : bool) : bool :=
  i_ball_point b (end1 s) proper && i_ball_point b (end2 s) proper.
(** intersect.h 280-316, as above *)
Definition c_seg_ball (s : segment T) (b : ball T) (proper : bool) : bool :=
  (radius b =? n0) && i_seg_point s (center b) proper.
(** intersect.h 318-364 *)
Definition i_seg_seg (s1 s2 : segment T) (proper : bool) : bool :=
  let v1 := vec_sub dim (end2 s1) (end1 s1) in
  let v2 := vec_sub dim (end2 s2) (end1 s2) in
  let deltav := vec_sub dim (end1 s2) (end1 s1) in
  let v1sqr := sqr_mag dim v1 in
  let v2sqr := sqr_mag dim v2 in
  let proj12 := dot dim v1 v2 in
  let proj1delta := dot dim v1 deltav in
  let proj2delta := dot dim v2 deltav in
  let denom := v1sqr * v2sqr - proj12 * proj12 in
  if (2 <? dim)%nat && negb (equal (v2sqr * proj1delta * proj1delta + v1sqr * proj2delta * proj2delta)
                                  (n2 * proj12 * proj1delta * proj2delta + sqr_mag dim deltav * denom) neps) then false
  else if denom >? n0 then
    let coord1 := (v2sqr * proj1delta - proj12 * proj2delta) / denom in
    let coord2 := - (v1sqr * proj2delta - proj12 * proj1delta) / denom in
    less_eq_ coord1 n0 proper && less_eq_ coord1 n1 proper && greater_eq_ coord2 n0 proper && greater_eq_ coord2 n1 proper
  else i_seg_point s1 (end1 s2) proper || i_seg_point s1 (end2 s2) proper
       || i_seg_point s2 (end1 s1) proper || i_seg_point s2 (end2 s1) proper
       || ((proper && negb (same (end1 s1) (end2 s1)))
           && ((same (end1 s1) (end1 s2) && same (end2 s1) (end2 s2))
               || (same (end1 s1) (end2 s2) && same (end2 s1) (end1 s2)))).
(** intersect.h 318-364, as above *)
Definition c_seg_seg (s1 s2 : segment T) (proper : bool) : bool :=
  i_seg_point s1 (end1 s2) proper && i_seg_point s1 (end2 s2) proper.

(** intersect.h 368-400 *)
Definition i_rb_point (r : rotbox T) (p : point T) (proper : bool) : bool :=
  let shift := prod_inv_vm dim (vec_sub dim p (corner0 r)) (orient r) in
  all_below dim (fun i =>
    if (rsize r).[i] <? n0
    then negb (less_ shift.[i] (rsize r).[i] proper || greater_ shift.[i] n0 proper)
    else negb (greater_ shift.[i] (rsize r).[i] proper || less_ shift.[i] n0 proper)).
(** intersect.h 368-400, as above *)
Definition c_point_rb (p : point T) (r : rotbox T) (proper : bool) : bool :=
  if proper then false
  else all_below dim (fun i => negb (negb ((rsize r).[i] =? n0))) && same p (corner0 r).
(** The box in its own frame, as built in intersect.h 410, 424, ...:
    AxisBox(corner0, corner0 + size) *)
Definition rb_own_box (r : rotbox T) : axisbox T := box_corners dim (corner0 r) (vec_add dim (corner0 r) (rsize r)) false.
(** corner0 + ProdInv(p - corner0, orient): intersect.h 425, 448, ... *)
Definition rb_own_point (r : rotbox T) (p : point T) : point T :=
  vec_add dim (corner0 r) (prod_inv_vm dim (vec_sub dim p (corner0 r)) (orient r)).
(** intersect.h 415-419 *)
Definition c_box_rb (b : axisbox T) (r : rotbox T) (proper : bool) : bool := c_box_box b (rb_bounding_box dim r) proper.
(** The axis box b as a RotBox in the frame of r: intersect.h 411-412, intersect.cpp 77 *)
Definition rb_own_of_box (r : rotbox T) (b : axisbox T) : rotbox T :=
  let m := rot_inverse dim (orient r) in
  mkRB (point_rotate dim (low b) m (corner0 r)) (vec_sub dim (high b) (low b)) m.
(** intersect.h 405-413 *)
Definition c_rb_box (r : rotbox T) (b : axisbox T) (proper : bool) : bool := c_box_rb (rb_own_box r) (rb_own_of_box r b) proper.
(** intersect.h 421-443 *)
Definition i_rb_ball (r : rotbox T) (b : ball T) (proper : bool) : bool :=
  i_ball_box (ball_make (rb_own_point r (center b)) (radius b)) (rb_own_box r) proper.
(** intersect.h 421-443, as above *)
Definition c_rb_ball (r : rotbox T) (b : ball T) (proper : bool) : bool :=
  c_box_ball (rb_own_box r) (ball_make (rb_own_point r (center b)) (radius b)) proper.
(** intersect.h 421-443, as above *)
Definition c_ball_rb (b : ball T) (r : rotbox T) (proper : bool) : bool :=
  c_ball_box (ball_make (rb_own_point r (center b)) (radius b)) (rb_own_box r) proper.
(** intersect.h 445-473 *)
Definition i_rb_seg (r : rotbox T) (s : segment T) (proper : bool) : bool :=
  i_seg_box (mkS (rb_own_point r (end1 s)) (rb_own_point r (end2 s))) (rb_own_box r) proper.
(** intersect.h 445-473, as above *)
Definition c_rb_seg (r : rotbox T) (s : segment T) (proper : bool) : bool :=
  c_box_seg (rb_own_box r) (mkS (rb_own_point r (end1 s)) (rb_own_point r (end2 s))) proper.
(** intersect.h 445-473, as above *)
Definition c_seg_rb (s : segment T) (r : rotbox T) (proper : bool) : bool :=
  c_seg_box (mkS (rb_own_point r (end1 s)) (rb_own_point r (end2 s))) (rb_own_box r) proper.
(** intersect.h 484-489 *)
Definition c_rb_rb (outer inner : rotbox T) (proper : bool) : outcome bool :=
  do r <- rb_rotate_point dim inner (rot_inverse dim (orient outer)) (corner0 outer);
  Ret (c_box_rb (rb_own_box outer) r proper).
(** intersect.cpp 67-80 (2D) and 121-133 (3D): the bounding boxes in both frames *)
Definition rb_box_faces (r : rotbox T) (b : axisbox T) (proper : bool) : bool :=
  i_box_box (rb_bounding_box dim r) b proper && i_box_box (rb_bounding_box dim (rb_own_of_box r b)) (rb_own_box r) proper.
End Intersect.

Section Intersect23.
Context {T} `{Num T}.
Open Scope num_scope.
Local Notation "v .[ i ]" := (at_ v i) (at level 2, i at level 200, left associativity).

(** intersect.cpp 67-80 *)
Definition i_rb_box2 (r : rotbox T) (b : axisbox T) (proper : bool) : bool := rb_box_faces 2 r b proper.

(** intersect.cpp 151-171: cross product of row i of the orientation and axis j; its
    validity flag is not used *)
Definition sat_axis (m : rotmatrix T) (i j : nat) : vector T :=
  mkC match j with
      | 0%nat => [n0; - elem m i 2; elem m i 1]
      | 1%nat => [elem m i 2; n0; - elem m i 0]
      | _ => [- elem m i 1; elem m i 0; n0]
      end false.
(** intersect.cpp 151-171, as above *)
Definition next3 (k : nat) : nat := match k with 0%nat => 1%nat | 1%nat => 2%nat | _ => 0%nat end.
(** intersect.cpp 191-217, 219-243: the projections of two edges, as (low, high) *)
Definition sat_range (val1 val2 : T) : T * T :=
  let (lo, hi) := if val1 >? n0 then (n0, val1) else (val1, n0) in
  if val2 >? n0 then (lo, hi + val2) else (lo + val2, hi).
(** One pair of edges: None is "separated" (return false), Some true is the early
    return true for parallel edges, Some false goes on. *)
Definition sat_edge (r : rotbox T) (b : axisbox T) (proper : bool) (i j : nat) : option bool :=
  let m := orient r in
  let b_size := vec_sub 3 (high b) (low b) in
  let sep := vec_sub 3 (low b) (corner0 r) in
  let axis := sat_axis m i j in
  if sqr_mag 3 axis <? neps * neps then Some true
  else
    let k := next3 j in
    let k' := next3 k in
    let (b_low, b_high) := sat_range (axis.[k] * b_size.[k]) (axis.[k'] * b_size.[k']) in
    let l := next3 i in
    let l' := next3 l in
    let (r_low, r_high) := sat_range (dot 3 (rot_row 3 m l) axis * (rsize r).[l]) (dot 3 (rot_row 3 m l') axis * (rsize r).[l']) in
    let dist := dot 3 sep axis in
    if greater_ (r_low - dist) b_high proper || less_ (r_high - dist) b_low proper then None else Some false.
(** intersect.cpp 141-249: the nine pairs in order *)
Fixpoint sat_edges (r : rotbox T) (b : axisbox T) (proper : bool) (l : list (nat * nat)) : bool :=
  match l with
  | [] => true
  | (i, j) :: l' =>
      match sat_edge r b proper i j with
      | None => false
      | Some true => true
      | Some false => sat_edges r b proper l'
      end
  end.
(** intersect.cpp 141-249, as above *)
Definition sat_pairs : list (nat * nat) := [(0, 0); (0, 1); (0, 2); (1, 0); (1, 1); (1, 2); (2, 0); (2, 1); (2, 2)]%nat.
(** intersect.cpp 141-249, as above *)
Definition i_rb_box3 (r : rotbox T) (b : axisbox T) (proper : bool) : bool :=
  if rb_box_faces 3 r b proper then sat_edges r b proper sat_pairs else false.

(** intersect.h 475-481 *)
Definition i_rb_rb2 (r1 r2 : rotbox T) (proper : bool) : outcome bool :=
  do r <- rb_rotate_point 2 r1 (rot_inverse 2 (orient r2)) (corner0 r2); Ret (i_rb_box2 r (rb_own_box 2 r2) proper).
(** intersect.h 475-481, as above *)
Definition i_rb_rb3 (r1 r2 : rotbox T) (proper : bool) : outcome bool :=
  do r <- rb_rotate_point 3 r1 (rot_inverse 3 (orient r2)) (corner0 r2); Ret (i_rb_box3 r (rb_own_box 3 r2) proper).
End Intersect23.
