(** Model of the shape classes AxisBox, Ball, Segment and RotBox: src/wfmath/axisbox.h,
    axisbox_funcs.h, ball.h, ball_funcs.h, ball.cpp, segment.h, segment_funcs.h,
    segment.cpp, rotbox.h, rotbox_funcs.h, rotbox.cpp. *)
From Coq Require Import ZArith NArith Bool List.
From Verif Require Import Base Scalar ConstModel VecModel RotModel QuatModel.
Import ListNotations.

(** axisbox.h 178 *)
Record axisbox (T : Type) := mkB { low : point T; high : point T }.
Arguments mkB {T} low high.
Arguments low {T} a.
Arguments high {T} a.
(** ball.h 178-179 *)
Record ball (T : Type) := mkBall { center : point T; radius : T }.
Arguments mkBall {T} center radius.
Arguments center {T} b.
Arguments radius {T} b.
(** segment.h 155 *)
Record segment (T : Type) := mkS { end1 : point T; end2 : point T }.
Arguments mkS {T} end1 end2.
Arguments end1 {T} s.
Arguments end2 {T} s.
(** rotbox.h 184-186 *)
Record rotbox (T : Type) := mkRB { corner0 : point T; rsize : vector T; orient : rotmatrix T }.
Arguments mkRB {T} corner0 rsize orient.
Arguments corner0 {T} r.
Arguments rsize {T} r.
Arguments orient {T} r.

Section Shapes.
Context {T} `{Num T}.
Open Scope num_scope.
Variable dim : nat.
Local Notation "v .[ i ]" := (at_ v i) (at level 2, i at level 200, left associativity).

(** const.h 243-249 FloatMax, FloatMin: ConstModel.float_max, float_min *)

(** ** Points as shapes *)
(** point.h 177-190 with the default argument (identity matrix) is [point_to_parent]
    with [rot_identity]. axisbox_funcs.h 193-202: relative to a box *)
Definition point_to_parent_box (x : point T) (b : axisbox T) : point T :=
  vec_add dim (low b) (vec_sub dim x (vec_zero dim)).
(** point.h 177-190, as above *)
Definition point_to_local_box (x : point T) (b : axisbox T) : point T :=
  vec_add dim (vec_zero dim) (vec_sub dim x (low b)).
(** rotbox_funcs.h 102-112 *)
Definition point_to_parent_rb (x : point T) (r : rotbox T) : point T :=
  vec_add dim (corner0 r) (prod_vm dim (vec_sub dim x (vec_zero dim)) (orient r)).
(** rotbox_funcs.h 102-112, as above *)
Definition point_to_local_rb (x : point T) (r : rotbox T) : point T :=
  vec_add dim (vec_zero dim) (prod_mv dim (orient r) (vec_sub dim x (corner0 r))).

(** ** AxisBox *)
(** axisbox.h 62 *)
Definition box_default : axisbox T := mkB (coords_default dim) (coords_default dim).
(** axisbox.h 89 *)
Definition box_valid (b : axisbox T) : bool := valid (low b) && valid (high b).
(** axisbox.h 180-184 *)
Definition box_equal (a b : axisbox T) (epsilon : T) : bool :=
  vec_equal dim (low a) (low b) epsilon && vec_equal dim (high a) (high b) epsilon.
(** axisbox_funcs.h 71-96 setCorners, axisbox.h 64-66 constructor *)
Definition box_corners (p1 p2 : point T) (ordered : bool) : axisbox T :=
  if ordered then mkB p1 p2
  else mkB (mkC (tab dim (fun i => if p1.[i] >? p2.[i] then p2.[i] else p1.[i])) true)
           (mkC (tab dim (fun i => if p1.[i] >? p2.[i] then p1.[i] else p2.[i])) true).
(** axisbox_funcs.h 98-114; 1 << dim does not overflow for the dimensions in use *)
Definition box_corner (b : axisbox T) (i : N) : point T :=
  if (i <? 1)%N then low b
  else if (2 ^ N.of_nat dim - 1 <=? i)%N then high b
  else mkC (tab dim (fun j => if N.testbit i (N.of_nat j) then (high b).[j] else (low b).[j])) (valid (low b) && valid (high b)).
(** axisbox.h 95 *)
Definition box_center (b : axisbox T) : point T := midpoint dim (low b) (high b) nhalf.
(** axisbox.h 120-125 *)
Definition box_shift (b : axisbox T) (v : vector T) : axisbox T := mkB (vec_add dim (low b) v) (vec_add dim (high b) v).
(** axisbox.h 120-125, as above *)
Definition box_move_corner (b : axisbox T) (p : point T) (corner : N) : axisbox T := box_shift b (vec_sub dim p (box_corner b corner)).
(** axisbox.h 120-125, as above *)
Definition box_move_center (b : axisbox T) (p : point T) : axisbox T := box_shift b (vec_sub dim p (box_center b)).
(** axisbox.h 135-147 *)
Definition box_to_parent (b : axisbox T) (origin : point T) : axisbox T :=
  box_corners (point_to_parent dim (low b) origin (rot_identity dim)) (point_to_parent dim (high b) origin (rot_identity dim)) true.
(** axisbox.h 135-147, as above *)
Definition box_to_local (b : axisbox T) (origin : point T) : axisbox T :=
  box_corners (point_to_local dim (low b) origin (rot_identity dim)) (point_to_local dim (high b) origin (rot_identity dim)) true.
(** axisbox.h 135-147, as above *)
Definition box_to_parent_box (b c : axisbox T) : axisbox T := box_corners (point_to_parent_box (low b) c) (point_to_parent_box (high b) c) true.
(** axisbox.h 135-147, as above *)
Definition box_to_local_box (b c : axisbox T) : axisbox T := box_corners (point_to_local_box (low b) c) (point_to_local_box (high b) c) true.

(** axisbox_funcs.h 39-53 Intersection: the loop stops at the first empty axis, leaving
    the later coordinates and both flags of [out] as they were. *)
Fixpoint intersection_loop (a1 a2 : axisbox T) (i k : nat) (lo hi : list T) : bool * list T * list T :=
  match k with
  | O => (true, lo, hi)
  | S k' =>
      let l := float_max (low a1).[i] (low a2).[i] in
      let h := float_min (high a1).[i] (high a2).[i] in
      let lo' := upd lo i l in
      let hi' := upd hi i h in
      if l >? h then (false, lo', hi') else intersection_loop a1 a2 (S i) k' lo' hi'
  end.
(** axisbox_funcs.h 39-53, as above *)
Definition box_intersection (a1 a2 out : axisbox T) : bool * axisbox T :=
  let '(ok, lo, hi) := intersection_loop a1 a2 0 dim (el (low out)) (el (high out)) in
  if ok then (true, mkB (mkC lo (valid (low a1) && valid (low a2))) (mkC hi (valid (high a1) && valid (high a2))))
  else (false, mkB (mkC lo (valid (low out))) (mkC hi (valid (high out)))).
(** axisbox_funcs.h 55-69 *)
Definition box_union (a1 a2 : axisbox T) : axisbox T :=
  mkB (mkC (tab dim (fun i => float_min (low a1).[i] (low a2).[i])) (valid (low a1) && valid (low a2)))
      (mkC (tab dim (fun i => float_max (high a1).[i] (high a2).[i])) (valid (high a1) && valid (high a2))).
(** axisbox_funcs.h 129-155 BoundingBox of boxes *)
Definition bounding_boxes (c : list (axisbox T)) : axisbox T :=
  match c with
  | [] => box_default
  | b :: rest =>
      let step (st : point T * point T) (x : axisbox T) :=
        let (lo, hi) := st in
        (mkC (tab dim (fun j => float_min lo.[j] (low x).[j])) (valid lo && valid (low x)),
         mkC (tab dim (fun j => float_max hi.[j] (high x).[j])) (valid hi && valid (high x))) in
      let (lo, hi) := fold_left step rest (low b, high b) in box_corners lo hi true
  end.
(** axisbox_funcs.h 157-181 BoundingBox of points *)
Definition bounding_points (c : list (point T)) : axisbox T :=
  match c with
  | [] => box_default
  | p :: rest =>
      let step (st : point T * point T) (x : point T) :=
        let (lo, hi) := st in
        (mkC (tab dim (fun j => float_min lo.[j] x.[j])) (valid lo && valid x),
         mkC (tab dim (fun j => float_max hi.[j] x.[j])) (valid hi && valid x)) in
      let (lo, hi) := fold_left step rest (p, p) in box_corners lo hi true
  end.
(** axisbox_funcs.h 186-190 *)
Definition point_bounding_box (p : point T) : axisbox T := box_corners p p true.

(** ** Ball *)
(** ball.h 64, 66-67 *)
Definition ball_default : ball T := mkBall (coords_default dim) n0.
(** ball.h 64, 66-67, as above *)
Definition ball_make (c : point T) (r : T) : ball T := mkBall (if r <? n0 then mkC (el c) false else c) r.
(** ball.h 91 *)
Definition ball_valid (b : ball T) : bool := valid (center b).
(** ball.h 184-188 *)
Definition ball_equal (a b : ball T) (epsilon : T) : bool :=
  vec_equal dim (center a) (center b) epsilon && equal (radius a) (radius b) epsilon.
(** ball.h 113-120, ball.cpp: corner moves and rotations about a corner or the centre
    change nothing *)
Definition ball_shift (b : ball T) (v : vector T) : ball T := mkBall (vec_add dim (center b) v) (radius b).
(** ball.h 113-120, as above *)
Definition ball_move_center (b : ball T) (p : point T) : ball T := mkBall p (radius b).
(** ball.h 113-120, as above *)
Definition ball_rotate_point (b : ball T) (m : rotmatrix T) (p : point T) : ball T := mkBall (point_rotate dim (center b) m p) (radius b).
(** ball.h 113-120, as above *)
Definition ball_rotate_point_q (b : ball T) (q : quat T) (p : point T) : ball T := mkBall (point_rotate_q (center b) q p) (radius b).
(** ball.h 133-157, ball.cpp *)
Definition ball_to_parent (b : ball T) (o : point T) (m : rotmatrix T) : ball T := ball_make (point_to_parent dim (center b) o m) (radius b).
(** ball.h 133-157, as above *)
Definition ball_to_local (b : ball T) (o : point T) (m : rotmatrix T) : ball T := ball_make (point_to_local dim (center b) o m) (radius b).
(** ball.h 133-157, as above *)
Definition ball_to_parent_q (b : ball T) (o : point T) (q : quat T) : ball T := ball_make (point_to_parent_q (center b) o q) (radius b).
(** ball.h 133-157, as above *)
Definition ball_to_local_q (b : ball T) (o : point T) (q : quat T) : ball T := ball_make (point_to_local_q (center b) o q) (radius b).
(** ball_funcs.h 38-54 *)
Definition ball_bounding_box (b : ball T) : axisbox T :=
  box_corners (mkC (tab dim (fun i => (center b).[i] - radius b)) (valid (center b)))
              (mkC (tab dim (fun i => (center b).[i] + radius b)) (valid (center b))) true.
(** SloppyDistance in the dimensions it exists for: point.h 56-58 *)
Definition sloppy_dist (p q : point T) : T :=
  match dim with
  | 1%nat => sloppy_mag1 (vec_sub 1 p q)
  | 2%nat => sloppy_distance2 p q
  | _ => sloppy_distance3 p q
  end.
(** axisbox_funcs.h 116-126 *)
Definition box_bounding_sphere (b : axisbox T) : ball T := ball_make (box_center b) (distance dim (low b) (high b) / n2).
(** axisbox_funcs.h 116-126, as above *)
Definition box_bounding_sphere_sloppy (b : axisbox T) : ball T := ball_make (box_center b) (sloppy_dist (low b) (high b) / n2).
(** ball_funcs.h 168-178 *)
Definition point_bounding_sphere (p : point T) : ball T := ball_make p n0.

(** ball_funcs.h 91-163 BoundingSphereSloppy.  Iterators are positions in the list.
    [ext] holds, per axis, min, max and the positions where they were found. *)
Definition ritter_scan (c : list (point T)) : list (T * nat * (T * nat)) :=
  match c with
  | [] => []
  | p :: rest =>
      snd (fold_left (fun (st : nat * list (T * nat * (T * nat))) (x : point T) =>
             let (pos, ext) := st in
             (S pos, tab dim (fun j =>
                let '((mn, mnp), (mx, mxp)) := nth j ext ((n0, 0%nat), (n0, 0%nat)) in
                (if mn >? x.[j] then (x.[j], pos) else (mn, mnp),
                 if mx <? x.[j] then (x.[j], pos) else (mx, mxp)))))
           rest (1%nat, tab dim (fun j => ((p.[j], 0%nat), (p.[j], 0%nat)))))
  end.
(** ball_funcs.h 129-138: the axis with the first largest span *)
Definition ritter_axis (ext : list (T * nat * (T * nat))) : option nat :=
  snd (fold_left (fun (st : T * option nat) j =>
         let (span, d) := st in
         let '((mn, _), (mx, _)) := nth j ext ((n0, 0%nat), (n0, 0%nat)) in
         if mx - mn >? span then (mx - mn, Some j) else (span, d))
       (seq 0 dim) (- n1, None)).
(** ball_funcs.h 143-160 *)
Fixpoint ritter_grow (c : list (point T)) (pos skip1 skip2 : nat) (ctr : point T) (dist : T) : outcome (point T * T) :=
  match c with
  | [] => Ret (ctr, dist)
  | x :: rest =>
      if Nat.eqb pos skip1 || Nat.eqb pos skip2 then ritter_grow rest (S pos) skip1 skip2 ctr dist
      else
        let new_dist := sloppy_dist x ctr in
        if new_dist >? dist then
          let delta := (new_dist - dist) / n2 in
          let ctr' := vec_add dim ctr (vec_div dim (vec_scale dim (vec_sub dim x ctr) delta) new_dist) in
          let dist' := dist + delta in
          oassert (squared_distance dim x ctr' <=? dist' * dist') (ritter_grow rest (S pos) skip1 skip2 ctr' dist')
        else ritter_grow rest (S pos) skip1 skip2 ctr dist
  end.
(** ball_funcs.h 91-163 *)
Definition bounding_sphere_sloppy (c : list (point T)) : outcome (ball T) :=
  match c with
  | [] => Ret ball_default
  | _ =>
      let ext := ritter_scan c in
      match ritter_axis ext with
      | None => AssertFail
      | Some d =>
          let '((_, i), (_, j)) := nth d ext ((n0, 0%nat), (n0, 0%nat)) in
          let pi := nth i c (coords_default dim) in
          let pj := nth j c (coords_default dim) in
          let ctr := midpoint dim pi pj nhalf in
          do r <- ritter_grow c 0 i j ctr (sloppy_dist pi ctr);
          Ret (ball_make (mkC (el (fst r)) (forallb valid c)) (snd r))
      end
  end.

(** ** Segment *)
(** segment.h 68 *)
Definition seg_valid (s : segment T) : bool := valid (end1 s) && valid (end2 s).
(** segment.h 160-165 *)
Definition seg_equal (a b : segment T) (epsilon : T) : bool :=
  vec_equal dim (end1 a) (end1 b) epsilon && vec_equal dim (end2 a) (end2 b) epsilon.
(** segment.h 73-78 *)
Definition seg_corner (s : segment T) (i : N) : point T := if (i =? 0)%N then end1 s else end2 s.
(** segment.h 73-78, as above *)
Definition seg_center (s : segment T) : point T := midpoint dim (end1 s) (end2 s) nhalf.
(** segment.h 82-86, segment_funcs.h 34-52 *)
Definition seg_shift (s : segment T) (v : vector T) : segment T := mkS (vec_add dim (end1 s) v) (vec_add dim (end2 s) v).
(** segment.h 82-86, as above *)
Definition seg_move_center (s : segment T) (p : point T) : segment T := seg_shift s (vec_sub dim p (seg_center s)).
(** segment.h 82-86, as above *)
Definition seg_move_corner (s : segment T) (p : point T) (corner : N) : outcome (segment T) :=
  oassert ((corner =? 0)%N || (corner =? 1)%N)
   (let diff := vec_sub dim (end2 s) (end1 s) in
    Ret (if (corner =? 0)%N then mkS p (vec_add dim p diff) else mkS (vec_sub dim p diff) p)).
(** segment.h 89-92, segment_funcs.h 54-78, segment.cpp 40-52 *)
Definition seg_rotate_point (s : segment T) (m : rotmatrix T) (p : point T) : segment T :=
  mkS (point_rotate dim (end1 s) m p) (point_rotate dim (end2 s) m p).
(** segment.h 89-92, as above *)
Definition seg_rotate_center (s : segment T) (m : rotmatrix T) : segment T := seg_rotate_point s m (seg_center s).
(** segment.h 89-92, as above *)
Definition seg_rotate_corner (s : segment T) (m : rotmatrix T) (corner : N) : outcome (segment T) :=
  oassert ((corner =? 0)%N || (corner =? 1)%N)
   (Ret (if (corner =? 0)%N then mkS (end1 s) (point_rotate dim (end2 s) m (end1 s))
         else mkS (point_rotate dim (end1 s) m (end2 s)) (end2 s))).
(** segment.h 89-92, as above *)
Definition seg_rotate_point_q (s : segment T) (q : quat T) (p : point T) : segment T :=
  mkS (point_rotate_q (end1 s) q p) (point_rotate_q (end2 s) q p).
(** segment.h 89-92, as above *)
Definition seg_rotate_center_q (s : segment T) (q : quat T) : segment T := seg_rotate_point_q s q (seg_center s).
(** segment.h 89-92, as above *)
Definition seg_rotate_corner_q (s : segment T) (q : quat T) (corner : N) : outcome (segment T) :=
  oassert ((corner =? 0)%N || (corner =? 1)%N)
   (Ret (if (corner =? 0)%N then mkS (end1 s) (point_rotate_q (end2 s) q (end1 s))
         else mkS (point_rotate_q (end1 s) q (end2 s)) (end2 s))).
(** segment.h 101-105 *)
Definition seg_bounding_box (s : segment T) : axisbox T := box_corners (end1 s) (end2 s) false.
(** segment.h 101-105, as above *)
Definition seg_bounding_sphere (s : segment T) : ball T := ball_make (seg_center s) (distance dim (end1 s) (end2 s) / n2).
(** segment.h 101-105, as above *)
Definition seg_bounding_sphere_sloppy (s : segment T) : ball T := ball_make (seg_center s) (sloppy_dist (end1 s) (end2 s) / n2).
(** segment.h 107-132, segment.cpp 54-66 *)
Definition seg_to_parent (s : segment T) (o : point T) (m : rotmatrix T) : segment T := mkS (point_to_parent dim (end1 s) o m) (point_to_parent dim (end2 s) o m).
(** segment.h 107-132, as above *)
Definition seg_to_local (s : segment T) (o : point T) (m : rotmatrix T) : segment T := mkS (point_to_local dim (end1 s) o m) (point_to_local dim (end2 s) o m).
(** segment.h 107-132, as above *)
Definition seg_to_parent_q (s : segment T) (o : point T) (q : quat T) : segment T := mkS (point_to_parent_q (end1 s) o q) (point_to_parent_q (end2 s) o q).
(** segment.h 107-132, as above *)
Definition seg_to_local_q (s : segment T) (o : point T) (q : quat T) : segment T := mkS (point_to_local_q (end1 s) o q) (point_to_local_q (end2 s) o q).

(** ** RotBox *)
(** rotbox.h 83-84 *)
Definition rb_valid (r : rotbox T) : bool := valid (corner0 r) && valid (rsize r) && mvalid (orient r).
(** rotbox.h 189-195 *)
Definition rb_equal (a b : rotbox T) (epsilon : T) : outcome bool :=
  if vec_equal dim (corner0 a) (corner0 b) epsilon && vec_equal dim (rsize a) (rsize b) epsilon
  then rot_equal dim (orient a) (orient b) epsilon else Ret false.
(** rotbox_funcs.h 40-56 *)
Definition rb_corner (r : rotbox T) (i : N) : outcome (point T) :=
  oassert (i <? 2 ^ N.of_nat dim)%N
   (Ret (if (i =? 0)%N then corner0 r
         else vec_add dim (corner0 r)
                (prod_vm dim (mkC (tab dim (fun j => if N.testbit i (N.of_nat j) then (rsize r).[j] else n0)) (valid (rsize r))) (orient r)))).
(** rotbox.h 90 *)
Definition rb_center (r : rotbox T) : point T := vec_add dim (corner0 r) (prod_vm dim (vec_div dim (rsize r) n2) (orient r)).
(** rotbox.h 107-119, rotbox.cpp 38-51 *)
Definition rb_shift (r : rotbox T) (v : vector T) : rotbox T := mkRB (vec_add dim (corner0 r) v) (rsize r) (orient r).
(** rotbox.h 107-119, as above *)
Definition rb_move_corner (r : rotbox T) (p : point T) (corner : N) : outcome (rotbox T) :=
  do c <- rb_corner r corner; Ret (rb_shift r (vec_sub dim p c)).
(** rotbox.h 107-119, as above *)
Definition rb_move_center (r : rotbox T) (p : point T) : rotbox T := rb_shift r (vec_sub dim p (rb_center r)).
(** rotbox.h 107-119, as above *)
Definition rb_rotate_point (r : rotbox T) (m : rotmatrix T) (p : point T) : outcome (rotbox T) :=
  do o <- prod dim (orient r) m; Ret (mkRB (point_rotate dim (corner0 r) m p) (rsize r) o).
(** rotbox.h 107-119, as above *)
Definition rb_rotate_corner (r : rotbox T) (m : rotmatrix T) (corner : N) : outcome (rotbox T) :=
  do c <- rb_corner r corner; rb_rotate_point r m c.
(** rotbox.h 107-119, as above *)
Definition rb_rotate_center (r : rotbox T) (m : rotmatrix T) : outcome (rotbox T) := rb_rotate_point r m (rb_center r).
(** rotbox.h 107-119, as above *)
Definition rb_rotate_point_q (r : rotbox T) (q : quat T) (p : point T) : outcome (rotbox T) :=
  do o <- rot_rotate_q (orient r) q; Ret (mkRB (point_rotate_q (corner0 r) q p) (rsize r) o).
(** rotbox.h 107-119, as above *)
Definition rb_rotate_corner_q (r : rotbox T) (q : quat T) (corner : N) : outcome (rotbox T) :=
  do c <- rb_corner r corner; rb_rotate_point_q r q c.
(** rotbox.h 107-119, as above *)
Definition rb_rotate_center_q (r : rotbox T) (q : quat T) : outcome (rotbox T) := rb_rotate_point_q r q (rb_center r).
(** rotbox_funcs.h 58-97 *)
Definition rb_bounding_box (r : rotbox T) : axisbox T :=
  let mm i := fold_left (fun (st : T * T) j =>
                let value := elem (orient r) j i * (rsize r).[j] in
                if value <? n0 then (fst st + value, snd st) else (fst st, snd st + value))
              (seq 0 dim) ((corner0 r).[i], (corner0 r).[i]) in
  box_corners (mkC (tab dim (fun i => fst (mm i))) (rb_valid r)) (mkC (tab dim (fun i => snd (mm i))) (rb_valid r)) true.
(** rotbox.h 128-131; the sloppy version uses sqrMag *)
Definition rb_bounding_sphere (r : rotbox T) : ball T := ball_make (rb_center r) (mag dim (rsize r) / n2).
(** rotbox.h 128-131, as above *)
Definition rb_bounding_sphere_sloppy (r : rotbox T) : ball T := ball_make (rb_center r) (sqr_mag dim (rsize r) / n2).
(** rotbox.h 133-158, rotbox.cpp 53-65 *)
Definition rb_to_parent (r : rotbox T) (o : point T) (m : rotmatrix T) : outcome (rotbox T) :=
  do q <- prod dim (orient r) m; Ret (mkRB (point_to_parent dim (corner0 r) o m) (rsize r) q).
(** rotbox.h 133-158, as above *)
Definition rb_to_local (r : rotbox T) (o : point T) (m : rotmatrix T) : outcome (rotbox T) :=
  do q <- prod dim m (orient r); Ret (mkRB (point_to_local dim (corner0 r) o m) (rsize r) q).
(** rotbox.h 133-158, as above *)
Definition rb_to_parent_rb (r c : rotbox T) : outcome (rotbox T) :=
  do q <- prod dim (orient r) (orient c); Ret (mkRB (point_to_parent_rb (corner0 r) c) (rsize r) q).
(** rotbox.h 133-158, as above *)
Definition rb_to_local_rb (r c : rotbox T) : outcome (rotbox T) :=
  do q <- prod dim (orient c) (orient r); Ret (mkRB (point_to_local_rb (corner0 r) c) (rsize r) q).
(** rotbox.h 133-158, as above *)
Definition rb_to_parent_q (r : rotbox T) (o : point T) (q : quat T) : outcome (rotbox T) :=
  do m <- rot_rotate_q (orient r) q; Ret (mkRB (point_to_parent_q (corner0 r) o q) (rsize r) m).
(** rotbox.h 133-158, as above *)
Definition rb_to_local_q (r : rotbox T) (o : point T) (q : quat T) : outcome (rotbox T) :=
  do m <- rot_rotate_q (orient r) (quat_inverse q); Ret (mkRB (point_to_local_q (corner0 r) o q) (rsize r) m).
End Shapes.
