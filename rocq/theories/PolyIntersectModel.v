(** Model of Intersect and Contains for Polygon<2> and Polygon<dim>:
    src/wfmath/polygon_intersect.cpp.  Polygon against polygon in space and a polygon in space
    containing a box are in PolyPolyModel. *)
From Coq Require Import ZArith NArith Bool List.
From Verif Require Import Base Scalar ConstModel VecModel RotModel QuatModel ShapeModel IntersectModel PolyModel.
Import ListNotations.

(** ** The plane *)
Section Flat.
Context {T} `{Num T}.
Open Scope num_scope.
Local Notation "v .[ i ]" := (at_ v i) (at level 2, i at level 200, left associativity).

(** Every corner with the one before it, the last before the first: the loop
    "for (i = begin, j = end - 1; i != end; j = i++)" visits the pairs (i, j). *)
Fixpoint edges_from (prev : point T) (l : corners T) : list (point T * point T) :=
  match l with
  | [] => []
  | i :: rest => (i, prev) :: edges_from i rest
  end.
(** the loop of polygon_intersect.cpp 1196-1221 *)
Definition edges (l : corners T) : list (point T * point T) := edges_from (last l (coords_default 2)) l.
(** The loop "endpoint(0) = back(); next_end = 1; for (i) { endpoint(next_end) = i; ...;
    next_end = next_end ? 0 : 1; }" visits these segments. *)
Fixpoint chain_from (e0 e1 : point T) (next_end : bool) (l : corners T) : list (segment T) :=
  match l with
  | [] => []
  | i :: rest => let (e0, e1) := if next_end then (e0, i) else (i, e1) in mkS e0 e1 :: chain_from e0 e1 (negb next_end) rest
  end.
(** the loop of polygon_intersect.cpp 1404-1454 and 378-390 *)
Definition chain (l : corners T) : list (segment T) := chain_from (last l (coords_default 2)) (coords_default 2) true l.

(** polygon_intersect.cpp 1203-1205 and the like *)
Definition between (a y b : T) : bool := ((a <=? y) && (y <? b)) || ((b <=? y) && (y <? a)).
(** polygon_intersect.cpp 1196-1221: hit is the running parity *)
Fixpoint pg2_point_loop (p : point T) (proper : bool) (es : list (point T * point T)) (hit : bool) : bool :=
  match es with
  | [] => hit
  | (i, j) :: rest =>
      if negb (between i.[1] p.[1] j.[1]) then pg2_point_loop p proper rest hit
      else
        let x_intersect := i.[0] + (j.[0] - i.[0]) * (p.[1] - i.[1]) / (j.[1] - i.[1]) in
        if equal p.[0] x_intersect neps then negb proper
        else pg2_point_loop p proper rest (if p.[0] <? x_intersect then negb hit else hit)
  end.
(** end - 1 of an empty vector is undefined *)
Definition i_pg2_point (l : corners T) (p : point T) (proper : bool) : outcome bool :=
  match l with [] => Undef | _ => Ret (pg2_point_loop p proper (edges l) false) end.
(** polygon_intersect.cpp 1223-1234 *)
Definition c_point_pg2 (p : point T) (l : corners T) (proper : bool) : bool :=
  if proper then Nat.eqb (length l) 0 else forallb (fun q => same 2 p q) l.

(** One of the four edge tests of polygon_intersect.cpp 1236-1302 and 1569-1660: lo and hi bound the side
    of the box, cut is where the edge meets its line.  Some b is "return b". *)
Definition box_cut (lo hi cut : T) (proper : bool) : option bool :=
  if equal lo cut neps || equal hi cut neps then Some (negb proper)
  else if (lo <? cut) && (hi >? cut) then Some true else None.
(** The same test in Contains, 1304-1392 and 1662-1772 *)
Definition box_cut_c (lo hi cut : T) (proper : bool) : option bool :=
  let on_corner := equal lo cut neps || equal hi cut neps in
  if on_corner && proper then Some false
  else if negb on_corner && (lo <? cut) && (hi >? cut) then Some false else None.
(** the first early return of two, polygon_intersect.cpp 1236-1392 *)
Definition orb_ (a b : option bool) : option bool := match a with Some x => Some x | None => b end.
(** polygon_intersect.cpp 1236-1302 *)
Fixpoint pg2_box_loop (lo hi : point T) (proper : bool) (es : list (point T * point T)) (hit : bool) : bool :=
  match es with
  | [] => hit
  | (i, j) :: rest =>
      let xdiff := j.[0] - i.[0] in
      let ydiff := j.[1] - i.[1] in
      let x_at y := i.[0] + (y - i.[1]) * xdiff / ydiff in
      let y_at x := i.[1] + (x - i.[0]) * ydiff / xdiff in
      let low_v := between i.[1] lo.[1] j.[1] in
      let low_h := between i.[0] lo.[0] j.[0] in
      let high_v := between i.[1] hi.[1] j.[1] in
      let high_h := between i.[0] hi.[0] j.[0] in
      match orb_ (if low_v then box_cut lo.[0] hi.[0] (x_at lo.[1]) proper else None)
           (orb_ (if low_h then box_cut lo.[1] hi.[1] (y_at lo.[0]) proper else None)
           (orb_ (if high_v then box_cut lo.[0] hi.[0] (x_at hi.[1]) proper else None)
                 (if high_h then box_cut lo.[1] hi.[1] (y_at hi.[0]) proper else None))) with
      | Some b => b
      | None => pg2_box_loop lo hi proper rest (if low_v && (lo.[0] <? x_at lo.[1]) then negb hit else hit)
      end
  end.
(** polygon_intersect.cpp 1304-1392 *)
Fixpoint pg2_box_loop_c (lo hi : point T) (proper : bool) (es : list (point T * point T)) (hit : bool) : bool :=
  match es with
  | [] => hit
  | (i, j) :: rest =>
      let xdiff := j.[0] - i.[0] in
      let ydiff := j.[1] - i.[1] in
      let x_at y := i.[0] + (y - i.[1]) * xdiff / ydiff in
      let y_at x := i.[1] + (x - i.[0]) * ydiff / xdiff in
      let low_v := between i.[1] lo.[1] j.[1] in
      let low_h := between i.[0] lo.[0] j.[0] in
      let high_v := between i.[1] hi.[1] j.[1] in
      let high_h := between i.[0] hi.[0] j.[0] in
      match orb_ (if low_v then box_cut_c lo.[0] hi.[0] (x_at lo.[1]) proper else None)
           (orb_ (if low_h then box_cut_c lo.[1] hi.[1] (y_at lo.[0]) proper else None)
           (orb_ (if high_v then box_cut_c lo.[0] hi.[0] (x_at hi.[1]) proper else None)
                 (if high_h then box_cut_c lo.[1] hi.[1] (y_at hi.[0]) proper else None))) with
      | Some b => b
      | None =>
          let cut := x_at lo.[1] in
          pg2_box_loop_c lo hi proper rest
            (if low_v && negb (equal lo.[0] cut neps || equal hi.[0] cut neps) && (lo.[0] <? cut) then negb hit else hit)
      end
  end.
(** polygon_intersect.cpp 1236-1402 *)
Definition i_pg2_box (l : corners T) (b : axisbox T) (proper : bool) : outcome bool :=
  match l with [] => Undef | _ => Ret (pg2_box_loop (low b) (high b) proper (edges l) false) end.
(** polygon_intersect.cpp 1236-1402, as above *)
Definition c_pg2_box (l : corners T) (b : axisbox T) (proper : bool) : outcome bool :=
  match l with [] => Undef | _ => Ret (pg2_box_loop_c (low b) (high b) proper (edges l) false) end.
(** polygon_intersect.cpp 1236-1402, as above *)
Definition c_box_pg2 (b : axisbox T) (l : corners T) (proper : bool) : bool := forallb (fun q => i_box_point 2 b q proper) l.

(** polygon_intersect.cpp 1404-1454.  On an empty polygon the call of Contains is already undefined. *)
Definition i_pg2_ball (l : corners T) (b : ball T) (proper : bool) : outcome bool :=
  do c <- i_pg2_point l (center b) proper;
  Ret (c || existsb (fun s => i_seg_ball 2 s b proper) (chain l)).
(** polygon_intersect.cpp 1404-1454, as above *)
Definition c_pg2_ball (l : corners T) (b : ball T) (proper : bool) : outcome bool :=
  do c <- i_pg2_point l (center b) proper;
  Ret (c && negb (existsb (fun s => i_seg_ball 2 s b (negb proper)) (chain l))).
(** polygon_intersect.cpp 1404-1454, as above *)
Definition c_ball_pg2 (b : ball T) (l : corners T) (proper : bool) : bool :=
  forallb (fun q => negb (greater_ (squared_distance 2 (center b) q) (radius b * radius b) proper)) l.

(** polygon_intersect.cpp 1456-1477, 1559-1567 *)
Definition i_pg2_seg (l : corners T) (s : segment T) (proper : bool) : outcome bool :=
  do c <- i_pg2_point l (end1 s) proper;
  Ret (c || existsb (fun s2 => i_seg_seg 2 s s2 proper) (chain l)).
(** polygon_intersect.cpp 1456-1477, 1559-1567, as above *)
Definition c_seg_pg2 (s : segment T) (l : corners T) (proper : bool) : bool := forallb (fun q => i_seg_point 2 s q proper) l.
(** polygon_intersect.cpp 1479-1557.  prev_first says that endpoint(0) holds the previous corner.  At 1506
    the corner after the last one is read when that one lies on the segment: undefined. *)
Fixpoint pg2_seg_loop (s : segment T) (proper : bool) (prev : point T) (prev_first : bool) (l : corners T) (hit : bool) : outcome bool :=
  match l with
  | [] => Ret (proper || hit)
  | i :: rest =>
      let s2 := if prev_first then mkS prev i else mkS i prev in
      if i_seg_seg 2 s2 s (negb proper) then Ret false
      else if proper then pg2_seg_loop s proper i (negb prev_first) rest hit
      else
        let check_point (_ : unit) :=
          if negb (between i.[1] (end1 s).[1] prev.[1]) then pg2_seg_loop s proper i (negb prev_first) rest hit
          else
            let x_intersect := (end1 s2).[0] + ((end2 s2).[0] - (end1 s2).[0]) * ((end1 s).[1] - (end1 s2).[1]) / ((end2 s2).[1] - (end1 s2).[1]) in
            if equal (end1 s).[0] x_intersect neps then
              if same 2 prev (end1 s) then pg2_seg_loop s proper i (negb prev_first) rest hit
              else
                oassert (negb (same 2 i (end1 s)))
                 (let poly_edge := if (end1 s2).[1] <? (end2 s2).[1] then vec_sub 2 (end2 s2) (end1 s2) else vec_sub 2 (end1 s2) (end2 s2) in
                  let seg := vec_sub 2 (end2 s) (end1 s) in
                  pg2_seg_loop s proper i (negb prev_first) rest (if cross2 seg poly_edge <? n0 then negb hit else hit))
            else pg2_seg_loop s proper i (negb prev_first) rest (if (end1 s).[0] <? x_intersect then negb hit else hit) in
        if i_seg_point 2 s i false && negb (same 2 i (end2 s)) then
          match rest with
          | [] => Undef
          | nxt :: _ =>
              let seg := vec_sub 2 (end2 s) (end1 s) in
              let edge1 := vec_sub 2 i prev in
              let edge2 := vec_sub 2 i nxt in
              let c1 := cross2 seg edge1 in
              let c2 := cross2 seg edge2 in
              if c1 * c2 <? n0 then
                if same 2 i (end1 s) then
                  pg2_seg_loop s proper i (negb prev_first) rest
                    (if (edge1.[1] * edge2.[1] >? n0) || ((if edge1.[1] >? n0 then c1 else c2) <? n0) then negb hit else hit)
                else Ret false
              else check_point tt
          end
        else check_point tt
  end.
(** polygon_intersect.cpp 1479-1557, as above *)
Definition c_pg2_seg (l : corners T) (s : segment T) (proper : bool) : outcome bool :=
  do c <- (if proper then i_pg2_point l (end1 s) true else Ret true);
  if c then
    match l with
    | [] => Undef
    | _ => pg2_seg_loop s proper (last l (coords_default 2)) true l false
    end
  else Ret false.

(** polygon_intersect.cpp 1571-1582: the box in its own frame *)
Definition rb_low2 (r : rotbox T) : point T :=
  mkC (tab 2 (fun j => if (rsize r).[j] >? n0 then (corner0 r).[j] else (corner0 r).[j] + (rsize r).[j])) true.
(** polygon_intersect.cpp 1571-1582, as above *)
Definition rb_high2 (r : rotbox T) : point T :=
  mkC (tab 2 (fun j => if (rsize r).[j] >? n0 then (corner0 r).[j] + (rsize r).[j] else (corner0 r).[j])) true.
(** polygon_intersect.cpp 1571-1582, as above *)
Definition rb_frame2 (r : rotbox T) (l : corners T) : corners T :=
  map (fun p => point_rotate 2 p (rot_inverse 2 (orient r)) (corner0 r)) l.
(** polygon_intersect.cpp 1571-1582, as above *)
Definition chain_pairs (l : corners T) : list (point T * point T) := map (fun s => (end1 s, end2 s)) (chain l).
(** polygon_intersect.cpp 1569-1783; back() of an empty vector is undefined *)
Definition i_pg2_rb (l : corners T) (r : rotbox T) (proper : bool) : outcome bool :=
  match l with [] => Undef | _ => Ret (pg2_box_loop (rb_low2 r) (rb_high2 r) proper (chain_pairs (rb_frame2 r l)) false) end.
(** polygon_intersect.cpp 1569-1783, as above *)
Definition c_pg2_rb (l : corners T) (r : rotbox T) (proper : bool) : outcome bool :=
  match l with [] => Undef | _ => Ret (pg2_box_loop_c (rb_low2 r) (rb_high2 r) proper (chain_pairs (rb_frame2 r l)) false) end.
(** polygon_intersect.cpp 1569-1783, as above *)
Definition c_rb_pg2 (r : rotbox T) (l : corners T) (proper : bool) : bool := forallb (fun q => i_rb_point 2 r q proper) l.

(** polygon_intersect.cpp 1785-1812.  s2 and next_end2 are carried from one edge of p1 to the next: the
    inner loop starts from the last two corners it saw, so for an odd number of corners the endpoint it
    replaces first alternates. *)
Fixpoint chain_end (e0 e1 : point T) (next_end : bool) (l : corners T) : point T * point T * bool :=
  match l with
  | [] => (e0, e1, next_end)
  | i :: rest => let (e0, e1) := if next_end then (e0, i) else (i, e1) in chain_end e0 e1 (negb next_end) rest
  end.
(** polygon_intersect.cpp 1785-1812, as above *)
Fixpoint pg2_pg2_loop (es : list (segment T)) (l2 : corners T) (e0 e1 : point T) (next_end : bool) (proper : bool) : bool :=
  match es with
  | [] => false
  | s1 :: rest =>
      existsb (fun s2 => i_seg_seg 2 s1 s2 proper) (chain_from e0 e1 next_end l2) ||
      (let '(e0, e1, next_end) := chain_end e0 e1 next_end l2 in pg2_pg2_loop rest l2 e0 e1 next_end proper)
  end.
(** polygon_intersect.cpp 1785-1812, as above *)
Definition i_pg2_pg2 (l1 l2 : corners T) (proper : bool) : outcome bool :=
  match l1, l2 with
  | c1 :: _, c2 :: _ =>
      if pg2_pg2_loop (chain l1) l2 (last l2 (coords_default 2)) (coords_default 2) true proper then Ret true
      else
        do a <- i_pg2_point l1 c2 proper;
        if a then Ret true else i_pg2_point l2 c1 proper
  | _, _ => Undef
  end.
(** polygon_intersect.cpp 1814-1848 *)
Fixpoint all_ret {A} (f : A -> outcome bool) (l : list A) : outcome bool :=
  match l with
  | [] => Ret true
  | x :: rest => do b <- f x; if b then all_ret f rest else Ret false
  end.
(** polygon_intersect.cpp 1814-1848, as above *)
Definition c_pg2_pg2 (outer inner : corners T) (proper : bool) : outcome bool :=
  match inner with
  | [] => Undef
  | c :: _ =>
      do a <- (if proper then i_pg2_point outer c true else Ret true);
      if a then all_ret (fun s => if proper then match outer with [] => Undef | _ => Ret (negb (existsb (fun s2 => i_seg_seg 2 s s2 false) (chain outer))) end
                                  else c_pg2_seg outer s false) (chain inner)
      else Ret false
  end.
End Flat.

(** ** Polygon<dim> *)
Section Space.
Context {T} `{Num T}.
Open Scope num_scope.
Variable dim : nat.
Local Notation "v .[ i ]" := (at_ v i) (at level 2, i at level 200, left associativity).

(** polygon_intersect.cpp 38-52 offset: the part off the plane, and p2.  The axes are used whether they
    are valid or not; the coordinates of one that was never set are zero (vector.h 125).  Every caller
    passes a default Point<2> and nothing here marks it valid. *)
Definition orient_offset (o : porient T) (pd : point T) : outcome (vector T * point T) :=
  oassert (valid (porigin o))
   (let out := vec_sub dim pd (porigin o) in
    let x := dot dim out (pax0 o) in
    let out := vec_sub dim out (vec_scale dim (pax0 o) x) in
    let y := dot dim out (pax1 o) in
    Ret (vec_sub dim out (vec_scale dim (pax1 o) y), pt2 x y false)).
(** polygon_intersect.cpp 54-64: the sum of squares is that of the point itself *)
Definition orient_contained (o : porient T) (pd : point T) : outcome (option (point T)) :=
  do ' (off, p2) <- orient_offset o pd;
  let sqrsum := nsum dim (fun i => pd.[i] * pd.[i]) in
  Ret (if sqr_mag dim off <? neps * sqrsum then Some p2 else None).

(** polygon_intersect.cpp 338-362 *)
Definition i_pg_point (p : polygon T) (x : point T) (proper : bool) : outcome bool :=
  match pcorners p with
  | [] => Ret false
  | l => do r <- orient_contained (pplane p) x;
         match r with None => Ret false | Some p2 => i_pg2_point l p2 proper end
  end.
(** polygon_intersect.cpp 338-362, as above *)
Definition c_point_pg (x : point T) (p : polygon T) (proper : bool) : outcome bool :=
  match pcorners p with
  | [] => Ret true
  | c :: rest =>
      if proper then Ret false
      else if forallb (fun q => same 2 q c) rest
      then do r <- orient_contained (pplane p) x;
           match r with None => Ret false | Some p2 => Ret (same 2 p2 c) end
      else Ret false
  end.

(** polygon_intersect.cpp 92-136: the line of a polygon with one axis, cut by the box.  None is the early
    return false, the second component says whether bounds were found. *)
Definition line_box_axis (o : porient T) (b : axisbox T) (proper : bool) (st : option (option (T * T))) (i : nat) : option (option (T * T)) :=
  match st with
  | None => None
  | Some bounds =>
      let dist := (pax0 o).[i] in
      if dist =? n0 then
        if less_ (porigin o).[i] (low b).[i] proper || greater_ (porigin o).[i] (high b).[i] proper then None else Some bounds
      else
        let lo := ((low b).[i] - (porigin o).[i]) / dist in
        let hi := ((high b).[i] - (porigin o).[i]) / dist in
        let (lo, hi) := if lo >? hi then (hi, lo) else (lo, hi) in
        Some (Some (match bounds with
                    | Some (mn, mx) => (if lo >? mn then lo else mn, if hi <? mx then hi else mx)
                    | None => (lo, hi)
                    end))
  end.
(** polygon_intersect.cpp 92-136, as above *)
Definition line_box (o : porient T) (b : axisbox T) (proper : bool) : outcome (option (point T)) :=
  match fold_left (line_box_axis o b proper) (seq 0 dim) (Some None) with
  | None => Ret None
  | Some None => AssertFail
  | Some (Some (mn, mx)) => Ret (if less_eq_ mn mx proper then Some (pt2 ((mx - mn) / n2) n0 false) else None)
  end.
(** polygon_intersect.cpp 718-778, only instantiated in three dimensions: whether the plane meets the
    box, and the point of the plane on the line through the two corners farthest apart across it *)
Definition plane_box (o : porient T) (b : axisbox T) (proper : bool) : outcome (option (point T)) :=
  oassert (valid (porigin o) && valid (pax0 o) && valid (pax1 o))
   (let normal := cross3 (pax0 o) (pax1 o) in
    let normal_mag := sloppy_mag3 normal in
    let up i := if nabs normal.[i] <? normal_mag * neps then false else normal.[i] >? n0 in
    let high_num := ((if up 0%nat then 1 else 0) + (if up 1%nat then 2 else 0) + (if up 2%nat then 4 else 0))%N in
    let high_corner := box_corner dim b high_num in
    let low_corner := box_corner dim b (7 - high_num)%N in
    let perp_size := dot dim normal (vec_sub dim high_corner low_corner) / normal_mag in
    oassert (perp_size >=? n0)
     (if perp_size <? normal_mag * neps
      then if proper then Ret None else orient_contained o (midpoint dim high_corner low_corner nhalf)
      else if less_ (dot dim (vec_sub dim high_corner (porigin o)) normal) n0 proper
              || less_ (dot dim (vec_sub dim low_corner (porigin o)) normal) n0 proper
      then Ret None
      else
        do ' (voff, p2_high) <- orient_offset o high_corner;
        do ' (woff, p2_low) <- orient_offset o low_corner;
        let high_dist := mag dim voff in
        let low_dist := mag dim woff in
        Ret (Some (midpoint 2 p2_high p2_low (high_dist / (high_dist + low_dist)))))).
(** polygon_intersect.cpp 70-91 checkIntersect *)
Definition orient_box (o : porient T) (b : axisbox T) (proper : bool) : outcome (option (point T)) :=
  oassert (valid (porigin o))
   (if negb (valid (pax0 o)) then
      do c <- orient_convert dim o (pt2 n0 n0 false);
      Ret (if i_box_point dim b c proper then Some (pt2 n0 n0 false) else None)
    else if valid (pax1 o) then plane_box o b proper
    else line_box o b proper).
(** getCorner for every corner, polygon_intersect.cpp 378-390 *)
Fixpoint map_ret {A B} (f : A -> outcome B) (l : list A) : outcome (list B) :=
  match l with
  | [] => Ret []
  | x :: rest => do y <- f x; do ys <- map_ret f rest; Ret (y :: ys)
  end.
(** polygon_intersect.cpp 364-394 and the same with the basis turned, 585-620.  The last statement,
    Contains(p, p2, proper) with a polygon in space and a point of the plane, has no overload: it is
    intersect.h 44-48 calling itself with the arguments exchanged for ever ("a stack crash loop"). *)
Definition pg_box_with (o : porient T) (l : corners T) (b : axisbox T) (proper : bool) : outcome bool :=
  match l with
  | [] => Ret false
  | _ =>
      do r <- orient_box o b proper;
      match r with
      | None => Ret false
      | Some _ =>
          do cs <- map_ret (orient_convert dim o) l;
          if existsb (fun s => i_seg_box dim s b proper) (chain cs) then Ret true else Undef
      end
  end.
(** polygon_intersect.cpp 364-394, as above *)
Definition i_pg_box (p : polygon T) (b : axisbox T) (proper : bool) : outcome bool := pg_box_with (pplane p) (pcorners p) b proper.
(** polygon_intersect.cpp 460-468 *)
Definition c_box_pg (b : axisbox T) (p : polygon T) (proper : bool) : outcome bool :=
  all_ret (fun i => do c <- pg_corner dim p i; Ret (i_box_point dim b c proper)) (seq 0 (pg_num p)).
(** polygon_intersect.cpp 470-526 *)
Definition i_pg_ball (p : polygon T) (b : ball T) (proper : bool) : outcome bool :=
  match pcorners p with
  | [] => Ret false
  | l =>
      do ' (off, c2) <- orient_offset (pplane p) (center b);
      let dist := radius b * radius b - sqr_mag dim off in
      if less_ dist n0 proper then Ret false else i_pg2_ball l (mkBall c2 (nsqrt dist)) proper
  end.
(** polygon_intersect.cpp 470-526, as above *)
Definition c_pg_ball (p : polygon T) (b : ball T) (proper : bool) : outcome bool :=
  match pcorners p with
  | [] => Ret false
  | l => if radius b >? n0 then Ret false
         else do r <- orient_contained (pplane p) (center b);
              match r with None => Ret false | Some c2 => i_pg2_point l c2 proper end
  end.
(** polygon_intersect.cpp 470-526, as above *)
Definition c_ball_pg (b : ball T) (p : polygon T) (proper : bool) : outcome bool :=
  match pcorners p with
  | [] => Ret true
  | l =>
      do ' (off, c2) <- orient_offset (pplane p) (center b);
      let dist := radius b * radius b - sqr_mag dim off in
      if less_ dist n0 proper then Ret false
      else Ret (forallb (fun q => negb (less_ dist (squared_distance 2 c2 q) proper)) l)
  end.
(** polygon_intersect.cpp 528-583 *)
Definition i_pg_seg (p : polygon T) (s : segment T) (proper : bool) : outcome bool :=
  match pcorners p with
  | [] => Ret false
  | l =>
      do ' (v1, p1) <- orient_offset (pplane p) (end1 s);
      do ' (v2, p2) <- orient_offset (pplane p) (end2 s);
      if dot dim v1 v2 >? n0 then Ret false
      else
        let d1 := mag dim v1 in
        let d2 := mag dim v2 in
        if d1 + d2 =? n0 then i_pg2_seg l (mkS p1 p2) proper
        else i_pg2_point l (pt2 ((p1.[0] * d2 + p2.[0] * d1) / (d1 + d2)) ((p1.[1] * d2 + p2.[1] * d1) / (d1 + d2)) false) proper
  end.
(** polygon_intersect.cpp 528-583, as above *)
Definition c_pg_seg (p : polygon T) (s : segment T) (proper : bool) : outcome bool :=
  match pcorners p with
  | [] => Ret false
  | l =>
      do r1 <- orient_contained (pplane p) (end1 s);
      match r1 with
      | None => Ret false
      | Some p1 =>
          do r2 <- orient_contained (pplane p) (end2 s);
          match r2 with None => Ret false | Some p2 => c_pg2_seg l (mkS p1 p2) proper end
      end
  end.
(** polygon_intersect.cpp 563-583; expand has its default tolerance (polygon.h 227) *)
Definition c_seg_pg (s : segment T) (p : polygon T) (proper : bool) : bool :=
  match pcorners p with
  | [] => true
  | l =>
      match orient_expand dim (pplane p) (end1 s) neps with
      | None => false
      | Some (o, p1) =>
          match orient_expand dim o (end2 s) neps with
          | None => false
          | Some (_, p2) => c_seg_pg2 (mkS p1 p2) l proper
          end
      end
  end.
(** polygon_intersect.cpp 585-646 *)
Definition rb_orient (r : rotbox T) (o : porient T) : porient T := orient_rotate dim o (rot_inverse dim (orient r)) (corner0 r).
(** polygon_intersect.cpp 585-646, as above *)
Definition i_pg_rb (p : polygon T) (r : rotbox T) (proper : bool) : outcome bool :=
  pg_box_with (rb_orient r (pplane p)) (pcorners p) (rb_own_box dim r) proper.
(** polygon_intersect.cpp 585-646, as above *)
Definition c_rb_pg (r : rotbox T) (p : polygon T) (proper : bool) : outcome bool :=
  all_ret (fun q => do c <- orient_convert dim (rb_orient r (pplane p)) q; Ret (i_box_point dim (rb_own_box dim r) c proper)) (pcorners p).
End Space.
