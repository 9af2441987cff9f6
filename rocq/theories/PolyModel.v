(** Model of Line, Polygon<2> and Polygon<dim>: src/wfmath/line.h, line_funcs.h,
    polygon.h, polygon_funcs.h, polygon.cpp (corner lists, motions, changes of
    coordinates and bounds; the intersection tests are in PolyIntersectModel.v). *)
From Coq Require Import ZArith NArith Bool List.
From Verif Require Import Base Scalar ConstModel VecModel RotModel QuatModel ShapeModel.
Import ListNotations.

(** ** std::vector of points: an index outside the vector is undefined *)
(** insert(begin() + i, x) *)
Definition list_insert {A} (l : list A) (i : nat) (x : A) : outcome (list A) :=
  if Nat.leb i (length l) then Ret (firstn i l ++ x :: skipn i l) else Undef.
(** erase(begin() + i) *)
Definition list_erase {A} (l : list A) (i : nat) : outcome (list A) :=
  if Nat.ltb i (length l) then Ret (firstn i l ++ skipn (S i) l) else Undef.

(** ** Line<dim> (line.h 140) and Polygon<2> (polygon.h 161): a vector of points *)
Section Corners.
Context {T} `{Num T}.
Open Scope num_scope.
Variable dim : nat.
Local Notation "v .[ i ]" := (at_ v i) (at level 2, i at level 200, left associativity).
(** line.h 140, polygon.h 161: std::vector of points *)
Definition corners : Type := list (point T).

(** line_funcs.h 34-48; polygon.cpp 76-92 *)
Definition poly_equal (a b : corners) (epsilon : T) : bool :=
  Nat.eqb (length a) (length b) && forallb (fun pq => vec_equal dim (fst pq) (snd pq) epsilon) (combine a b).
(** line.h 70 *)
Definition line_valid (l : corners) : bool := Nat.ltb 1 (length l).
(** polygon.cpp 94-102 *)
Definition poly_valid (l : corners) : bool := forallb valid l.
(** line.h 80-84; polygon.h 77-79 *)
Definition poly_num (l : corners) : nat := length l.
(** line.h 80-84, as above *)
Definition poly_corner (l : corners) (i : nat) : outcome (point T) := oget l i.
(** line.h 80-84, as above *)
Definition poly_center (l : corners) : point T := barycenter dim l.
(** line.h 87-96; polygon.h 86-94.  The bool returned is always true and is left out. *)
Definition poly_add (l : corners) (i : nat) (p : point T) : outcome corners := list_insert l i p.
(** line.h 87-96, as above *)
Definition poly_remove (l : corners) (i : nat) : outcome corners := list_erase l i.
(** line.h 87-96, as above *)
Definition poly_move (l : corners) (i : nat) (p : point T) : outcome corners := oset l i p.
(** polygon.h 97, 102: resize adds default points *)
Definition poly_clear (l : corners) : corners := [].
(** polygon.h 97, 102, as above *)
Definition poly_resize (l : corners) (size : nat) : corners :=
  firstn size l ++ repeat (coords_default dim) (size - length l).
(** line_funcs.h 50-58; polygon.cpp 105-111 *)
Definition poly_shift (l : corners) (v : vector T) : corners := map (fun p => vec_add dim p v) l.
(** line.h 106-113; polygon.h 107-110 *)
Definition poly_move_corner_to (l : corners) (p : point T) (i : nat) : outcome corners :=
  do c <- poly_corner l i; Ret (poly_shift l (vec_sub dim p c)).
(** line.h 106-113, as above *)
Definition poly_move_center_to (l : corners) (p : point T) : corners := poly_shift l (vec_sub dim p (poly_center l)).
(** line_funcs.h 60-69; polygon.cpp 114-120 *)
Definition poly_rotate_point (l : corners) (m : rotmatrix T) (p : point T) : corners := map (fun x => point_rotate dim x m p) l.
(** line.h 120-127; polygon.h 112-115 *)
Definition poly_rotate_corner (l : corners) (m : rotmatrix T) (i : nat) : outcome corners :=
  do c <- poly_corner l i; Ret (poly_rotate_point l m c).
(** line.h 120-127, as above *)
Definition poly_rotate_center (l : corners) (m : rotmatrix T) : corners := poly_rotate_point l m (poly_center l).
(** line.h 135-137; polygon.h 120-122 *)
Definition poly_bounding_box (l : corners) : axisbox T := bounding_points dim l.
(** line.h 135-137, as above *)
Definition poly_bounding_sphere_sloppy (l : corners) : outcome (ball T) := bounding_sphere_sloppy dim l.
(** polygon.cpp 123-182 *)
Definition poly_to_parent (l : corners) (o : point T) (m : rotmatrix T) : corners := map (fun x => point_to_parent dim x o m) l.
(** polygon.cpp 123-182, as above *)
Definition poly_to_local (l : corners) (o : point T) (m : rotmatrix T) : corners := map (fun x => point_to_local dim x o m) l.
(** polygon.cpp 123-182, as above *)
Definition poly_to_parent_box (l : corners) (b : axisbox T) : corners := map (fun x => point_to_parent_box dim x b) l.
(** polygon.cpp 123-182, as above *)
Definition poly_to_local_box (l : corners) (b : axisbox T) : corners := map (fun x => point_to_local_box dim x b) l.
(** polygon.cpp 123-182, as above *)
Definition poly_to_parent_rb (l : corners) (r : rotbox T) : corners := map (fun x => point_to_parent_rb dim x r) l.
(** polygon.cpp 123-182, as above *)
Definition poly_to_local_rb (l : corners) (r : rotbox T) : corners := map (fun x => point_to_local_rb dim x r) l.
End Corners.
Arguments corners : clear implicits.

(** ** Polygon<dim>: a polygon in the plane and the plane's place in space *)
(** polygon.h 299-300 Poly2Orient *)
Record porient (T : Type) := mkO { porigin : point T; pax0 : vector T; pax1 : vector T }.
Arguments mkO {T} porigin pax0 pax1.
Arguments porigin {T} p.
Arguments pax0 {T} p.
Arguments pax1 {T} p.
(** polygon.h 435-436 *)
Record polygon (T : Type) := mkP { pplane : porient T; pcorners : list (point T) }.
Arguments mkP {T} pplane pcorners.
Arguments pplane {T} p.
Arguments pcorners {T} p.
(** polygon.h 170-194 Poly2ReorientType and Poly2Reorient *)
Inductive reorient (T : Type) := ReNone | ReClear2 | ReClearBoth | ReMove2 | ReScale (scale : T).
Arguments ReNone {T}.
Arguments ReClear2 {T}.
Arguments ReClearBoth {T}.
Arguments ReMove2 {T}.
Arguments ReScale {T} scale.

Section Plane.
Context {T} `{Num T}.
Open Scope num_scope.
Variable dim : nat.
Local Notation "v .[ i ]" := (at_ v i) (at level 2, i at level 200, left associativity).

(** polygon.h 216 *)
Definition orient_default : porient T := mkO (coords_default dim) (coords_default dim) (coords_default dim).
(** polygon.h 216, as above *)
Definition set_valid (v : coords T) (b : bool) : coords T := mkC (el v) b.
(** polygon.h 216, as above *)
Definition pt2 (x y : T) (b : bool) : point T := mkC [x; y] b.

(** polygon_funcs.h 59-76 convert *)
Definition orient_convert (o : porient T) (p : point T) : outcome (point T) :=
  oassert (valid (porigin o))
   (do a <- (if valid (pax0 o) then Ret (vec_add dim (porigin o) (vec_scale dim (pax0 o) p.[0])) else oassert (p.[0] =? n0) (Ret (porigin o)));
    do b <- (if valid (pax1 o) then Ret (vec_add dim a (vec_scale dim (pax1 o) p.[1])) else oassert (p.[1] =? n0) (Ret a));
    Ret (set_valid b (valid p))).

(** polygon_funcs.h 78-116 expand: the result, the new basis and p2 (not written on
    failure except to 0 and to invalid; callers do not use it then) *)
Definition orient_expand (o : porient T) (pd : point T) (epsilon : T) : option (porient T * point T) :=
  if negb (valid (porigin o)) then Some (mkO (set_valid pd true) (pax0 o) (pax1 o), pt2 n0 n0 true)
  else
    let start := vec_sub dim pd (porigin o) in
    let bound := sqr_mag dim start * epsilon in
    if dot dim start start <=? bound then Some (o, pt2 n0 n0 true)
    else if negb (valid (pax0 o)) then
      let x := mag dim start in Some (mkO (porigin o) (set_valid (vec_div dim start x) true) (pax1 o), pt2 x n0 true)
    else
      let x := dot dim start (pax0 o) in
      let shift := vec_sub dim start (vec_scale dim (pax0 o) x) in
      if dot dim shift start <=? bound then Some (o, pt2 x n0 true)
      else if negb (valid (pax1 o)) then
        let y := mag dim shift in Some (mkO (porigin o) (pax0 o) (set_valid (vec_div dim shift y) true), pt2 x y true)
      else
        let y := dot dim shift (pax1 o) in
        let shift' := vec_sub dim shift (vec_scale dim (pax1 o) y) in
        if dot dim shift' start <=? bound then Some (o, pt2 x y true) else None.

(** polygon_funcs.h 119-246 reduce; skip is None for the default argument *)
Definition skipped (skip : option nat) (i : nat) : bool := match skip with Some k => Nat.eqb i k | None => false end.
(** polygon_funcs.h 143-155: the size of the smallest corner, and the tolerance *)
Definition reduce_size (poly : list (point T)) (skip : option nat) : T :=
  fst (fold_left (fun (st : T * nat) p =>
         let (size, i) := st in
         if skipped skip i then (size, S i)
         else let x := nabs p.[0] in let y := nabs p.[1] in
              let mx := if x >? y then x else y in
              (if Nat.eqb i 0 || (mx <? size) then mx else size, S i))
       poly (nmaxval, 0%nat)).
(** polygon_funcs.h 143-155 *)
Definition reduce_eps (poly : list (point T)) (skip : option nat) : T := nldexp neps (nfrexp (reduce_size poly skip)).
(** The state of the loop 166-194: still_valid[0], still_valid[1], and the ratio once
    got_ratio is set. *)
Record rstate := mkRS { sv0 : bool; sv1 : bool; ratio : option T }.
(** polygon_funcs.h 166-194 *)
Definition got_ratio (s : rstate) : bool := match ratio s with Some _ => true | None => false end.
(** One turn: None is "we span the same space" (return NONE). *)
Definition reduce_step (o : porient T) (e : T) (first p : point T) (s : rstate) : outcome (option rstate) :=
  let diff := vec_sub 2 p first in
  if sqr_mag 2 diff <? e * e then Ret (Some s)
  else if negb (valid (pax1 o)) then Ret None
  else
    do s0 <- (if nabs diff.[0] <? e
              then oassert (diff.[1] >=? e) (if sv1 s || got_ratio s then Ret None else Ret (Some (mkRS true (sv1 s) (ratio s))))
              else Ret (Some s));
    match s0 with
    | None => Ret None
    | Some s =>
        do s1 <- (if nabs diff.[1] <? e
                  then oassert (diff.[0] >=? e) (if sv0 s || got_ratio s then Ret None else Ret (Some (mkRS (sv0 s) true (ratio s))))
                  else Ret (Some s));
        match s1 with
        | None => Ret None
        | Some s =>
            if sv0 s || sv1 s then Ret None
            else
              let new_ratio := diff.[1] / diff.[0] in
              match ratio s with
              | None => Ret (Some (mkRS (sv0 s) (sv1 s) (Some new_ratio)))
              | Some r => if negb (equal r new_ratio neps) then Ret None else Ret (Some s)
              end
        end
    end.
(** polygon_funcs.h 166-194 *)
Fixpoint reduce_loop (o : porient T) (e : T) (first : point T) (rest : list (point T)) (skip : option nat) (i : nat) (s : rstate) : outcome (option rstate) :=
  match rest with
  | [] => Ret (Some s)
  | p :: rest' =>
      if skipped skip i then reduce_loop o e first rest' skip (S i) s
      else
        do r <- reduce_step o e first p s;
        match r with
        | None => Ret None
        | Some s' => reduce_loop o e first rest' skip (S i) s'
        end
  end.
(** polygon_funcs.h 119-246 *)
Definition orient_reduce (o : porient T) (poly : list (point T)) (skip : option nat) : outcome (porient T * reorient T) :=
  if Nat.leb (length poly) (if skipped skip 0 then 1 else 0)
  then Ret (mkO (set_valid (porigin o) false) (set_valid (pax0 o) false) (set_valid (pax1 o) false), ReNone)
  else
    oassert (valid (porigin o))
     (if negb (valid (pax0 o)) then Ret (o, ReNone)
      else
        let i0 := if skipped skip 0 then 1%nat else 0%nat in
        let e := reduce_eps poly skip in
        match skipn i0 poly with
        | [] => AssertFail
        | f :: rest =>
            let first := set_valid f true in
            do r <- reduce_loop o e first rest skip (S i0) (mkRS false false None);
            match r with
            | None => Ret (o, ReNone)
            | Some s =>
                if sv0 s then
                  oassert (valid (pax1 o) && negb (sv1 s) && negb (got_ratio s))
                   (Ret (mkO (vec_add dim (porigin o) (vec_scale dim (pax1 o) first.[1])) (pax0 o) (set_valid (pax1 o) false), ReClear2))
                else if sv1 s then
                  oassert (valid (pax1 o) && negb (got_ratio s))
                   (Ret (mkO (vec_add dim (porigin o) (vec_scale dim (pax0 o) first.[0])) (pax1 o) (set_valid (pax1 o) false), ReMove2))
                else
                  match ratio s with
                  | None =>
                      let o1 := vec_add dim (porigin o) (vec_scale dim (pax0 o) first.[0]) in
                      let o2 := if valid (pax1 o) then vec_add dim o1 (vec_scale dim (pax1 o) first.[1]) else o1 in
                      Ret (mkO o2 (set_valid (pax0 o) false) (set_valid (pax1 o) false), ReClearBoth)
                  | Some rt =>
                      oassert (valid (pax1 o))
                       (let new0 := vec_add dim (pax0 o) (vec_scale dim (pax1 o) rt) in
                        let norm := mag dim new0 in
                        let og := vec_add dim (porigin o) (vec_scale dim (pax1 o) (first.[1] - rt * first.[0])) in
                        Ret (mkO og (vec_div dim new0 norm) (set_valid (pax1 o) false), ReScale norm))
                  end
            end
        end).

(** polygon.cpp 31-73 Poly2Reorient::reorient *)
Definition reorient_point (r : reorient T) (p : point T) : point T :=
  match r with
  | ReNone => p
  | ReClear2 => pt2 p.[0] n0 (valid p)
  | ReClearBoth => pt2 n0 n0 (valid p)
  | ReMove2 => pt2 p.[1] n0 (valid p)
  | ReScale s => pt2 (p.[0] * s) n0 (valid p)
  end.
(** polygon.cpp 31-73, as above *)
Fixpoint reorient_from (r : reorient T) (skip : option nat) (i : nat) (poly : list (point T)) : list (point T) :=
  match poly with
  | [] => []
  | p :: rest => (if skipped skip i then p else reorient_point r p) :: reorient_from r skip (S i) rest
  end.
(** polygon.cpp 31-73, as above *)
Definition reorient_poly (r : reorient T) (poly : list (point T)) (skip : option nat) : list (point T) := reorient_from r skip 0 poly.

(** polygon.h 235 shift *)
Definition orient_shift (o : porient T) (v : vector T) : porient T :=
  if valid (porigin o) then mkO (vec_add dim (porigin o) v) (pax0 o) (pax1 o) else o.
(** polygon_funcs.h 248-255 *)
Definition orient_rotate (o : porient T) (m : rotmatrix T) (p : point T) : porient T :=
  mkO (point_rotate dim (porigin o) m p) (prod_vm dim (pax0 o) m) (prod_vm dim (pax1 o) m).
(** polygon_funcs.h 257-278 rotate2: the shift is taken before the axes turn *)
Definition orient_rotate2_with (rot : vector T -> vector T) (back : vector T -> vector T) (o : porient T) (p : point T) : outcome (porient T) :=
  oassert (valid (porigin o))
   (if negb (valid (pax0 o)) then oassert ((p.[0] =? n0) && (p.[1] =? n0)) (Ret o)
    else
      let s0 := vec_scale dim (pax0 o) p.[0] in
      let a0 := rot (pax0 o) in
      if valid (pax1 o) then
        let s := vec_add dim s0 (vec_scale dim (pax1 o) p.[1]) in
        Ret (mkO (vec_add dim (porigin o) (back s)) a0 (rot (pax1 o)))
      else oassert (p.[1] =? n0) (Ret (mkO (vec_add dim (porigin o) (back s0)) a0 (pax1 o)))).
(** polygon_funcs.h 257-278, as above *)
Definition orient_rotate2 (o : porient T) (m : rotmatrix T) (p : point T) : outcome (porient T) :=
  orient_rotate2_with (fun v => prod_vm dim v m) (fun s => vec_sub dim s (prod_vm dim s m)) o p.
(** polygon.h 245-270 *)
Definition orient_to_parent (o : porient T) (og : point T) (m : rotmatrix T) : porient T :=
  mkO (point_to_parent dim (porigin o) og m) (vec_rotate dim (pax0 o) m) (vec_rotate dim (pax1 o) m).
(** polygon.h 245-270, as above *)
Definition orient_to_local (o : porient T) (og : point T) (m : rotmatrix T) : porient T :=
  mkO (point_to_local dim (porigin o) og m) (prod_mv dim m (pax0 o)) (prod_mv dim m (pax1 o)).
(** polygon.h 245-270, as above *)
Definition orient_to_parent_box (o : porient T) (b : axisbox T) : porient T := mkO (point_to_parent_box dim (porigin o) b) (pax0 o) (pax1 o).
(** polygon.h 245-270, as above *)
Definition orient_to_local_box (o : porient T) (b : axisbox T) : porient T := mkO (point_to_local_box dim (porigin o) b) (pax0 o) (pax1 o).
(** polygon.h 245-270, as above *)
Definition orient_to_parent_rb (o : porient T) (r : rotbox T) : porient T :=
  mkO (point_to_parent_rb dim (porigin o) r) (vec_rotate dim (pax0 o) (orient r)) (vec_rotate dim (pax1 o) (orient r)).
(** polygon.h 245-270, as above *)
Definition orient_to_local_rb (o : porient T) (r : rotbox T) : porient T :=
  mkO (point_to_local_rb dim (porigin o) r) (prod_mv dim (orient r) (pax0 o)) (prod_mv dim (orient r) (pax1 o)).

(** ** Polygon<dim> *)
(** polygon.h 308, 349 *)
Definition pg_default : polygon T := mkP orient_default [].
(** polygon.h 308, 349, as above *)
Definition pg_clear (p : polygon T) : polygon T := pg_default.
(** polygon.h 324-330 *)
Definition pg_valid (p : polygon T) : bool := poly_valid (pcorners p).
(** polygon.h 324-330, as above *)
Definition pg_num (p : polygon T) : nat := length (pcorners p).
(** polygon.h 324-330, as above *)
Definition pg_corner (p : polygon T) (i : nat) : outcome (point T) :=
  do c <- poly_corner (pcorners p) i; orient_convert (pplane p) c.
(** polygon.h 324-330, as above *)
Definition pg_center (p : polygon T) : outcome (point T) := orient_convert (pplane p) (poly_center 2 (pcorners p)).
(** polygon.h 439-447 addCorner *)
Definition pg_add (p : polygon T) (i : nat) (x : point T) (epsilon : T) : outcome (bool * polygon T) :=
  match orient_expand (pplane p) x epsilon with
  | None => Ret (false, p)
  | Some (o, p2) => do l <- poly_add (pcorners p) i p2; Ret (true, mkP o l)
  end.
(** polygon.h 449-455 removeCorner *)
Definition pg_remove (p : polygon T) (i : nat) : outcome (polygon T) :=
  do l <- poly_remove (pcorners p) i;
  do ' (o, r) <- orient_reduce (pplane p) l None;
  Ret (mkP o (reorient_poly r l None)).
(** polygon.h 457-472 moveCorner *)
Definition pg_move (p : polygon T) (i : nat) (x : point T) (epsilon : T) : outcome (bool * polygon T) :=
  do ' (o, r) <- orient_reduce (pplane p) (pcorners p) (Some i);
  match orient_expand o x epsilon with
  | None => Ret (false, p)
  | Some (o', p2) => do l <- oset (reorient_poly r (pcorners p) (Some i)) i p2; Ret (true, mkP o' l)
  end.
(** polygon_funcs.h 42-57 isEqualTo: corner by corner, through convert *)
Fixpoint pg_equal_from (a b : polygon T) (la lb : list (point T)) (epsilon : T) : outcome bool :=
  match la, lb with
  | x :: la', y :: lb' =>
      do cx <- orient_convert (pplane a) x;
      do cy <- orient_convert (pplane b) y;
      if vec_equal dim cx cy epsilon then pg_equal_from a b la' lb' epsilon else Ret false
  | _, _ => Ret true
  end.
(** polygon_funcs.h 42-57, as above *)
Definition pg_equal (a b : polygon T) (epsilon : T) : outcome bool :=
  if Nat.eqb (pg_num a) (pg_num b) then pg_equal_from a b (pcorners a) (pcorners b) epsilon else Ret false.
(** polygon.h 353-367 *)
Definition pg_shift (p : polygon T) (v : vector T) : polygon T := mkP (orient_shift (pplane p) v) (pcorners p).
(** polygon.h 353-367, as above *)
Definition pg_move_corner_to (p : polygon T) (x : point T) (i : nat) : outcome (polygon T) :=
  do c <- pg_corner p i; Ret (pg_shift p (vec_sub dim x c)).
(** polygon.h 353-367, as above *)
Definition pg_move_center_to (p : polygon T) (x : point T) : outcome (polygon T) :=
  do c <- pg_center p; Ret (pg_shift p (vec_sub dim x c)).
(** polygon.h 353-367, as above *)
Definition pg_rotate_corner (p : polygon T) (m : rotmatrix T) (i : nat) : outcome (polygon T) :=
  do c <- poly_corner (pcorners p) i; do o <- orient_rotate2 (pplane p) m c; Ret (mkP o (pcorners p)).
(** polygon.h 353-367, as above *)
Definition pg_rotate_center (p : polygon T) (m : rotmatrix T) : outcome (polygon T) :=
  if Nat.ltb 0 (pg_num p) then do o <- orient_rotate2 (pplane p) m (poly_center 2 (pcorners p)); Ret (mkP o (pcorners p)) else Ret p.
(** polygon.h 353-367, as above *)
Definition pg_rotate_point (p : polygon T) (m : rotmatrix T) (x : point T) : polygon T := mkP (orient_rotate (pplane p) m x) (pcorners p).
(** polygon_funcs.h 312-335 *)
Fixpoint pg_bounds (o : porient T) (l : list (point T)) (mn mx : list T) (ok : bool) : outcome (list T * list T * bool) :=
  match l with
  | [] => Ret (mn, mx, ok)
  | c :: l' =>
      do p <- orient_convert o c;
      pg_bounds o l' (tab dim (fun j => if p.[j] <? get mn j then p.[j] else get mn j))
                     (tab dim (fun j => if p.[j] >? get mx j then p.[j] else get mx j)) (ok && valid p)
  end.
(** polygon_funcs.h 312-335, as above *)
Definition pg_bounding_box (p : polygon T) : outcome (axisbox T) :=
  match pcorners p with
  | [] => AssertFail
  | c :: rest =>
      do x <- orient_convert (pplane p) c;
      do ' (mn, mx, ok) <- pg_bounds (pplane p) rest (el x) (el x) (valid x);
      Ret (box_corners dim (mkC mn ok) (mkC mx ok) true)
  end.
(** polygon_funcs.h 345-351 *)
Definition pg_bounding_sphere_sloppy (p : polygon T) : outcome (ball T) :=
  do b <- poly_bounding_sphere_sloppy 2 (pcorners p);
  do c <- orient_convert (pplane p) (center b);
  Ret (ball_make c (radius b)).
(** polygon.h 385-403 *)
Definition pg_to_parent (p : polygon T) (og : point T) (m : rotmatrix T) : polygon T := mkP (orient_to_parent (pplane p) og m) (pcorners p).
(** polygon.h 385-403, as above *)
Definition pg_to_local (p : polygon T) (og : point T) (m : rotmatrix T) : polygon T := mkP (orient_to_local (pplane p) og m) (pcorners p).
(** polygon.h 385-403, as above *)
Definition pg_to_parent_box (p : polygon T) (b : axisbox T) : polygon T := mkP (orient_to_parent_box (pplane p) b) (pcorners p).
(** polygon.h 385-403, as above *)
Definition pg_to_local_box (p : polygon T) (b : axisbox T) : polygon T := mkP (orient_to_local_box (pplane p) b) (pcorners p).
(** polygon.h 385-403, as above *)
Definition pg_to_parent_rb (p : polygon T) (r : rotbox T) : polygon T := mkP (orient_to_parent_rb (pplane p) r) (pcorners p).
(** polygon.h 385-403, as above *)
Definition pg_to_local_rb (p : polygon T) (r : rotbox T) : polygon T := mkP (orient_to_local_rb (pplane p) r) (pcorners p).
End Plane.

(** ** 3D only: quaternions *)
Section Plane3.
Context {T} `{Num T}.
Open Scope num_scope.
(** polygon_funcs.h 280-287 *)
Definition orient_rotate_q (o : porient T) (q : quat T) (p : point T) : porient T :=
  mkO (point_rotate_q (porigin o) q p) (vec_rotate_q (pax0 o) q) (vec_rotate_q (pax1 o) q).
(** polygon_funcs.h 289-310 rotate2.  [shift - shift.rotate(q)]: rotate changes shift in
    place and returns a reference to it, so both operands are the rotated shift. *)
Definition orient_rotate2_q (o : porient T) (q : quat T) (p : point T) : outcome (porient T) :=
  orient_rotate2_with 3 (fun v => vec_rotate_q v q) (fun s => vec_sub 3 (vec_rotate_q s q) (vec_rotate_q s q)) o p.
(** polygon.h 272-279: the first axis is rotated twice, the second not at all *)
Definition orient_to_parent_q (o : porient T) (og : point T) (q : quat T) : porient T :=
  mkO (point_to_parent_q (porigin o) og q) (vec_rotate_q (vec_rotate_q (pax0 o) q) q) (pax1 o).
(** polygon.h 272-279, as above *)
Definition orient_to_local_q (o : porient T) (og : point T) (q : quat T) : porient T :=
  mkO (point_to_local_q (porigin o) og q) (vec_rotate_q (vec_rotate_q (pax0 o) (quat_inverse q)) (quat_inverse q)) (pax1 o).
(** polygon.h 370-377, 406-409 *)
Definition pg_rotate_corner_q (p : polygon T) (q : quat T) (i : nat) : outcome (polygon T) :=
  do c <- poly_corner (pcorners p) i; do o <- orient_rotate2_q (pplane p) q c; Ret (mkP o (pcorners p)).
(** polygon.h 370-377, 406-409, as above *)
Definition pg_rotate_center_q (p : polygon T) (q : quat T) : outcome (polygon T) :=
  if Nat.ltb 0 (pg_num p) then do o <- orient_rotate2_q (pplane p) q (poly_center 2 (pcorners p)); Ret (mkP o (pcorners p)) else Ret p.
(** polygon.h 370-377, 406-409, as above *)
Definition pg_rotate_point_q (p : polygon T) (q : quat T) (x : point T) : polygon T := mkP (orient_rotate_q (pplane p) q x) (pcorners p).
(** polygon.h 370-377, 406-409, as above *)
Definition pg_to_parent_q (p : polygon T) (og : point T) (q : quat T) : polygon T := mkP (orient_to_parent_q (pplane p) og q) (pcorners p).
(** polygon.h 370-377, 406-409, as above *)
Definition pg_to_local_q (p : polygon T) (og : point T) (q : quat T) : polygon T := mkP (orient_to_local_q (pplane p) og q) (pcorners p).
End Plane3.
