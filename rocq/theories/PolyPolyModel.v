(** Model of the rest of src/wfmath/polygon_intersect.cpp: polygon against polygon in space, and a polygon in
    space containing a box. *)
From Coq Require Import ZArith NArith Bool List.
From Verif Require Import Base Scalar ConstModel VecModel RotModel QuatModel ShapeModel IntersectModel PolyModel PolyIntersectModel.
Import ListNotations.

(** polygon.h 196-201.  None is a bool that was never written; the points and vectors start at zero, not valid.
    The field dim is never used. *)
Record pmeet (T : Type) := mkPM { m_p1 : point T; m_p2 : point T; m_v1 : vector T; m_v2 : vector T; m_off : vector T;
  o1_is_line : option bool; o2_is_line : option bool }.
Arguments mkPM {T} m_p1 m_p2 m_v1 m_v2 m_off o1_is_line o2_is_line.
Arguments m_p1 {T} p.
Arguments m_p2 {T} p.
Arguments m_v1 {T} p.
Arguments m_v2 {T} p.
Arguments m_off {T} p.
Arguments o1_is_line {T} p.
Arguments o2_is_line {T} p.

(** polygon_intersect.cpp 794-798 *)
Record linepoint (T : Type) := mkLP { lp_low : T; lp_high : T; lp_cross : bool }.
Arguments mkLP {T} lp_low lp_high lp_cross.
Arguments lp_low {T} l.
Arguments lp_high {T} l.
Arguments lp_cross {T} l.

(** ** Where two planes meet *)
Section Planes.
Context {T} `{Num T}.
Open Scope num_scope.
Variable dim : nat.
Local Notation "v .[ i ]" := (at_ v i) (at level 2, i at level 200, left associativity).

(** polygon.h 196-201, and the writes to p1, p2, v1, v2 that leave them marked not valid *)
Definition zero2 : point T := pt2 n0 n0 false.

(** polygon_intersect.cpp 176-178, 186-188: the part of o1's axis in o2's plane *)
Definition proj_axis (o2 : porient T) (a : vector T) : vector T :=
  let b := vec_scale dim (pax0 o2) (dot dim (pax0 o2) a) in
  if valid (pax1 o2) then vec_add dim b (vec_scale dim (pax1 o2) (dot dim (pax1 o2) a)) else b.
(** polygon_intersect.cpp 168-201: the number of common directions, with basis1 and its square *)
Definition common_basis (o1 o2 : porient T) : nat * vector T * T :=
  let basis1 := proj_axis o2 (pax0 o1) in
  let sqrmag1 := sqr_mag dim basis1 in
  let one := sqrmag1 >? neps * neps in
  if valid (pax1 o1) then
    let basis2 := proj_axis o2 (pax1 o1) in
    let basis2 := if one then vec_sub dim basis2 (vec_scale dim basis1 (dot dim basis1 basis2 / sqrmag1)) else basis2 in
    let sqrmag2 := sqr_mag dim basis2 in
    if sqrmag2 >? neps * neps then if one then (2%nat, basis1, sqrmag1) else (1%nat, basis2, sqrmag2)
    else ((if one then 1 else 0)%nat, basis1, sqrmag1)
  else ((if one then 1 else 0)%nat, basis1, sqrmag1).
(** vector.h operator!=, as used by polygon_intersect.cpp 229, 243, 261, 277, 294 *)
Definition differ (a b : vector T) : bool := negb (same dim a b).

(** polygon_intersect.cpp 206-233: no common direction.  The answer for a common point is 1, with v1, v2 and the
    two flags never written; o1's second axis stands where o2's is meant. *)
Definition meet_point (o1 o2 : porient T) (off : vector T) : option (nat * pmeet T) :=
  let two := valid (pax1 o1) in
  let x1 := dot dim (pax0 o1) off in
  let y1 := if two then dot dim (pax1 o1) off else n0 in
  let off1 := vec_scale dim (pax0 o1) x1 in
  let off1 := if two then vec_add dim off1 (vec_scale dim (pax1 o1) y1) else off1 in
  let x2 := - dot dim (pax0 o2) off in
  let y2 := if two then - dot dim (pax1 o2) off else n0 in
  let off2 := vec_scale dim (pax0 o2) x2 in
  let off2 := if two then vec_add dim off2 (vec_scale dim (pax1 o1) y2) else off2 in
  if differ (vec_sub dim off1 off2) off then None
  else Some (1%nat, mkPM (pt2 x1 y1 false) (pt2 x2 y2 false) zero2 zero2 zero2 None None).
(** polygon_intersect.cpp 234-306: one common direction *)
Definition meet_line (o1 o2 : porient T) (off basis1 : vector T) (sqrmag1 : T) : option (nat * pmeet T) :=
  let l1 := negb (valid (pax1 o1)) in
  let l2 := negb (valid (pax1 o2)) in
  let data p1 p2 v1 v2 := Some (1%nat, mkPM p1 p2 v1 v2 zero2 (Some l1) (Some l2)) in
  if l1 && l2 then
    let proj := dot dim off (pax0 o2) in
    if differ off (vec_scale dim (pax0 o2) proj) then None
    else data zero2 (pt2 (- proj) n0 false) (pt2 n1 n0 false) (pt2 (if dot dim (pax0 o1) (pax0 o2) >? n0 then n1 else - n1) n0 false)
  else if l1 then
    let x := - dot dim off (pax0 o2) in
    let y := - dot dim off (pax1 o2) in
    if differ off (vec_sub dim (vec_scale dim (pax0 o2) (- x)) (vec_scale dim (pax1 o2) y)) then None
    else data zero2 (pt2 x y false) (pt2 n1 n0 false) (pt2 (dot dim (pax0 o1) (pax0 o2)) (dot dim (pax0 o1) (pax1 o2)) false)
  else if l2 then
    let x := dot dim off (pax0 o1) in
    let y := dot dim off (pax1 o1) in
    if differ off (vec_add dim (vec_scale dim (pax0 o1) x) (vec_scale dim (pax1 o1) y)) then None
    else data (pt2 x y false) zero2 (pt2 (dot dim (pax0 o1) (pax0 o2)) (dot dim (pax1 o1) (pax0 o2)) false) (pt2 n1 n0 false)
  else
    let x1 := dot dim off (pax0 o1) in
    let y1 := dot dim off (pax1 o1) in
    let x2 := - dot dim off (pax0 o2) in
    let y2 := - dot dim off (pax1 o2) in
    if differ off (vec_sub dim (vec_sub dim (vec_add dim (vec_scale dim (pax0 o1) x1) (vec_scale dim (pax1 o1) y1))
                                            (vec_scale dim (pax0 o2) x2)) (vec_scale dim (pax1 o2) y2)) then None
    else
      let b := vec_div dim basis1 (nsqrt sqrmag1) in
      data (pt2 x1 y1 false) (pt2 x2 y2 false) (pt2 (dot dim (pax0 o1) b) (dot dim (pax1 o1) b) false) (pt2 (dot dim (pax0 o2) b) (dot dim (pax1 o2) b) false).
(** polygon_intersect.cpp 307-337: two common directions.  off_sqr_mag is the square of data.off, which nothing has
    set, and not of off. *)
Definition meet_plane (o1 o2 : porient T) (off : vector T) : outcome (option (nat * pmeet T)) :=
  oassert (valid (pax1 o1) && valid (pax1 o2))
   (let off_sqr_mag := sqr_mag 2 zero2 in
    let data d := Some (2%nat, mkPM zero2 zero2 (pt2 (dot dim (pax0 o2) (pax0 o1)) (dot dim (pax0 o2) (pax1 o1)) false)
                                                (pt2 (dot dim (pax1 o2) (pax0 o1)) (dot dim (pax1 o2) (pax1 o1)) false) d None None) in
    if negb (off_sqr_mag =? n0) then
      let x := dot dim (pax0 o2) off in
      let off_copy := vec_sub dim off (vec_scale dim (pax0 o1) x) in
      let y := dot dim (pax1 o2) off in
      let off_copy := vec_sub dim off_copy (vec_scale dim (pax1 o1) y) in
      Ret (if sqr_mag dim off_copy >? off_sqr_mag * neps then None else data (pt2 x y false))
    else Ret (data zero2)).
(** polygon_intersect.cpp 138-342; None is the answer -1, which leaves the data unused *)
Definition orient_orient (o1 o2 : porient T) : outcome (option (nat * pmeet T)) :=
  if negb (valid (porigin o1)) || negb (valid (porigin o2)) then Ret None
  else if negb (valid (pax0 o1)) then
    do r <- orient_contained dim o2 (porigin o1);
    Ret (match r with None => None | Some p2 => Some (0%nat, mkPM zero2 p2 zero2 zero2 zero2 None None) end)
  else if negb (valid (pax0 o2)) then
    do r <- orient_contained dim o1 (porigin o2);
    Ret (match r with None => None | Some p1 => Some (0%nat, mkPM p1 zero2 zero2 zero2 zero2 None None) end)
  else
    let '(size, basis1, sqrmag1) := common_basis o1 o2 in
    let off := vec_sub dim (porigin o2) (porigin o1) in
    match size with
    | 0%nat => Ret (meet_point o1 o2 off)
    | 1%nat => Ret (meet_line o1 o2 off basis1 sqrmag1)
    | _ => meet_plane o1 o2 off
    end.
End Planes.

(** ** Where a line crosses a polygon of the plane *)
Section Crossings.
Context {T} `{Num T}.
Open Scope num_scope.
Local Notation "v .[ i ]" := (at_ v i) (at level 2, i at level 200, left associativity).

(** polygon_intersect.cpp 780-792; poly[0] of an empty polygon is undefined *)
Definition line_bounds (l : corners T) : outcome (T * T) :=
  match l with
  | [] => Undef
  | c :: _ => Ret (fold_left (fun b q => let val := q.[0] in (if val <? fst b then val else fst b, if val >? snd b then val else snd b)) l (c.[0], c.[0]))
  end.
(** polygon_intersect.cpp 1010-1034 and the like: the bounds seen from p along (v, 0) *)
Definition seen_bounds (l : corners T) (p v : point T) : outcome (T * T) :=
  do ' (low, high) <- line_bounds l;
  let low := low - p.[0] in
  let high := high - p.[0] in
  Ret (if v.[0] <? n0 then (- high, - low) else (low, high)).

(** polygon_intersect.cpp 820-824, 830-834: is the corner on the line through p along v *)
Definition on_line (p : point T) (v : vector T) (c : point T) : bool :=
  let d := vec_sub 2 c p in
  let proj := dot 2 d v in
  equal (sqr_mag 2 d) (proj * proj) neps.
(** polygon_intersect.cpp 825-843: the corners after this one, going round, while they are on the line.  [steps] counts
    them.  None is j = i. *)
Fixpoint line_run (p : point T) (v : vector T) (next : corners T) (low high : T) (steps : nat) : option (point T * T * T * nat) :=
  match next with
  | [] => None
  | c :: rest =>
      let proj := dot 2 (vec_sub 2 c p) v in
      if negb (on_line p v c) then Some (c, low, high, steps)
      else line_run p v rest (if proj <? low then proj else low) (if proj >? high then proj else high) (S steps)
  end.
(** polygon_intersect.cpp 871-897: the list loop.  The second component says that the iterator reached the end.
    J->low of the end of the list is undefined. *)
Fixpoint run_insert (d : linepoint T) (l : list (linepoint T)) : outcome (list (linepoint T) * bool) :=
  match l with
  | [] => Ret ([], true)
  | i :: rest =>
      if lp_low d >? lp_high i then do ' (l', e) <- run_insert d rest; Ret (i :: l', e)
      else if lp_high d <? lp_low i then Ret (d :: i :: rest, false)
      else
        let i' := mkLP (if lp_low i <? lp_low d then lp_low i else lp_low d) (if lp_high i >? lp_high d then lp_high i else lp_high d)
                       (negb (Bool.eqb (lp_cross i) (lp_cross d))) in
        match rest with
        | [] => Undef
        | j :: rest' =>
            if lp_low j <? lp_high i' then
              do ' (l', e) <- run_insert d rest';
              Ret (mkLP (lp_low i') (lp_high j) (negb (Bool.eqb (lp_cross i') (lp_cross j))) :: l', e)
            else do ' (l', e) <- run_insert d rest; Ret (i' :: l', e)
        end
  end.
(** polygon_intersect.cpp 869-900 *)
Definition run_add (d : linepoint T) (l : list (linepoint T)) : outcome (list (linepoint T)) :=
  do ' (l', e) <- run_insert d l; Ret (if e : bool then l' ++ [d] else l').

(** polygon_intersect.cpp 807-815: what the loop over the corners carries; next_cross counts the writes *)
Record crossings := mkX { x_cross : list T; x_next : nat; x_below : bool; x_old : point T; x_runs : list (linepoint T) }.
(** polygon_intersect.cpp 856, 861, 862, 923: cross[next_cross++] = x; past the end is undefined *)
Definition x_write (s : crossings) (x : T) : outcome crossings :=
  do c <- oset (x_cross s) (x_next s) x; Ret (mkX c (S (x_next s)) (x_below s) (x_old s) (x_runs s)).
(** polygon_intersect.cpp 817-927: one corner, with the corners before and after it.  After the last corner the
    corner numCorners is read: undefined. *)
Definition cross_corner (p : point T) (v : vector T) (proper : bool) (before : corners T) (c : point T) (after : corners T) (s : crossings) : outcome crossings :=
  let d := vec_sub 2 c p in
  let proj := dot 2 d v in
  if on_line p v c then
    match after with
    | [] => Undef
    | _ =>
        match line_run p v (after ++ before) proj proj 0 with
        | None => AssertFail
        | Some (pj, low, high, steps) =>
            let below := cross2 v (vec_sub 2 pj p) <? n0 in
            let same_side := Bool.eqb below (x_below s) in
            if same_side && proper then Ret (mkX (x_cross s) (x_next s) (x_below s) pj (x_runs s))
            else if Nat.eqb steps 0 then
              do s' <- (if negb same_side then x_write (mkX (x_cross s) (x_next s) below (x_old s) (x_runs s)) proj
                        else oassert (negb proper) (do s1 <- x_write s proj; x_write s1 proj));
              Ret (mkX (x_cross s') (x_next s') (x_below s') pj (x_runs s'))
            else
              do runs <- run_add (mkLP low high (negb same_side)) (x_runs s);
              Ret (mkX (x_cross s) (x_next s) below pj runs)
        end
    end
  else
    let below := cross2 v d <? n0 in
    do s' <- (if negb (Bool.eqb below (x_below s)) then
                let dist := vec_sub 2 p (x_old s) in
                let dist_sqr := sqr_mag 2 dist in
                let dist_proj := dot 2 dist v in
                let denom := dist_proj * dist_proj - dist_sqr in
                oassert (negb (denom =? n0))
                  (x_write (mkX (x_cross s) (x_next s) below (x_old s) (x_runs s)) ((dist_proj * dot 2 d dist + dist_sqr * proj) / denom))
              else Ret s);
    Ret (mkX (x_cross s') (x_next s') (x_below s') p (x_runs s')).
(** polygon_intersect.cpp 817-927 *)
Fixpoint cross_loop (p : point T) (v : vector T) (proper : bool) (before l : corners T) (s : crossings) : outcome crossings :=
  match l with
  | [] => Ret s
  | c :: after => do s' <- cross_corner p v proper before c after s; cross_loop p v proper (before ++ [c]) after s'
  end.

(** std::sort at polygon_intersect.cpp 930: any sort gives this list, the elements being numbers (a NaN would make the
    call undefined) *)
Fixpoint sort_insert (x : T) (l : list T) : list T :=
  match l with [] => [x] | y :: rest => if x <? y then x :: l else y :: sort_insert x rest end.
(** polygon_intersect.cpp 930, as above *)
Definition sorted (l : list T) : list T := fold_right sort_insert [] l.

(** polygon_intersect.cpp 937-942: done is what lies before cross_num, last first *)
Fixpoint cross_skip (low : T) (done rest : list T) (hit : bool) : list T * list T * bool :=
  match rest with
  | c :: rest' => if c <? low then cross_skip low (c :: done) rest' (negb hit) else (done, rest, hit)
  | [] => (done, rest, hit)
  end.
(** polygon_intersect.cpp 949-953: how many crossings after the first are below high; undefined at the end of the vector *)
Fixpoint cross_upto (high : T) (l : list T) : outcome (nat * list T) :=
  match l with
  | [] => Undef
  | c :: rest => if c <? high then do ' (k, r) <- cross_upto high rest; Ret (S k, r) else Ret (O, l)
  end.
(** polygon_intersect.cpp 974-984 *)
Fixpoint cross_tail (proper : bool) (runs : list (linepoint T)) (done : list T) (hit : bool) : list T * bool :=
  match runs with
  | [] => (done, hit)
  | i :: rest =>
      if lp_cross i then cross_tail proper rest ((if Bool.eqb proper hit then lp_low i else lp_high i) :: done) (negb hit)
      else if negb proper then cross_tail proper rest (lp_high i :: lp_low i :: done) hit
      else cross_tail proper rest done hit
  end.
(** polygon_intersect.cpp 932-987 *)
Fixpoint cross_merge (proper : bool) (runs : list (linepoint T)) (done rest : list T) (hit : bool) : outcome (list T * bool) :=
  match runs with
  | [] => Ret (rev done ++ rest, hit)
  | i :: runs' =>
      let '(done, rest, hit) := cross_skip (lp_low i) done rest hit in
      match rest with
      | [] => let (d, h) := cross_tail proper runs done hit in Ret (rev d, h)
      | c :: rest1 =>
          do ' (between, rest) <- (if c >? lp_high i then Ret (lp_cross i, rest)
                                   else do ' (k, r) <- cross_upto (lp_high i) rest1; Ret (negb (Bool.eqb (Nat.odd (S k)) (lp_cross i)), r));
          if between : bool then cross_merge proper runs' ((if Bool.eqb proper hit then lp_low i else lp_high i) :: done) rest (negb hit)
          else if negb proper then cross_merge proper runs' (lp_high i :: lp_low i :: done) rest hit
          else cross_merge proper runs' done rest hit
      end
  end.
(** polygon_intersect.cpp 800-990; the answer is whether the list is not empty *)
Definition get_crossings (l : corners T) (p : point T) (v : vector T) (proper : bool) : outcome (list T) :=
  oassert (equal (sqr_mag 2 v) n1 neps)
   (match l with
    | [] => Undef
    | _ =>
        let old_p := last l (coords_default 2) in
        do s <- cross_loop p v proper [] l (mkX (repeat n0 (length l)) 0 (cross2 v (vec_sub 2 old_p p) <? n0) old_p []);
        let cross := sorted (firstn (x_next s) (x_cross s)) in
        match x_runs s with
        | [] => Ret cross
        | runs => do ' (c, hit) <- cross_merge proper runs [] cross false; oassert (negb hit) (Ret c)
        end
    end).

(** polygon_intersect.cpp 1082-1110: the two lists of crossings.  After an equal pair both iterators move and are read
    again: undefined at the end of either list. *)
Fixpoint cross_walk (proper : bool) (l1 : list T) : list T -> bool -> bool -> outcome bool :=
  fix walk2 (l2 : list T) (hit1 hit2 : bool) : outcome bool :=
    match l1, l2 with
    | a :: t1, b :: t2 =>
        if equal a b neps then
          if negb proper then Ret true
          else
            match t1, t2 with
            | a' :: t1', b' :: t2' =>
                if a' <? b' then if hit1 && negb hit2 then Ret true else cross_walk proper t1' t2 hit1 (negb hit2)
                else if negb hit1 && hit2 then Ret true else cross_walk proper t1 t2' (negb hit1) hit2
            | _, _ => Undef
            end
        else if a <? b then if negb hit1 && hit2 then Ret true else cross_walk proper t1 l2 (negb hit1) hit2
        else if hit1 && negb hit2 then Ret true else walk2 t2 hit1 (negb hit2)
    | _, _ => Ret false
    end.
End Crossings.

(** ** Polygon against polygon *)
Section Polygons.
Context {T} `{Num T}.
Open Scope num_scope.
Variable dim : nat.
Local Notation "v .[ i ]" := (at_ v i) (at level 2, i at level 200, left associativity).

(** polygon_intersect.cpp 1111-1127, 1166-1182: the corners of the second polygon in the coordinates of the first *)
Definition carry_over (d : pmeet T) (l : corners T) : corners T :=
  map (fun p => let s := vec_add 2 p (m_off d) in
                mkC [s.[0] * (m_v1 d).[0] + s.[1] * (m_v2 d).[0]; s.[0] * (m_v1 d).[1] + s.[1] * (m_v2 d).[1]] (valid p)) l.
(** polygon_intersect.cpp 1049: the second end starts from p1 *)
Definition seg_of_first (d : pmeet T) (mn mx : T) : segment T :=
  mkS (vec_add 2 (m_p2 d) (vec_scale 2 (m_v2 d) mn)) (vec_add 2 (m_p1 d) (vec_scale 2 (m_v2 d) mx)).
(** polygon_intersect.cpp 1068, 1162 *)
Definition seg_of_second (d : pmeet T) (mn mx : T) : segment T :=
  mkS (vec_add 2 (m_p1 d) (vec_scale 2 (m_v1 d) mn)) (vec_add 2 (m_p1 d) (vec_scale 2 (m_v1 d) mx)).

(** polygon_intersect.cpp 992-1132 PolyPolyIntersect; a bool that was never written is undefined to read *)
Definition poly_poly_intersect (l1 l2 : corners T) (r : option (nat * pmeet T)) (proper : bool) : outcome bool :=
  match r with
  | None => Ret false
  | Some (0%nat, d) => do a <- i_pg2_point l1 (m_p1 d) proper; if a then i_pg2_point l2 (m_p2 d) proper else Ret false
  | Some (1%nat, d) =>
      match o1_is_line d, o2_is_line d with
      | Some line1, Some line2 =>
          if proper && (line1 || line2) then Ret false
          else if line1 && line2 then
            do ' (low1, high1) <- seen_bounds l1 (m_p1 d) (m_v1 d);
            do ' (low2, high2) <- seen_bounds l2 (m_p2 d) (m_v2 d);
            Ret ((high1 >=? low2) && (high2 >=? low1))
          else if line1 then do ' (mn, mx) <- seen_bounds l1 (m_p1 d) (m_v1 d); i_pg2_seg l2 (seg_of_first d mn mx) false
          else if line2 then do ' (mn, mx) <- seen_bounds l2 (m_p2 d) (m_v2 d); i_pg2_seg l1 (seg_of_second d mn mx) false
          else
            do cross1 <- get_crossings l1 (m_p1 d) (m_v1 d) proper;
            match cross1 with
            | [] => Ret false
            | _ =>
                do cross2 <- get_crossings l2 (m_p2 d) (m_v2 d) proper;
                match cross2 with [] => Ret false | _ => cross_walk proper cross1 cross2 false false end
            end
      | _, _ => Undef
      end
  | Some (_, d) => i_pg2_pg2 l1 (carry_over d l2) proper
  end.
(** polygon_intersect.cpp 1134-1187 PolyPolyContains *)
Definition poly_poly_contains (outer inner : corners T) (r : option (nat * pmeet T)) (proper : bool) : outcome bool :=
  match r with
  | None => Ret false
  | Some (0%nat, d) => if c_point_pg2 (m_p2 d) inner false then i_pg2_point outer (m_p1 d) proper else Ret false
  | Some (1%nat, d) =>
      match o2_is_line d with
      | Some true => do ' (mn, mx) <- seen_bounds inner (m_p2 d) (m_v2 d); c_pg2_seg outer (seg_of_second d mn mx) proper
      | Some false => Ret false
      | None => Undef
      end
  | Some (_, d) => c_pg2_pg2 outer (carry_over d inner) proper
  end.
(** polygon_intersect.cpp 654-662 *)
Definition i_pg_pg (p1 p2 : polygon T) (proper : bool) : outcome bool :=
  do r <- orient_orient dim (pplane p1) (pplane p2); poly_poly_intersect (pcorners p1) (pcorners p2) r proper.
(** polygon_intersect.cpp 664-682 *)
Definition c_pg_pg (outer inner : polygon T) (proper : bool) : outcome bool :=
  match pcorners outer, pcorners inner with
  | [], [] => Ret (negb proper)
  | [], _ => Ret false
  | _, [] => Ret true
  | lo, li => do r <- orient_orient dim (pplane outer) (pplane inner); poly_poly_contains lo li r proper
  end.

(** ** A polygon that contains a box *)
(** polygon_intersect.cpp 402-412: how many sides are not zero and the longest of them; None is the early return false *)
Definition box_dims (size : vector T) : option (nat * option nat) :=
  fold_left (fun st i =>
    match st with
    | None => None
    | Some (num, best) =>
        if size.[i] =? n0 then Some (num, best)
        else if Nat.eqb num 2 then None
        else Some (S num, match best with
                          | None => Some i
                          | Some b => if nabs size.[b] <? nabs size.[i] then Some i else Some b
                          end)
    end) (seq 0 dim) (Some (0%nat, None)).
(** polygon_intersect.cpp 398-453.  vec1 is the diagonal of the box; the box that is tested is turned so that its first
    axis lies along it. *)
Definition pg_contains_box (o : porient T) (l : corners T) (corner : point T) (size : vector T) (proper : bool) : outcome bool :=
  match box_dims size with
  | None => Ret false
  | Some (num, best) =>
      do r1 <- orient_contained dim o corner;
      match r1 with
      | None => Ret false
      | Some corner1 =>
          match num with
          | 0%nat => i_pg2_point l corner1 proper
          | _ =>
              do r2 <- orient_contained dim o (vec_add dim corner size);
              match r2 with
              | None => Ret false
              | Some corner2 =>
                  match num, best with
                  | 1%nat, _ => c_pg2_seg l (mkS corner1 corner2) proper
                  | _, None => Undef
                  | _, Some b =>
                      let other := mkC (upd (el corner) b (corner.[b] + size.[b])) (valid corner) in
                      do r3 <- orient_contained dim o other;
                      match r3 with
                      | None => Ret false
                      | Some corner3 =>
                          let vec1 := vec_sub 2 corner2 corner1 in
                          let vec2 := vec_sub 2 corner3 corner1 in
                          do m <- (match rot_from_to 2 (pt2 n1 n0 true) vec1 with Throws => Ret (rot_identity 2) | x => x end);
                          c_pg2_rb l (mkRB corner1 (prod_inv_vm 2 vec2 m) m) proper
                      end
                  end
              end
          end
      end
  end.
(** polygon_intersect.cpp 455-459 *)
Definition c_pg_box (p : polygon T) (b : axisbox T) (proper : bool) : outcome bool :=
  pg_contains_box (pplane p) (pcorners p) (low b) (vec_sub dim (high b) (low b)) proper.
(** polygon_intersect.cpp 623-630 *)
Definition c_pg_rb (p : polygon T) (r : rotbox T) (proper : bool) : outcome bool :=
  pg_contains_box (rb_orient dim r (pplane p)) (pcorners p) (corner0 r) (rsize r) proper.
End Polygons.
