(** Model of the conversions to and from Atlas messages: src/wfmath/atlasconv.h.  Messages are trees; the kinds
    of element that are neither numbers, lists nor maps (strings, pointers, nothing) are one constructor.
    Throws stands for WrongTypeException; what an object holds after the exception is not modelled. *)
From Coq Require Import ZArith NArith Bool String List.
From Verif Require Import Base Scalar ConstModel VecModel RotModel QuatModel ShapeModel PolyModel.
Import ListNotations.

(** Atlas::Message::Element, a type of the Atlas library: the kinds atlasconv.h 60-496 uses *)
Inductive element (T : Type) :=
| EFloat (x : T)
| EInt (z : Z)
| EList (l : list (element T))
| EMap (m : list (string * element T))
| EOther.
Arguments EFloat {T} x.
Arguments EInt {T} z.
Arguments EList {T} l.
Arguments EMap {T} m.
Arguments EOther {T}.

Section Atlas.
Context {T} `{Num T}.
Open Scope num_scope.
Local Notation "v .[ i ]" := (at_ v i) (at level 2, i at level 200, left associativity).

(** std::isfinite: x - x is zero for a finite x and NaN otherwise *)
Definition finite (x : T) : bool := x - x =? n0.
(** Element::isNum and asNum: integers are converted *)
Definition is_num (e : element T) : bool := match e with EFloat _ | EInt _ => true | _ => false end.
(** Element::asNum as used in atlasconv.h 88-100; no number: an exception *)
Definition as_num (e : element T) : outcome T :=
  match e with EFloat x => Ret x | EInt z => Ret (nofZ z) | _ => Throws end.
(** MapType::find *)
Definition map_find (m : list (string * element T)) (k : string) : option (element T) :=
  option_map snd (find (fun kv => String.eqb (fst kv) k) m).

(** atlasconv.h 78-86 _ArrayToAtlas *)
Definition array_to (l : list T) : element T := EList (map EFloat l).
(** atlasconv.h 88-100 _ArrayFromAtlas *)
Fixpoint nums (l : list (element T)) (i : nat) (len : nat) : outcome (list T) :=
  match len with
  | O => Ret []
  | S k => do e <- oget l i; do x <- as_num e; do r <- nums l (S i) k; Ret (x :: r)
  end.
(** atlasconv.h 88-100, as above *)
Definition array_from (len : nat) (a : element T) : outcome (list T) :=
  match a with
  | EList l => if Nat.eqb (length l) len then nums l 0 len else Throws
  | _ => Throws
  end.

(** atlasconv.h 108-124, 191-207: Vector and Point *)
Definition point_to (p : point T) : element T := array_to (el p).
(** atlasconv.h 108-124, 191-207, as above *)
Definition point_from (dim : nat) (a : element T) : outcome (point T) :=
  do l <- array_from dim a; Ret (mkC l (forallb finite l)).

(** atlasconv.h 126-170 Quaternion::fromAtlas *)
Definition quat_from (old : quat T) (a : element T) : outcome (quat T) :=
  match a with
  | EList l =>
      if negb (Nat.eqb (length l) 4) then Throws
      else
        do v <- nums l 0 3;
        if negb (forallb finite v) then Ret (mkQ (qw old) (mkC v false) false (qage old))
        else
          do e <- oget l 3;
          do w <- as_num e;
          let vec := mkC v (valid (qv old)) in
          if negb (finite w) then Ret (mkQ w vec false (qage old))
          else
            let norm := nsqrt (w * w + sqr_mag 3 vec) in
            if norm <=? neps then Ret (mkQ w (mkC v false) false (qage old))
            else Ret (mkQ (w / norm) (mkC (el (vec_div 3 vec norm)) true) true 1)
  | _ => Throws
  end.
(** atlasconv.h 172-181 *)
Definition quat_to (q : quat T) : element T := EList (map EFloat [(qv q).[0]; (qv q).[1]; (qv q).[2]; qw q]).

(** atlasconv.h 215-254 AxisBox::fromAtlas.  The loop of case 2 * dim: false is the early return. *)
Fixpoint box_loop (dim : nat) (l : list (element T)) (is : list nat) (b : axisbox T) : outcome (bool * axisbox T) :=
  match is with
  | [] => Ret (true, mkB (mkC (el (low b)) true) (mkC (el (high b)) true))
  | i :: r =>
      do e <- oget l i;
      do x <- as_num e;
      let lo := upd (el (low b)) i x in
      if negb (finite x) then Ret (false, mkB (mkC lo false) (high b))
      else
        do e <- oget l (i + dim);
        do y <- as_num e;
        let hi := upd (el (high b)) i y in
        if negb (finite y) then Ret (false, mkB (mkC lo (valid (low b))) (mkC hi false))
        else box_loop dim l r (mkB (mkC lo (valid (low b))) (mkC hi (valid (high b))))
  end.
(** atlasconv.h 247-253: the corners of a dimension are exchanged if they are in the wrong order *)
Definition box_sort (dim : nat) (b : axisbox T) : axisbox T :=
  let sw i := (low b).[i] >? (high b).[i] in
  mkB (mkC (tab dim (fun i => if sw i then (high b).[i] else (low b).[i])) (valid (low b)))
      (mkC (tab dim (fun i => if sw i then (low b).[i] else (high b).[i])) (valid (high b))).
(** atlasconv.h 247-253, as above *)
Definition box_from (dim : nat) (old : axisbox T) (a : element T) : outcome (axisbox T) :=
  match a with
  | EList l =>
      if Nat.eqb (length l) dim then do h <- point_from dim a; Ret (box_sort dim (mkB (vec_zero dim) h))
      else if Nat.eqb (length l) (2 * dim) then
        do r <- box_loop dim l (seq 0 dim) old; if fst r then Ret (box_sort dim (snd r)) else Ret (snd r)
      else Throws
  | _ => Throws
  end.
(** atlasconv.h 256-278 *)
Definition box_to (dim : nat) (b : axisbox T) : element T :=
  if all_below dim (fun i => (low b).[i] =? n0) then point_to (high b)
  else EList (map EFloat (tab dim (fun i => (low b).[i])) ++ map EFloat (tab dim (fun i => (high b).[i]))).

(** atlasconv.h 280-306 Ball::fromAtlas *)
Definition ball_from (dim : nat) (old : ball T) (a : element T) : outcome (ball T) :=
  match a with
  | EMap m =>
      let r := match map_find m "radius" with Some e => if is_num e then Some (as_num e) else None | None => None end in
      do r <- (match r with Some x => x | None => Ret (radius old) end);
      if match map_find m "radius" with Some e => is_num e && negb (finite r) | None => false end
      then Ret (mkBall (mkC (el (center old)) false) r)
      else
        match map_find m "position" with
        | Some (EList l) => do c <- point_from dim (EList l); Ret (mkBall c r)
        | _ => Ret (mkBall (center old) r)
        end
  | _ => Ret old
  end.
(** atlasconv.h 308-315 *)
Definition ball_to (b : ball T) : element T := EMap [("radius"%string, EFloat (radius b)); ("position"%string, point_to (center b))].
(** atlasconv.h 317-322 the constructor *)
Definition ball_make (dim : nat) (a : element T) : outcome (ball T) := ball_from dim (mkBall (vec_zero dim) n0) a.

(** atlasconv.h 324-332 _ListNumCheck *)
Fixpoint list_num_check (l : list (element T)) (i dim : nat) : outcome bool :=
  match dim with
  | O => Ret true
  | S k => do e <- oget l i; if is_num e then list_num_check l (S i) k else Ret false
  end.
(** atlasconv.h 334-355 _AddCorner (dim 2 and 3) *)
Definition add_corner (dim : nat) (shape : corners T) (l : list (element T)) : outcome (corners T) :=
  do x <- nums l 0 dim;
  if negb (forallb finite x) then Ret shape else poly_add shape (length shape) (mkC x true).
(** atlasconv.h 357-376 _CornersFromAtlas *)
Fixpoint corners_from (dim : nat) (shape : corners T) (l : list (element T)) : outcome (corners T) :=
  match l with
  | [] => Ret shape
  | EList p :: r =>
      if Nat.ltb (length p) dim then corners_from dim shape r
      else
        do ok <- list_num_check p 0 dim;
        if ok then do shape <- add_corner dim shape p; corners_from dim shape r else corners_from dim shape r
  | _ :: r => corners_from dim shape r
  end.
(** atlasconv.h 378-397 Polygon<2>, 412-431 Line; least is the number of corners that must be there *)
Definition shape_from (dim least : nat) (old : corners T) (a : element T) : outcome (corners T) :=
  match match a with EMap m => match map_find m "points" with Some (EList l) => Some l | _ => None end | EList l => Some l | _ => None end with
  | Some l => do s <- corners_from dim old l; if Nat.ltb least (length s) then Ret s else Throws
  | None => Throws
  end.
(** atlasconv.h 378-397, as above *)
Definition polygon_from (old : corners T) (a : element T) : outcome (corners T) := shape_from 2 2 old a.
(** atlasconv.h 378-397, as above *)
Definition line_from (dim : nat) (old : corners T) (a : element T) : outcome (corners T) := shape_from dim 0 old a.
(** atlasconv.h 399-409, 433-444 *)
Definition shape_to (l : corners T) : element T := EMap [("points"%string, EList (map point_to l))].

(** atlasconv.h 451-477 RotBox *)
Definition rotbox_from (dim : nat) (a : element T) : outcome (rotbox T) :=
  match a with
  | EMap m =>
      match map_find m "point" with
      | Some e =>
          do p <- point_from dim e;
          match map_find m "size" with
          | Some e => do z <- point_from dim e; Ret (mkRB p z (rot_identity dim))
          | None => Throws
          end
      | None => Throws
      end
  | _ => Throws
  end.
(** atlasconv.h 479-487 *)
Definition rotbox_to (r : rotbox T) : element T := EMap [("point"%string, point_to (corner0 r)); ("size"%string, point_to (rsize r))].
End Atlas.
