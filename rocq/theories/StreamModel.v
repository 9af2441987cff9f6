(** Model of the text input and output: src/wfmath/stream.h, stream.cpp.  The conversion of one number to
    text and back is the standard library's and is left open: print and scan are parameters.  Formatting
    state other than the precision is not modelled, nor what is left in an object when reading it throws. *)
From Coq Require Import ZArith NArith Bool Ascii String List.
From Verif Require Import Base Scalar ConstModel VecModel RotModel QuatModel ShapeModel PolyModel.
Import ListNotations.

(** characters of a stream (stream.h, stream.cpp) *)
Definition text : Type := list ascii.
(** a string literal of stream.h or stream.cpp *)
Definition txt (s : string) : text := list_ascii_of_string s.

(** A std::istream: what is left of it, or None once an extraction has failed (every later one fails). *)
Definition stream : Type := option text.
(** What reading an object does: return it and leave the rest of the stream; throw ParseError; fail an
    assertion; loop for ever; test a char that was never set (undefined); not be done within the fuel. *)
Inductive io (A : Type) := Got (a : A) (s : stream) | ParseError | Aborted | Forever | Uninit | NoFuel.
Arguments Got {A} a s.
Arguments ParseError {A}.
Arguments Aborted {A}.
Arguments Forever {A}.
Arguments Uninit {A}.
Arguments NoFuel {A}.
(** sequencing of io (no counterpart in the source) *)
Definition iobind {A B} (x : io A) (f : A -> stream -> io B) : io B :=
  match x with Got a s => f a s | ParseError => ParseError | Aborted => Aborted | Forever => Forever | Uninit => Uninit | NoFuel => NoFuel end.

(** The white space that operator>> skips (std::isspace in the C locale) *)
Definition is_space (c : ascii) : bool :=
  let n := N_of_ascii c in (N.eqb n 32 || (N.leb 9 n && N.leb n 13))%N.
(** the white space before an extraction in stream.h 50-293 *)
Fixpoint skip_space (t : text) : text :=
  match t with
  | [] => []
  | c :: r => if is_space c then skip_space r else t
  end.
(** operator>>(istream, char): the char read if there is one; the variable is left alone otherwise *)
Definition get_char (next : option ascii) (s : stream) : option ascii * stream :=
  match s with
  | None => (next, None)
  | Some t => match skip_space t with [] => (next, None) | c :: r => (Some c, Some r) end
  end.
(** do { is >> next; } while(next != c): once the stream is at its end next does not change any more *)
Fixpoint skip_to (c : ascii) (next : option ascii) (t : text) : io unit :=
  match t with
  | [] => match next with None => Uninit | Some x => if Ascii.eqb x c then Got tt None else Forever end
  | x :: r => if is_space x then skip_to c next r
              else if Ascii.eqb x c then Got tt (Some r) else skip_to c (Some x) r
  end.
(** the loops of stream.h 50-89 and stream.cpp 38-69 *)
Definition skip_to_s (c : ascii) (next : option ascii) (s : stream) : io unit :=
  skip_to c next (match s with Some t => t | None => [] end).
(** is >> next; if(next != c) throw ParseError(); *)
Definition expect (c : ascii) (next : option ascii) (s : stream) : io unit :=
  match get_char next s with
  | (None, _) => Uninit
  | (Some x, s) => if Ascii.eqb x c then Got tt s else ParseError
  end.

Local Open Scope char_scope.

Section Numbers.
Variable T : Type.
(** operator<<(ostream, double) and operator>>(istream, double); what a failed extraction leaves behind *)
Variable print : T -> text.
Variable scan : text -> option (T * text).
Variable bad : T.

(** extraction of a double, stream.h 50-89 *)
Definition get_num (s : stream) : T * stream :=
  match s with
  | None => (bad, None)
  | Some t => match scan t with Some (x, r) => (x, Some r) | None => (bad, None) end
  end.

(** stream.cpp 240-246 WriteCoordList *)
Fixpoint write_list (l : list T) : text :=
  match l with
  | [] => []
  | [x] => print x ++ [")"]
  | x :: r => print x ++ "," :: write_list r
  end.
(** stream.cpp 240-246, as above *)
Definition write_coords (l : list T) : text := "(" :: write_list l.
(** stream.cpp 248-263 ReadCoordList: num coordinates are left to read *)
Fixpoint read_list (num : nat) (next : ascii) (s : stream) : io (list T) :=
  match num with
  | O => Got [] s
  | S k =>
      let (x, s) := get_num s in
      let want := match k with O => ")" | _ => "," end in
      match get_char (Some next) s with
      | (Some c, s) => if Ascii.eqb c want then iobind (read_list k c s) (fun l s => Got (x :: l) s) else ParseError
      | (None, _) => Uninit
      end
  end.
(** stream.cpp 248-263, as above *)
Definition read_coords (num : nat) (s : stream) : io (list T) :=
  iobind (expect "(" None s) (fun _ s => read_list num "(" s).

(** stream.h 117-130, 166-179: Vector and Point *)
Definition write_point (p : point T) : text := write_coords (el p).
(** stream.h 117-130, 166-179, as above *)
Definition read_point (dim : nat) (s : stream) : io (point T) := iobind (read_coords dim s) (fun l s => Got (mkC l true) s).

(** stream.h 181-205 AxisBox.  The second loop starts with next == '='. *)
Definition write_box (b : axisbox T) : text :=
  txt "AxisBox: m_low = " ++ write_point (low b) ++ txt ", m_high = " ++ write_point (high b).
(** stream.h 181-205, as above *)
Definition read_box (dim : nat) (s : stream) : io (axisbox T) :=
  iobind (skip_to_s "=" None s) (fun _ s =>
  iobind (read_point dim s) (fun lo s =>
  iobind (skip_to_s "=" (Some "=") s) (fun _ s =>
  iobind (read_point dim s) (fun hi s => Got (mkB lo hi) s)))).
(** stream.h 207-232 Ball *)
Definition write_ball (b : ball T) : text :=
  txt "Ball: m_center = " ++ write_point (center b) ++ txt ", m_radius = " ++ print (radius b).
(** stream.h 207-232, as above *)
Definition read_ball (dim : nat) (s : stream) : io (ball T) :=
  iobind (skip_to_s "=" None s) (fun _ s =>
  iobind (read_point dim s) (fun c s =>
  iobind (skip_to_s "=" (Some "=") s) (fun _ s =>
  let (r, s) := get_num s in Got (mkBall c r) s))).
(** stream.h 234-258 Segment *)
Definition write_segment (g : segment T) : text :=
  txt "Segment: m_p1 = " ++ write_point (end1 g) ++ txt ", m_p2 = " ++ write_point (end2 g).
(** stream.h 234-258, as above *)
Definition read_segment (dim : nat) (s : stream) : io (segment T) :=
  iobind (skip_to_s "=" None s) (fun _ s =>
  iobind (read_point dim s) (fun p1 s =>
  iobind (skip_to_s "=" (Some "=") s) (fun _ s =>
  iobind (read_point dim s) (fun p2 s => Got (mkS p1 p2) s)))).

(** stream.h 132-141 RotMatrix, the rows of the matrix *)
Fixpoint write_rows (rows : list (list T)) : text :=
  match rows with
  | [] => []
  | [r] => write_coords r ++ [")"]
  | r :: rest => write_coords r ++ "," :: write_rows rest
  end.
(** stream.h 132-141, as above *)
Definition write_matrix (m : rotmatrix T) : text := "(" :: write_rows (me m).
(** stream.h 143-158: next keeps its value between rows *)
Fixpoint read_rows (dim : nat) (num : nat) (next : ascii) (s : stream) : io (list (list T)) :=
  match num with
  | O => Got [] s
  | S k =>
      iobind (read_coords dim s) (fun row s =>
      let want := match k with O => ")" | _ => "," end in
      match get_char (Some next) s with
      | (Some c, s) => if Ascii.eqb c want then iobind (read_rows dim k c s) (fun l s => Got (row :: l) s) else ParseError
      | (None, _) => Uninit
      end)
  end.

(** stream.cpp 279-297 Polygon<2> *)
Fixpoint write_corners (l : list (point T)) : text :=
  match l with
  | [] => []
  | [p] => write_point p ++ [")"]
  | p :: r => write_point p ++ "," :: write_corners r
  end.
(** stream.cpp 279-297, as above *)
Definition write_pg2 (l : corners T) : text :=
  match l with [] => txt "<empty>" | _ => txt "Polygon: (" ++ write_corners l end.
(** The loop "is >> p; push_back(p); is >> next; ..." (stream.cpp 314-323, 87-95): next was '(' before it *)
Fixpoint read_corners (fuel : nat) (dim : nat) (next : ascii) (s : stream) : io (list (point T)) :=
  match fuel with
  | O => NoFuel
  | S fuel =>
      iobind (read_point dim s) (fun p s =>
      match get_char (Some next) s with
      | (None, _) => Uninit
      | (Some c, s) =>
          if Ascii.eqb c ")" then Got [p] s
          else if Ascii.eqb c "," then iobind (read_corners fuel dim c s) (fun l s => Got (p :: l) s)
          else ParseError
      end)
  end.
(** do { is >> next; if(next == '<') { do { is >> next; } while(next != '>'); return; } } while(next != '('):
    true when the polygon is empty (stream.cpp 305-312, 79-86) *)
Fixpoint read_start (next : option ascii) (t : text) : io bool :=
  match t with
  | [] => match next with None => Uninit | Some x => if Ascii.eqb x "(" then Got false None else Forever end
  | x :: r => if is_space x then read_start next r
              else if Ascii.eqb x "<" then iobind (skip_to ">" (Some "<") r) (fun _ s => Got true s)
              else if Ascii.eqb x "(" then Got false (Some r) else read_start (Some x) r
  end.
(** stream.cpp 78-86 *)
Definition read_start_s (s : stream) : io bool := read_start None (match s with Some t => t | None => [] end).
(** stream.cpp 299-325 *)
Definition read_pg2 (fuel : nat) (s : stream) : io (corners T) :=
  iobind (read_start_s s) (fun empty s => if empty then Got [] s else read_corners fuel 2 "(" s).
End Numbers.
Arguments write_list {T} print l.
Arguments write_coords {T} print l.
Arguments write_point {T} print p.
Arguments write_box {T} print b.
Arguments write_ball {T} print b.
Arguments write_segment {T} print g.
Arguments write_rows {T} print rows.
Arguments write_matrix {T} print m.
Arguments write_corners {T} print l.
Arguments write_pg2 {T} print l.
Arguments get_num {T} scan bad s.
Arguments read_list {T} scan bad num next s.
Arguments read_coords {T} scan bad num s.
Arguments read_point {T} scan bad dim s.
Arguments read_box {T} scan bad dim s.
Arguments read_ball {T} scan bad dim s.
Arguments read_segment {T} scan bad dim s.
Arguments read_rows {T} scan bad dim num next s.
Arguments read_corners {T} scan bad fuel dim next s.
Arguments read_pg2 {T} scan bad fuel s.

Section Arith.
Context {T} `{Num T}.
Open Scope num_scope.
Variable print : T -> text.
Variable scan : text -> option (T * text).

(** stream.cpp 265-273 GetEpsilon, for a stream of the given precision *)
Fixpoint tenth_power (k : nat) : T := match k with O => n1 | S k => tenth_power k / nofZ 10 end.
(** stream.cpp 265-273, as above *)
Definition get_epsilon (precision : nat) : T := tenth_power (precision - 1).
(** stream.h 143-164 RotMatrix, read into m *)
Definition read_matrix (fuel dim precision : nat) (m : rotmatrix T) (s : stream) : io (rotmatrix T) :=
  iobind (expect "(" None s) (fun _ s =>
  iobind (read_rows scan n0 dim dim "(" s) (fun rows s =>
  match set_vals dim fuel m rows (float_max neps (get_epsilon precision)) with
  | None => NoFuel
  | Some (true, m') => Got m' s
  | Some (false, _) => ParseError
  end)).
(** stream.h 260-293 RotBox, read into r *)
Definition write_rotbox (r : rotbox T) : text :=
  txt "RotBox: m_corner0 = " ++ write_point print (corner0 r) ++ txt ", m_size = " ++ write_point print (rsize r)
  ++ txt ", m_orient = " ++ write_matrix print (orient r).
(** stream.h 260-293, as above *)
Definition read_rotbox (fuel dim precision : nat) (r : rotbox T) (s : stream) : io (rotbox T) :=
  iobind (skip_to_s "=" None s) (fun _ s =>
  iobind (read_point scan n0 dim s) (fun c s =>
  iobind (skip_to_s "=" (Some "="%char) s) (fun _ s =>
  iobind (read_point scan n0 dim s) (fun z s =>
  iobind (skip_to_s "=" (Some "="%char) s) (fun _ s =>
  iobind (read_matrix fuel dim precision (orient r) s) (fun m s => Got (mkRB c z m) s)))))).

(** stream.cpp 327-360 Quaternion; m_age is not set *)
Definition write_quat (q : quat T) : text :=
  txt "Quaternion: (" ++ print (qw q) ++ ","%char :: write_point print (qv q) ++ [")"%char].
(** stream.cpp 327-360, as above *)
Definition read_quat (q : quat T) (s : stream) : io (quat T) :=
  iobind (skip_to_s "(" None s) (fun _ s =>
  let (w, s) := get_num scan n0 s in
  iobind (expect "," (Some "("%char) s) (fun _ s =>
  iobind (read_point scan n0 3 s) (fun v s =>
  let norm := nsqrt (w * w + sqr_mag 3 v) in
  iobind (expect ")" (Some ","%char) s) (fun _ s =>
  Got (mkQ (w / norm) (vec_div 3 v norm) true (qage q)) s)))).

(** ** Polygon<dim>, stream.cpp 70-203 *)
Variable dim : nat.
(** stream.cpp 188-203: the separator after corner i is chosen by i < dim - 1 *)
Fixpoint write_corners_d (i : nat) (l : list (point T)) : text :=
  match l with
  | [] => []
  | p :: r => write_point print p ++ (if Nat.ltb i (dim - 1) then ","%char else ")"%char) :: write_corners_d (S i) r
  end.
(** stream.cpp 188-203 *)
Fixpoint corners_of (p : polygon T) (is : list nat) : outcome (list (point T)) :=
  match is with
  | [] => Ret []
  | i :: r => do c <- pg_corner dim p i; do l <- corners_of p r; Ret (c :: l)
  end.
(** stream.cpp 188-203 *)
Definition write_pg (p : polygon T) : outcome text :=
  match pcorners p with
  | [] => Ret (txt "<empty>")
  | _ => do l <- corners_of p (seq 0 (pg_num p)); Ret (txt "Polygon: (" ++ write_corners_d 0 l)
  end.
(** stream.cpp 125-136: the two points farthest apart, None if no distance exceeds -1 *)
Definition pairs_of (k : nat) : list (nat * nat) := flat_map (fun i => map (fun j => (i, j)) (seq (S i) (k - S i))) (seq 0 k).
(** stream.cpp 125-136 *)
Definition far_pair (l : list (point T)) : option (nat * nat) :=
  fst (fold_left (fun (st : option (nat * nat) * T) ij =>
         let new_dist := sloppy_dist dim (nth (fst ij) l (coords_default dim)) (nth (snd ij) l (coords_default dim)) in
         if new_dist >? snd st then (Some ij, new_dist) else st) (pairs_of (length l)) (None, - n1)).
(** stream.cpp 143-153: the one farthest from both *)
Definition far_third (l : list (point T)) (p1 p2 : nat) : option nat :=
  fst (fold_left (fun (st : option nat * T) i =>
         if Nat.eqb i p1 || Nat.eqb i p2 then st
         else
           let x := nth i l (coords_default dim) in
           let new_dist := float_min (sloppy_dist dim x (nth p1 l (coords_default dim))) (sloppy_dist dim x (nth p2 l (coords_default dim))) in
           if new_dist >? snd st then (Some i, new_dist) else st) (seq 0 (length l)) (None, - n1)).
(** The calls of expand in the given order: the first must succeed (assertions), the others throw
    ParseError.  The result has the coordinates in the plane, in the order of the calls. *)
Fixpoint expand_all (o : porient T) (must : nat) (pts : list (point T)) (epsilon : T) (s : stream) : io (porient T * list (point T)) :=
  match pts with
  | [] => Got (o, []) s
  | x :: rest =>
      match orient_expand dim o x epsilon with
      | None => match must with O => ParseError | _ => Aborted end
      | Some (o, p2) => iobind (expand_all o (must - 1) rest epsilon s) (fun ol s => Got (fst ol, p2 :: snd ol) s)
      end
  end.
(** stream.cpp 155-183 *)
Fixpoint find_index (k : nat) (order : list nat) (l2 : list (point T)) : point T :=
  match order, l2 with
  | i :: order, x :: l2 => if Nat.eqb i k then x else find_index k order l2
  | _, _ => coords_default 2
  end.
(** stream.cpp 97-183 *)
Definition read_order (l : list (point T)) : option (list nat) :=
  if Nat.ltb (length l) 3 then Some (seq 0 (length l))
  else
    match far_pair l with
    | None => None
    | Some (p1, p2) =>
        match far_third l p1 p2 with
        | None => None
        | Some p3 => Some (p1 :: p2 :: p3 :: filter (fun i => negb (Nat.eqb i p1 || Nat.eqb i p2 || Nat.eqb i p3)) (seq 0 (length l)))
        end
    end.
(** stream.cpp 97-183.  str_eps is a float there; its rounding is left out. *)
Definition build_pg (l : list (point T)) (epsilon : T) (s : stream) : io (polygon T) :=
  match read_order l with
  | None => Aborted
  | Some order =>
      iobind (expand_all (orient_default dim) 3 (map (fun i => nth i l (coords_default dim)) order) epsilon s) (fun ol s =>
      Got (mkP (fst ol) (map (fun k => find_index k order (snd ol)) (seq 0 (length l)))) s)
  end.
(** stream.cpp 70-185, read into r: an empty polygon leaves r as it was *)
Definition read_pg (fuel precision : nat) (r : polygon T) (s : stream) : io (polygon T) :=
  iobind (read_start_s s) (fun empty s =>
  if empty then Got r s
  else iobind (read_corners scan n0 fuel dim "(" s) (fun l s => build_pg l (float_max (get_epsilon precision) neps) s)).

(** stream.h 304-319 Line; there is no operator>> *)
Definition write_line (l : corners T) : text :=
  match l with [] => txt "<empty>" | _ => txt "Line: (" ++ write_corners_d 0 l end.
End Arith.
