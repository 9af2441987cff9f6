(** Model of src/wfmath/miniball.h, miniball_funcs.h, wrapped_array.h and of BoundingSphere (ball_funcs.h 56-89):
    the smallest enclosing ball of a list of points.  Points are lists of d coordinates (Wrapped_array<d>), list
    iterators are positions, and the pointer current_c is the number j of the row c[j] it points to.
    A loop that does not end within its fuel gives None. *)
From Coq Require Import ZArith Reals Bool List SpecFloat.
From Verif Require Import Base Scalar ConstModel VecModel ShapeModel.
Import ListNotations.

(** outcomes with fuel: None is fuel exhausted (no counterpart in miniball_funcs.h 63-160) *)
Definition res (A : Type) : Type := option (outcome A).
(** sequencing of res (no counterpart in the source) *)
Definition rbind {A B} (x : res A) (f : A -> res B) : res B :=
  match x with
  | None => None
  | Some (Ret a) => f a
  | Some Undef => Some Undef
  | Some AssertFail => Some AssertFail
  | Some Throws => Some Throws
  end.

(** miniball.h 94-137 class Basis *)
Record basis (T : Type) := mkBasis {
  bm : nat; bs : nat;                 (* m, s *)
  bq0 : list T;
  bz : list T; bf : list T;
  bv : list (list T); ba : list (list T);
  bc : list (list T); bsr : list T;   (* c, sqr_r *)
  bcur : nat; bcr : T                 (* current_c, current_sqr_r *)
}.
Arguments mkBasis {T}.
Arguments bm {T} b. Arguments bs {T} b. Arguments bq0 {T} b. Arguments bz {T} b. Arguments bf {T} b.
Arguments bv {T} b. Arguments ba {T} b. Arguments bc {T} b. Arguments bsr {T} b. Arguments bcur {T} b. Arguments bcr {T} b.

(** miniball.h 50-92 class Miniball: the list, the position support_end, the basis *)
Record mbstate (T : Type) := mkMB { mL : list (list T); msup : nat; mB : basis T }.
Arguments mkMB {T}. Arguments mL {T} m. Arguments msup {T} m. Arguments mB {T} m.

(** std::list::splice(begin, L, j) for the element at position j, and the new position of an iterator *)
Definition to_front {A} (l : list A) (j : nat) : list A :=
  match nth_error l j with Some x => x :: firstn j l ++ skipn (S j) l | None => l end.
(** the position of an iterator after the splice of miniball_funcs.h 81-86 *)
Definition shift_pos (j s : nat) : nat := if Nat.ltb s j then S s else if Nat.eqb s j then 0 else s.

Section Miniball.
Context {T} `{Num T}.
Variable d : nat.
(** the literal eps in Basis::push *)
Variable tau : T.
Open Scope num_scope.

(** row i of the arrays of miniball.h 94-137 *)
Definition row (l : list (list T)) (i : nat) : list T := nth i l [].
(** miniball.h 70 *)
Definition sqr (x : T) : T := x * x.
(** excess (miniball_funcs.h 242-248) of a point for the centre c and the squared radius r; also the sums of
    max_excess (118-120) and push (319-321) *)
Definition power (c : list T) (r : T) (p : list T) : T :=
  fold_left (fun e k => e + sqr (get p k - get c k)) (seq 0 d) (- r).

(** miniball_funcs.h 207-218 *)
Definition center_of (b : basis T) : list T := row (bc b) (bcur b).
(** miniball_funcs.h 207-218, as above *)
Definition excess (b : basis T) (p : list T) : T := power (center_of b) (bcr b) p.

(** miniball_funcs.h 252-261 reset; 264-268 the constructor.  The arrays hold zeros before they are written; no value is read
    before it is written. *)
Definition zeros (n : nat) : list T := tab n (fun _ => n0).
(** miniball_funcs.h 252-261, as above *)
Definition basis_make : basis T :=
  mkBasis 0 0 (zeros d) (zeros (S d)) (zeros (S d)) (tab (S d) (fun _ => zeros d)) (tab (S d) (fun _ => zeros d))
          (tab (S d) (fun _ => zeros d)) (zeros (S d)) 0 (- n1).
(** miniball_funcs.h 252-261, as above *)
Definition basis_reset (b : basis T) : basis T :=
  mkBasis 0 0 (bq0 b) (bz b) (bf b) (bv b) (ba b) (upd (bc b) 0 (zeros d)) (bsr b) 0 (- n1).

(** miniball_funcs.h 271-275 *)
Definition pop (b : basis T) : basis T :=
  mkBasis (bm b - 1) (bs b) (bq0 b) (bz b) (bf b) (bv b) (ba b) (bc b) (bsr b) (bcur b) (bcr b).

(** miniball_funcs.h 278-333 push.  With m > d the rows m of the arrays do not exist. *)
Definition push (b : basis T) (p : list T) : outcome (bool * basis T) :=
  let m := bm b in
  if Nat.ltb d m then Undef
  else if Nat.eqb m 0 then
    let q := tab d (fun i => get p i) in
    Ret (true, mkBasis 1 1 q (bz b) (bf b) (bv b) (ba b) (upd (bc b) 0 q) (upd (bsr b) 0 n0) 0 n0)
  else
    (* 293-294 *)
    let w := tab d (fun i => get p i - get (bq0 b) i) in
    (* 297-302 *)
    let am := tab d (fun i => if Nat.leb 1 i && Nat.ltb i m
                              then nsum d (fun j => get (row (bv b) i) j * get w j) * (n2 / get (bz b) i)
                              else get (row (ba b) m) i) in
    (* 305-308 *)
    let vm := fold_left (fun w i => tab d (fun j => get w j - get am i * get (row (bv b) i) j)) (seq 1 (m - 1)) w in
    (* 311-314 *)
    let zm := nsum d (fun j => sqr (get vm j)) * n2 in
    let b' := mkBasis m (bs b) (bq0 b) (upd (bz b) m zm) (bf b) (upd (bv b) m vm) (upd (ba b) m am) (bc b) (bsr b) (bcur b) (bcr b) in
    (* 317-319 *)
    if zm <? tau * bcr b then Ret (false, b')
    else
      (* 322-330 *)
      let e := power (row (bc b) (m - 1)) (get (bsr b) (m - 1)) p in
      let fm := e / zm in
      let cm := tab d (fun i => get (row (bc b) (m - 1)) i + fm * get vm i) in
      let rm := get (bsr b) (m - 1) + e * fm / n2 in
      Ret (true, mkBasis (S m) (S m) (bq0 b) (bz b') (upd (bf b) m fm) (bv b') (ba b') (upd (bc b) m cm) (upd (bsr b) m rm) m rm).

(** miniball_funcs.h 81-86 move_to_front *)
Definition move_to_front (j : nat) (st : mbstate T) : mbstate T :=
  let s := if Nat.eqb (msup st) j then S (msup st) else msup st in
  mkMB (to_front (mL st) j) (shift_pos j s) (mB st).

(** miniball_funcs.h 63-78 mtf_mb(i) with i the position n.  The loop handles the positions from idx on; rec is the recursive call. *)
Fixpoint mtf_loop (rec : nat -> mbstate T -> res (mbstate T)) (idx left : nat) (st : mbstate T) : res (mbstate T) :=
  match left with
  | O => Some (Ret st)
  | S l =>
      match nth_error (mL st) idx with
      | None => Some Undef
      | Some p =>
          if excess (mB st) p >? n0 then
            rbind (Some (push (mB st) p)) (fun r : bool * basis T =>
              if fst r then
                rbind (rec idx (mkMB (mL st) (msup st) (snd r))) (fun st' =>
                  mtf_loop rec (S idx) l (move_to_front idx (mkMB (mL st') (msup st') (pop (mB st')))))
              else mtf_loop rec (S idx) l (mkMB (mL st) (msup st) (snd r)))
          else mtf_loop rec (S idx) l st
      end
  end.
(** miniball_funcs.h 63-78, as above *)
Fixpoint mtf_mb (fuel n : nat) (st : mbstate T) : res (mbstate T) :=
  match fuel with
  | O => None
  | S k =>
      let st := mkMB (mL st) 0 (mB st) in
      if Nat.eqb (bm (mB st)) (d + 1) then Some (Ret st) else mtf_loop (mtf_mb k) 0 n st
  end.

(** miniball_funcs.h 111-127 max_excess over the positions from t on: the largest positive excess and where it is found first *)
Definition max_excess (st : mbstate T) (t : nat) : T * option nat :=
  fold_left (fun (acc : T * option nat) (kp : nat * list T) =>
      let e := power (center_of (mB st)) (bcr (mB st)) (snd kp) in
      if e >? fst acc then (e, Some (fst kp)) else acc)
    (combine (seq t (length (mL st) - t)) (skipn t (mL st))) (n0, None).

(** miniball_funcs.h 89-108 pivot_mb(L.end()).  One round of the do loop at position t; rec is the next round. *)
Fixpoint pivot_loop (fuel t : nat) (st : mbstate T) : res (mbstate T) :=
  match fuel with
  | O => None
  | S k =>
      let (e, pv) := max_excess st t in
      if e <=? n0 then Some (Ret st)
      else
        match pv with
        | None => Some Undef   (* an uninitialised iterator *)
        | Some pivot =>
            let t := msup st in
            let t := if Nat.eqb t pivot then S t else t in
            let old := bcr (mB st) in
            match nth_error (mL st) pivot with
            | None => Some Undef
            | Some p =>
                rbind (Some (push (mB st) p)) (fun r : bool * basis T =>
                  rbind (mtf_mb (S (length (mL st))) (msup st) (mkMB (mL st) (msup st) (snd r))) (fun st' =>
                    let st'' := move_to_front pivot (mkMB (mL st') (msup st') (pop (mB st'))) in
                    if bcr (mB st'') >? old then pivot_loop k (shift_pos pivot t) st'' else Some (Ret st'')))
            end
        end
  end.
(** miniball_funcs.h 89-107 *)
Definition pivot_mb (fuel : nat) (st : mbstate T) : res (mbstate T) :=
  match mL st with
  | [] => Some Undef   (* ++ on the end iterator *)
  | _ => rbind (mtf_mb (S (length (mL st))) 1 st) (fun st => pivot_loop fuel 1 st)
  end.

(** miniball_funcs.h 51-60 build *)
Definition build (fuel : nat) (pivoting : bool) (st : mbstate T) : res (mbstate T) :=
  let st := mkMB (mL st) 0 (basis_reset (mB st)) in
  if pivoting then pivot_mb fuel st else mtf_mb (S (length (mL st))) (length (mL st)) st.

(** miniball_funcs.h 337-351 slack *)
Definition slack (b : basis T) : T :=
  let s := bs b in
  let '(l, min_l) :=
    fold_left (fun (acc : list T * T) i =>
        let (l, min_l) := acc in
        let li := fold_left (fun x k => x - get (row (ba b) k) i * get l k) (rev (seq (S i) (s - 1 - i))) (get (bf b) i) in
        let min_l := if li <? min_l then li else min_l in
        (upd (upd l i li) 0 (get l 0 - li), min_l))
      (rev (seq 1 (s - 1))) (upd (zeros (S d)) 0 n1, n0) in
  let min_l := if get l 0 <? min_l then get l 0 else min_l in
  if min_l <? n0 then - min_l else n0.

(** miniball_funcs.h 184-202 accuracy; miniball.h 69: abs *)
Definition mb_abs (r : T) : T := if r >? n0 then r else - r.
(** miniball_funcs.h 184-202, as above *)
Definition accuracy (st : mbstate T) : outcome (T * T) :=
  let b := mB st in
  let m1 := fold_left (fun m p => if mb_abs (excess b p) >? m then mb_abs (excess b p) else m) (firstn (msup st) (mL st)) n0 in
  oassert (Nat.eqb (length (firstn (msup st) (mL st))) (bs b))
    (let m2 := fold_left (fun m p => if excess b p >? m then excess b p else m) (skipn (msup st) (mL st)) m1 in
     Ret (m2 / bcr b, slack b)).

(** ball_funcs.h 56-89 BoundingSphere, assertions enabled *)
Definition bounding_sphere (fuel : nat) (c : list (point T)) : res (ball T) :=
  rbind (build fuel true (mkMB (map (fun p => tab d (fun j => at_ p j)) c) 0 basis_make)) (fun st =>
    rbind (Some (accuracy st)) (fun a =>
      Some (oassert (fst a <? neps)
        (Ret (ball_make (mkC (tab d (fun j => get (center_of (mB st)) j)) (forallb valid c)) (nsqrt (bcr (mB st)))))))).
End Miniball.

(** miniball_funcs.h 282: the literal 1e-32, in exact arithmetic and rounded to a double *)
Definition mb_eps : R := (1 / 10 ^ 32)%R.
(** miniball_funcs.h 282, as above *)
Definition mb_eps64 : spec_float := binary_normalize prec64 emax64 7307508186654515 (-159) false.
