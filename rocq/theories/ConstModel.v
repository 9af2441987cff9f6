(** Model of src/wfmath/const.h and const.cpp. *)
From Coq Require Import ZArith Bool List.
From Verif Require Import Base Scalar.
Import ListNotations.

Section Const.
Context {T} `{Num T}.
Open Scope num_scope.

(** const.cpp 71-80 _ScaleEpsilon(double, double, double) *)
Definition scale_eps (x1 x2 epsilon : T) : T :=
  nldexp epsilon (nfrexp (if nabs x1 <? nabs x2 then x1 else x2)).

(** const.cpp 55-61 Equal(double, double, double).  The float overloads (63-69,
    82-91) have the same text. *)
Definition equal (x1 x2 epsilon : T) : bool := nabs (x1 - x2) <=? scale_eps x1 x2 epsilon.

(** const.cpp 98-106: largest absolute value, as computed by the loop. *)
Definition max_abs (l : list T) : T :=
  fold_left (fun m x => if nabs x >? m then nabs x else m) l n0.

(** const.cpp 93-109 _ScaleEpsilon(const CoordType*, const CoordType*, int, CoordType).
    The two interleaved loops are independent and written separately; the assertion
    length > 0 holds at every call because it is the dimension. *)
Definition scale_eps_arr (l1 l2 : list T) (epsilon : T) : T :=
  scale_eps (max_abs l1) (max_abs l2) epsilon.

(** const.h 168-173; 175-180 (DoubleMax, ...) are the same *)
Definition float_max (a b : T) : T := if a >? b then a else b.
(** const.h 168-173; 175-180, as above *)
Definition float_min (a b : T) : T := if a <? b then a else b.
(** const.h 168-173; 175-180, as above *)
Definition float_clamp (val mn mx : T) : T :=
  if mn >=? val then mn else if mx <=? val then mx else val.

(** const.h 61, 137: (30 * 2) / 3 *)
Definition max_norm_age : nat := Nat.div (30 * 2) 3.
End Const.
