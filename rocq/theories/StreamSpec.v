(** Specification vocabulary for text input and output: when the conversion of numbers is exact, and what the
    text of a list of coordinates is. *)
From Coq Require Import ZArith NArith Bool Ascii String List.
From Verif Require Import Base Scalar VecModel ShapeModel PolyModel StreamModel.
Import ListNotations.
Local Open Scope char_scope.

(** What may follow a number: the end of the text, a separator or white space. *)
Definition ends (rest : text) : Prop :=
  rest = [] \/ exists c r, rest = c :: r /\ (c = "," \/ c = ")" \/ is_space c = true).
Definition blank (t : text) : Prop := forall c, In c t -> is_space c = true.
(** Every number of the class ok is read back, after any white space, as the number that was written. *)
Definition prints_exactly {T} (print : T -> text) (scan : text -> option (T * text)) (ok : T -> Prop) : Prop :=
  forall x, ok x -> forall pre rest, blank pre -> ends rest -> scan (pre ++ print x ++ rest) = Some (x, rest).

(** The number x is at the start of t, then the character c, then rest, with any white space before c *)
Definition number_then {T} (scan : text -> option (T * text)) (c : ascii) (t : text) (x : T) (rest : text) : Prop :=
  exists sp r, scan t = Some (x, r) /\ blank sp /\ is_space c = false /\ r = sp ++ c :: rest.
Inductive list_text {T} (scan : text -> option (T * text)) : text -> list T -> text -> Prop :=
| lt_last : forall t x rest, number_then scan ")" t x rest -> list_text scan t [x] rest
| lt_more : forall t x r l rest, number_then scan "," t x r -> list_text scan r l rest -> list_text scan t (x :: l) rest.
(** ( x1 , ... , xn ) *)
Definition coords_text {T} (scan : text -> option (T * text)) (t : text) (l : list T) (rest : text) : Prop :=
  exists sp t', blank sp /\ t = sp ++ "(" :: t' /\ list_text scan t' l rest.

(** The objects whose coordinates all belong to the class. *)
Definition ok_point {T} (ok : T -> Prop) (dim : nat) (p : point T) : Prop := length (el p) = dim /\ Forall ok (el p) /\ valid p = true.
