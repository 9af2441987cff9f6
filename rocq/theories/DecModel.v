(** The conversion of one double to text and back, which stream.cpp 240-263 and stream.h leave to the standard library:
    operator<<(ostream, double) with the stream's precision and no other formatting state, that is printf's %.*g in the C
    locale, and operator>>(istream, double), that is strtod on the longest text that can be a number.  Both round the exact
    value to nearest, ties to even, as glibc does.  This is a model of the library under wfmath, not of code in /repo. *)
From Coq Require Import ZArith NArith Bool Ascii String List SpecFloat.
From Verif Require Import Base Scalar StreamModel.
Import ListNotations.
Local Open Scope Z_scope.

(** ** Digits (printf and strtod, as used by stream.cpp 240-263) *)
(** the last n decimal digits of d, first digit first *)
Fixpoint digits (n : nat) (d : Z) : list Z :=
  match n with O => [] | S k => digits k (d / 10) ++ [d mod 10] end.
(** the number that a list of digits is (stream.cpp 240-263) *)
Definition number (l : list Z) : Z := fold_left (fun a d => 10 * a + d) l 0.
(** a digit as a character, and back (stream.cpp 240-263) *)
Definition digit_char (d : Z) : ascii := ascii_of_N (48 + Z.to_N d).
(** stream.cpp 240-263, as above *)
Definition char_digit (c : ascii) : option Z :=
  let n := N_of_ascii c in if ((48 <=? n) && (n <=? 57))%N then Some (Z.of_N n - 48) else None.
(** without the zeros at the end: %g removes them (stream.cpp 240-246) *)
Fixpoint drop_zeros (l : list Z) : list Z :=
  match l with [] => [] | d :: r => if d =? 0 then drop_zeros r else l end.
(** stream.cpp 240-246, as above *)
Definition strip (l : list Z) : list Z := rev (drop_zeros (rev l)).
(** number of decimal digits of a positive number, at least one (stream.cpp 240-246); fuel: its binary digits *)
Fixpoint count_digits (fuel : nat) (z : Z) : Z :=
  match fuel with O => 1 | S k => if z <? 10 then 1 else 1 + count_digits k (z / 10) end.
(** stream.cpp 240-246, as above *)
Definition ndigits (z : Z) : Z := count_digits (Z.to_nat (Z.log2 z)) z.

(** ** Printing (stream.cpp 240-246) *)
(** the exponent of the first digit of a/b *)
Definition first_exp (a b : Z) : Z :=
  if b <=? a then ndigits (a / b) - 1 else - ndigits ((b + a - 1) / a - 1).
(** the integer nearest to a/b, ties to even (stream.cpp 240-246) *)
Definition near_int (a b : Z) : Z :=
  let q := a / b in let r := a mod b in
  if 2 * r <? b then q else if b <? 2 * r then q + 1 else if Z.even q then q else q + 1.
(** a/b > 0 to prec digits: the digits as one number and the exponent of the first of them (stream.cpp 240-246) *)
Definition to_decimal (prec : nat) (a b : Z) : Z * Z :=
  let x0 := first_exp a b in
  let sh := Z.of_nat prec - 1 - x0 in
  let d := near_int (a * 10 ^ (Z.max sh 0)) (b * 10 ^ (Z.max (- sh) 0)) in
  if d =? 10 ^ Z.of_nat prec then (10 ^ (Z.of_nat prec - 1), x0 + 1) else (d, x0).
(** digits with a point before them if there are any (stream.cpp 240-246) *)
Definition fraction (l : list Z) : text := match l with [] => [] | _ => "."%char :: map digit_char l end.
(** an exponent has at least two digits (stream.cpp 240-246) *)
Definition exponent (x : Z) : text :=
  "e"%char :: (if x <? 0 then "-"%char else "+"%char) :: map digit_char (digits (Z.to_nat (Z.max 2 (ndigits (Z.abs x)))) (Z.abs x)).
(** %.*g for the digits d and the exponent x (stream.cpp 240-246) *)
Definition layout (prec : nat) (d x : Z) : text :=
  let ds := digits prec d in
  if (-4 <=? x) && (x <? Z.of_nat prec) then
    if x <? 0 then digit_char 0 :: fraction (strip (repeat 0 (Z.to_nat (- x - 1)) ++ ds))
    else map digit_char (firstn (Z.to_nat (x + 1)) ds) ++ fraction (strip (skipn (Z.to_nat (x + 1)) ds))
  else map digit_char (firstn 1 ds) ++ fraction (strip (skipn 1 ds)) ++ exponent x.
(** operator<<(ostream, double) as stream.cpp 240-246 uses it; a precision of 0 counts as 1 *)
Definition print_double (prec : nat) (x : spec_float) : text :=
  let minus (s : bool) (t : text) := if s then "-"%char :: t else t in
  match x with
  | S754_zero s => minus s (txt "0")
  | S754_infinity s => minus s (txt "inf")
  | S754_nan => txt "nan"
  | S754_finite s m e =>
      let p := Nat.max prec 1 in
      let (d, x) := to_decimal p (Zpos m * 2 ^ (Z.max e 0)) (2 ^ (Z.max (- e) 0)) in
      minus s (layout p d x)
  end.

(** ** Reading (stream.cpp 248-263) *)
(** the digits at the start of a text *)
Fixpoint take_digits (t : text) : list Z * text :=
  match t with
  | [] => ([], [])
  | c :: r => match char_digit c with Some d => let (l, r) := take_digits r in (d :: l, r) | None => ([], t) end
  end.
(** a sign at the start of a text: true for minus (stream.cpp 248-263) *)
Definition take_sign (t : text) : bool * text :=
  match t with
  | c :: r => if Ascii.eqb c "-" then (true, r) else if Ascii.eqb c "+" then (false, r) else (false, t)
  | [] => (false, t)
  end.
(** the double nearest to n * 10^x (stream.cpp 248-263); None on overflow, which fails *)
Definition nearest_double (s : bool) (n x : Z) : option spec_float :=
  match n, (10 ^ (Z.max (- x) 0))%Z with
  | Zpos _, Zpos b =>
      match (n * 10 ^ (Z.max x 0))%Z with
      | Zpos a =>
          let '(mz, ez, lz) := SFdiv_core_binary prec64 emax64 (Zpos a) 0 (Zpos b) 0 in
          match binary_round_aux prec64 emax64 s mz ez lz with
          | S754_infinity _ | S754_nan => None
          | z => Some z
          end
      | _ => None
      end
  | _, _ => Some (S754_zero s)
  end.
(** operator>>(istream, double) as stream.cpp 248-263 uses it *)
Definition scan_double (t : text) : option (spec_float * text) :=
  let (s, t) := take_sign (skip_space t) in
  let (whole, t) := take_digits t in
  let (frac, t) := match t with c :: r => if Ascii.eqb c "." then take_digits r else ([], t) | [] => ([], t) end in
  match whole ++ frac with
  | [] => None
  | ds =>
      let finish (x : Z) (rest : text) :=
        match nearest_double s (number ds) (x - Z.of_nat (length frac)) with Some z => Some (z, rest) | None => None end in
      match t with
      | c :: r =>
          if Ascii.eqb c "e" || Ascii.eqb c "E" then
            let (sx, r) := take_sign r in
            let (xs, r) := take_digits r in
            match xs with [] => None | _ => finish (if sx then - number xs else number xs) r end
          else finish 0 t
      | [] => finish 0 t
      end
  end.
