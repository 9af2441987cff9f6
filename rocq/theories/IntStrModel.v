(** Model of src/wfmath/int_to_string.cpp (64-bit unsigned long, not _MSC_VER). *)
From Coq Require Import ZArith List Ascii Bool.
From Verif Require Import Base.
Import ListNotations.
Open Scope Z_scope.

(** A char buffer with explicit uninitialised cells. *)
Definition buffer := list (option ascii).
(** the terminator written in int_to_string.cpp 28-80 *)
Definition NUL : ascii := zero.

(** int_to_string.cpp 15: the [digits] table. *)
Definition digit_chars : list ascii :=
  ["0";"1";"2";"3";"4";"5";"6";"7";"8";"9"]%char.

(** [*(--bufhead) = c]: moving below the start of the buffer is undefined. *)
Definition push_front (buf : buffer) (head : nat) (c : ascii) : outcome (buffer * nat) :=
  match head with
  | O => Undef
  | S h => do b <- oset buf h (Some c); Ret (b, h)
  end.

(** int_to_string.cpp 21-24: the do-while loop.  Structural recursion on the
    index of the head pointer, which decreases at each iteration; index 0 is the
    out of bounds case, so no fuel is needed. *)
Fixpoint digit_loop (head : nat) (val : Z) (buf : buffer) : outcome (buffer * nat) :=
  match head with
  | O => Undef
  | S h =>
      do c <- oget digit_chars (Z.to_nat (val mod 10));
      do b <- oset buf h (Some c);
      let val' := val / 10 in
      if val' =? 0 then Ret (b, h) else digit_loop h val' b
  end.

(** int_to_string.cpp 12-27 *)
Definition do_int_to_string (val : Z) (buf : buffer) (bufhead : nat) : outcome (buffer * nat) :=
  do '(b, h) <- push_front buf bufhead NUL;
  if val =? 0 then push_front b h "0"%char else digit_loop h val b.

(** int_to_string.cpp 31-36: floor of 64 * 0.30102995664 + 1 + epsilon, with the
    compile time double arithmetic replaced by exact rational arithmetic
    (the value is 20.27, far from an integer). *)
Definition ul_max_digits : Z := (64 * 30102995664 + 100000000000) / 100000000000.

(** Construction of the std::string result from a char pointer: characters up to NUL. *)
Fixpoint read_cstr (b : buffer) : outcome (list ascii) :=
  match b with
  | [] => Undef
  | None :: _ => Undef
  | Some c :: t => if Ascii.eqb c NUL then Ret [] else do r <- read_cstr t; Ret (c :: r)
  end.

(** int_to_string.cpp 41-47 *)
Definition uint_to_string (val : Z) : outcome (list ascii) :=
  let bufsize := Z.to_nat (ul_max_digits + 1) in
  do '(b, h) <- do_int_to_string val (repeat None bufsize) bufsize;
  read_cstr (skipn h b).

(** int_to_string.cpp 52-65, the #else branch.  [-val] and [LONG_MAX + val] are
    signed; the sum on line 63 is unsigned (mod 2^64). *)
Definition safe_abs (val : Z) : outcome Z :=
  if 0 <=? val then Ret val
  else if - LONG_MAX <=? val then slong (- val)
  else do a <- slong (LONG_MAX + val); do b <- slong (- a); Ret ((LONG_MAX + b) mod 2 ^ 64).

(** int_to_string.cpp 67-78 *)
Definition int_to_string (val : Z) : outcome (list ascii) :=
  let bufsize := Z.to_nat (ul_max_digits + 2) in
  do a <- safe_abs val;
  do '(b, h) <- do_int_to_string a (repeat None bufsize) bufsize;
  do '(b, h) <- (if val <? 0 then push_front b h "-"%char else Ret (b, h));
  read_cstr (skipn h b).
