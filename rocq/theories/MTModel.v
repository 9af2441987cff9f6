(** Model of src/wfmath/MersenneTwister.h and randgen.cpp: the MTRand class.
    Words are [N]; uint32 arithmetic is reduced mod 2^32 explicitly.  All array
    accesses are checked, an access outside an array is [Undef]. *)
From Coq Require Import List ZArith NArith Bool Ascii.
From Verif Require Import Base.
Import ListNotations.
Open Scope N_scope.

(** uint32: the values of MersenneTwister.h 29-33 modulo 2^32 *)
Definition w32 (x : N) : N := x mod 2 ^ 32.

(** MersenneTwister.h 35; randgen.cpp 77-80 *)
Definition state_size : N := 624.
(** randgen.cpp 77-80, as above *)
Definition period : N := 397.
(** randgen.cpp 77-80, as above *)
Definition MATRIX_A : N := 0x9908b0df.
(** randgen.cpp 77-80, as above *)
Definition UPPER_MASK : N := 0x80000000.
(** randgen.cpp 77-80, as above *)
Definition LOWER_MASK : N := 0x7fffffff.

(** MersenneTwister.h 62-63 *)
Record mtrand := { st : list N; idx : N }.

(** [for (i = start; count iterations; ++i) s = f i s]. *)
Fixpoint oloop {A} (count start : nat) (f : nat -> A -> outcome A) (s : A) : outcome A :=
  match count with
  | O => Ret s
  | S c => do s' <- f start s; oloop c (S start) f s'
  end.

(** randgen.cpp 133-140 [seed(uint32)].  The constant is UL, so the expression is
    computed mod 2^64 and then truncated to 32 bits; both are one [w32].  The
    loop variable is the member [index], so it ends as 624. *)
Definition seed_word (g : mtrand) (s : N) : outcome mtrand :=
  do st0 <- oset (st g) 0 s;
  do st1 <- oloop 623 1 (fun i a =>
        do p <- oget a (i - 1);
        oset a i (w32 (1812433253 * (N.lxor p (N.shiftr p 30)) + N.of_nat i))) st0;
  Ret {| st := st1; idx := 624 |}.

(** randgen.cpp 149-156: one iteration of the first mixing loop, on (state, i, j). *)
Definition mix1 (init : list N) (x : list N * nat * nat) : outcome (list N * nat * nat) :=
  let '(a, i, j) := x in
  do p <- oget a (i - 1);
  do c <- oget a i;
  let c1 := N.lxor c (w32 (N.lxor p (N.shiftr p 30) * 1664525)) in
  do v <- oget init j;
  let c2 := w32 (c1 + N.land v 0xffffffff + N.of_nat j) in
  do a1 <- oset a i c2;
  let i' := S i in
  let j' := S j in
  do '(a2, i2) <- (if Nat.leb 624 i' then
                     do l <- oget a1 623; do b <- oset a1 0 l; Ret (b, 1%nat)
                   else Ret (a1, i'));
  let j2 := if Nat.leb (length init) j' then 0%nat else j' in
  Ret (a2, i2, j2).

(** randgen.cpp 157-163: one iteration of the second mixing loop, on (state, i). *)
Definition mix2 (x : list N * nat) : outcome (list N * nat) :=
  let '(a, i) := x in
  do p <- oget a (i - 1);
  do c <- oget a i;
  let c1 := N.lxor c (w32 (N.lxor p (N.shiftr p 30) * 1566083941)) in
  let c2 := w32 (c1 + 2 ^ 32 - N.of_nat i) in
  do a1 <- oset a i c2;
  let i' := S i in
  if Nat.leb 624 i' then
    do l <- oget a1 623; do b <- oset a1 0 l; Ret (b, 1%nat)
  else Ret (a1, i').

(** randgen.cpp 157-163, as above *)
Definition orepeat {A} (count : nat) (f : A -> outcome A) (s : A) : outcome A :=
  oloop count 0 (fun _ => f) s.

(** randgen.cpp 143-165 [seed(const uint32[], uint32)]; [init] is the array with
    its length. *)
Definition seed_array (g : mtrand) (init : list N) : outcome mtrand :=
  do g0 <- seed_word g 19650218;
  do '(a, i, _) <- orepeat (Nat.max 624 (length init)) (mix1 init) (st g0, 1%nat, 0%nat);
  do '(a, _) <- orepeat 623 mix2 (a, i);
  do a <- oset a 0 0x80000000;
  Ret {| st := a; idx := idx g0 |}.

(** randgen.cpp 171: the static table [mag01]. *)
Definition mag01 : list N := [0; MATRIX_A].

(** randgen.cpp 179-180, 184-185, 187-188: one in-place update
    [state[k] = state[src] ^ (y >> 1) ^ mag01[y & 1]] with [y] made of
    [state[k]] and [state[nxt]]. *)
Definition twist_at (k nxt src : nat) (a : list N) : outcome (list N) :=
  do u <- oget a k;
  do v <- oget a nxt;
  let y := N.lor (N.land u UPPER_MASK) (N.land v LOWER_MASK) in
  do s <- oget a src;
  do m <- oget mag01 (N.to_nat (N.land y 1));
  oset a k (N.lxor (N.lxor s (N.shiftr y 1)) m).

(** randgen.cpp 173-191: regenerate the whole block.  The offset
    [period - state_size] is a wrapped uint32. *)
Definition refill (a : list N) : outcome (list N) :=
  do a1 <- oloop (N.to_nat (state_size - period)) 0
             (fun k => twist_at k (k + 1) (k + N.to_nat period)) a;
  do a2 <- oloop (N.to_nat (period - 1)) (N.to_nat (state_size - period))
             (fun k => twist_at k (k + 1)
                (N.to_nat (w32 (N.of_nat k + w32 (period + 2 ^ 32 - state_size))))) a1;
  twist_at (N.to_nat (state_size - 1)) 0 (N.to_nat (period - 1)) a2.

(** randgen.cpp 195-199 *)
Definition temper (y0 : N) : N :=
  let y1 := N.lxor y0 (N.shiftr y0 11) in
  let y2 := N.lxor y1 (N.land (w32 (N.shiftl y1 7)) 0x9d2c5680) in
  let y3 := N.lxor y2 (N.land (w32 (N.shiftl y2 15)) 0xefc60000) in
  N.lxor y3 (N.shiftr y3 18).

(** randgen.cpp 168-202 [randInt()] *)
Definition rand_int (g : mtrand) : outcome (N * mtrand) :=
  do '(a, i) <- (if state_size <=? idx g then do a <- refill (st g); Ret (a, 0) else Ret (st g, idx g));
  do y <- oget a (N.to_nat i);
  Ret (temper y, {| st := a; idx := w32 (i + 1) |}).

(** MersenneTwister.h 96-101: smear the top bit of [n] downwards. *)
Definition smear (n : N) : N :=
  let u1 := N.lor n (N.shiftr n 1) in
  let u2 := N.lor u1 (N.shiftr u1 2) in
  let u4 := N.lor u2 (N.shiftr u2 4) in
  let u8 := N.lor u4 (N.shiftr u4 8) in
  N.lor u8 (N.shiftr u8 16).

(** MersenneTwister.h 94-108 [randInt(uint32 n)]: the rejection loop, with fuel.
    [Ret None] means the fuel ran out (the loop is still running). *)
Fixpoint rand_int_below (fuel : nat) (n : N) (g : mtrand) : outcome (option (N * mtrand)) :=
  match fuel with
  | O => Ret None
  | S f =>
      do '(w, g') <- rand_int g;
      let i := N.land w (smear n) in
      if n <? i then rand_int_below f n g' else Ret (Some (i, g'))
  end.

(** Call histories of one generator.  [MLoad] sets all words and the index to
    arbitrary uint32 values, which covers every outcome of load (randgen.cpp
    215-221), successful or failed. *)
Inductive mt_op :=
| MSeed (s : N) | MSeedArray (l : list N) | MLoad (l : list N) (i : N) | MRand.

(** one call: randgen.cpp 133-165, 190-221 *)
Definition mt_step (g : mtrand) (o : mt_op) : outcome (list N * mtrand) :=
  match o with
  | MSeed s => do g' <- seed_word g s; Ret ([], g')
  | MSeedArray l => do g' <- seed_array g l; Ret ([], g')
  | MLoad l i => Ret ([], {| st := l; idx := i |})
  | MRand => do '(w, g') <- rand_int g; Ret ([w], g')
  end.

(** a sequence of calls: randgen.cpp 133-221 *)
Fixpoint mt_run (g : mtrand) (l : list mt_op) : outcome (list N * mtrand) :=
  match l with
  | [] => Ret ([], g)
  | o :: t => do '(out, g1) <- mt_step g o; do '(outs, g2) <- mt_run g1 t; Ret (out ++ outs, g2)
  end.

(** The first [n] words produced by randInt(). *)
Fixpoint rand_words (n : nat) (g : mtrand) : outcome (list N) :=
  match n with
  | O => Ret []
  | S m => do '(w, g') <- rand_int g; do r <- rand_words m g'; Ret (w :: r)
  end.

(** ** Text form (save / load) *)
Section Text.
(** How [ostr << uint32] prints a word; the iostream library is not modelled,
    theorems assume only that it prints the canonical decimal numeral. *)
Variable pr : N -> list ascii.

(** randgen.cpp 205-212 [save]; stream.cpp 362-365 operator<<(MTRand) *)
Definition save_text (g : mtrand) : list ascii :=
  concat (map (fun w => pr w ++ [ascii_of_nat 9]) (st g)) ++ pr (idx g).
End Text.

(** std::isspace, as skipped by the extractions of randgen.cpp 215-221 *)
Definition is_space (c : ascii) : bool :=
  let n := nat_of_ascii c in Nat.eqb n 32 || (Nat.leb 9 n && Nat.leb n 13).

(** [istr >> uint32]: skip white space, then take the longest run of digits.
    [None] is a failed read: no digit, or a value of 2^32 or more.
    Simplification: a leading sign, which iostreams would accept, is a failure
    here; save never writes one. *)
Fixpoint skip_space (s : list ascii) : list ascii :=
  match s with [] => [] | c :: t => if is_space c then skip_space t else s end.
(** the digits of one extraction, randgen.cpp 215-221 *)
Fixpoint take_digits (acc : N) (s : list ascii) : N * list ascii :=
  match s with
  | [] => (acc, [])
  | c :: t => let n := nat_of_ascii c in
      if Nat.leb 48 n && Nat.leb n 57 then take_digits (10 * acc + N.of_nat (n - 48)) t else (acc, s)
  end.
(** one extraction, randgen.cpp 217, 219 *)
Definition read_u32 (s : list ascii) : option (N * list ascii) :=
  match skip_space s with
  | [] => None
  | c :: t => let n := nat_of_ascii c in
      if Nat.leb 48 n && Nat.leb n 57 then
        let (v, r) := take_digits 0 (c :: t) in if v <? 2 ^ 32 then Some (v, r) else None
      else None
  end.

(** the loop of randgen.cpp 215-221 *)
Fixpoint read_words (n : nat) (s : list ascii) : option (list N * list ascii) :=
  match n with
  | O => Some ([], s)
  | S m => match read_u32 s with
           | Some (v, r) => match read_words m r with
                            | Some (l, r') => Some (v :: l, r')
                            | None => None
                            end
           | None => None
           end
  end.

(** randgen.cpp 215-221 [load]; stream.cpp 367-371 operator>>(MTRand).  [None]: a
    read failed (what is left in the generator then is covered by [MLoad]). *)
Definition load_text (s : list ascii) : option (mtrand * list ascii) :=
  match read_words 624 s with
  | Some (l, r) => match read_u32 r with
                   | Some (i, r') => Some ({| st := l; idx := i |}, r')
                   | None => None
                   end
  | None => None
  end.
