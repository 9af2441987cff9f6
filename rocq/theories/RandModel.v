(** Model of the rest of src/wfmath/MersenneTwister.h and randgen.cpp: real valued random numbers, and seeding from the
    environment.  The bytes that time(), clock() and /dev/urandom deliver are inputs. *)
From Coq Require Import List ZArith NArith Bool SpecFloat.
From Verif Require Import Base MTModel Scalar.
Import ListNotations.
Open Scope N_scope.

(** ** Seeding from the environment *)
(** randgen.cpp 95-100: the [n] bytes of an integer in memory, least significant first (x86-64, two's complement). *)
Fixpoint memory (n : nat) (z : Z) : list N :=
  match n with O => [] | S m => Z.to_N (z mod 256) :: memory m (z / 256) end.
(** randgen.cpp 94-100 (and 101-107): the bytes mixed into a word; UCHAR_MAX + 2U is 257. *)
Definition mix_bytes (l : list N) : N := fold_left (fun h b => w32 (w32 (h * 257) + b)) l 0.
(** randgen.cpp 84-109 [hash]: time_t and clock_t have eight bytes; [differ] is the static counter, returned with its new
    value. *)
Definition hash (t c : Z) (differ : N) : N * N :=
  (N.lxor (w32 (mix_bytes (memory 8 t) + differ)) (mix_bytes (memory 8 c)), w32 (differ + 1)).

(** What a call of seed() finds: [device] is None if /dev/urandom cannot be opened, else what the k-th fread of a word
    delivers (None: failure); the values of time() and clock(). *)
Record surroundings := { device : option (nat -> option N); now : Z; ticks : Z }.
(** randgen.cpp 118-122: the reading loop; it stops at the first failure. *)
Fixpoint read_device (n k : nat) (f : nat -> option N) : option (list N) :=
  match n with
  | O => Some []
  | S m => match f k with None => None | Some w => match read_device m (S k) f with None => None | Some l => Some (w :: l) end end
  end.
(** randgen.cpp 112-130 [seed()], with the static counter of [hash] passed along. *)
Definition seed_env (g : mtrand) (differ : N) (e : surroundings) : outcome (mtrand * N) :=
  match match device e with None => None | Some f => read_device 624 0 f end with
  | Some l => do g' <- seed_array g l; Ret (g', differ)
  | None => let (s, d') := hash (now e) (ticks e) differ in do g' <- seed_word g s; Ret (g', d')
  end.
(** MersenneTwister.h 67-77, the constructors: index 0, the words not set ([words] are what was in memory). *)
Definition make_env (words : list N) (differ : N) (e : surroundings) : outcome (mtrand * N) :=
  seed_env {| st := words; idx := 0 |} differ e.
(** MersenneTwister.h 67-69 *)
Definition make_word (words : list N) (s : N) : outcome mtrand := seed_word {| st := words; idx := 0 |} s.
(** MersenneTwister.h 71-73 *)
Definition make_array (words : list N) (l : list N) : outcome mtrand := seed_array {| st := words; idx := 0 |} l.
(** A program that builds one generator after another from its surroundings: MersenneTwister.h 75-77. *)
Fixpoint make_all (words : list N) (differ : N) (l : list surroundings) : outcome (list mtrand) :=
  match l with
  | [] => Ret []
  | e :: t => do '(g, d) <- make_env words differ e; do r <- make_all words d t; Ret (g :: r)
  end.

(** ** Real valued random numbers *)
(** MersenneTwister.h 83-88: the factor 1.0/4294967295.0, a double. *)
Definition scale64 : spec_float := SFdiv prec64 emax64 (b64_ofZ 1) (b64_ofZ 4294967295).
(** MersenneTwister.h 83-88 [rand<double>()] and [rand()] *)
Definition rand_real (g : mtrand) : outcome (spec_float * mtrand) :=
  do '(w, g') <- rand_int g; Ret (SFmul prec64 emax64 (b64_ofZ (Z.of_N w)) scale64, g').
(** MersenneTwister.h 90-91 [rand(n)] *)
Definition rand_upto (n : spec_float) (g : mtrand) : outcome (spec_float * mtrand) :=
  do '(r, g') <- rand_real g; Ret (SFmul prec64 emax64 r n, g').
(** IEEE binary32, for MersenneTwister.h 79-81 *)
Definition prec32 : Z := 24.
(** as above: MersenneTwister.h 79-81 *)
Definition emax32 : Z := 128.
(** conversion of an integer to float, MersenneTwister.h 81 *)
Definition b32_ofZ (z : Z) : spec_float := SpecFloat.binary_normalize prec32 emax32 z 0 false.
(** MersenneTwister.h 79-81 [rand<float>()] *)
Definition rand_float (g : mtrand) : outcome (spec_float * mtrand) :=
  do '(w, g') <- rand_int g;
  Ret (SFmul prec32 emax32 (b32_ofZ (Z.of_N w)) (SFdiv prec32 emax32 (b32_ofZ 1) (b32_ofZ 4294967295)), g').
