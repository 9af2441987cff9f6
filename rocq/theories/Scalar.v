(** The number type of the library.  Every numeric function of the model is
    written once over this interface; [Rnum] (exact reals) and [B64] (IEEE
    binary64) are its two instances. *)
From Coq Require Import ZArith Reals Bool List SpecFloat.
From Flocq Require Import Core.Zaux Core.Raux.
Import ListNotations.

(** Operations used by the C++ code on [CoordType] (const.h 140: double).
    Comparisons [>] and [>=] are the swapped [<] and [<=]. *)
Class Num (T : Type) := {
  nadd : T -> T -> T; nsub : T -> T -> T; nmul : T -> T -> T; ndiv : T -> T -> T;
  nopp : T -> T; nabs : T -> T; nsqrt : T -> T;
  nsin : T -> T; ncos : T -> T; nacos : T -> T; natan2 : T -> T -> T;
  nltb : T -> T -> bool; nleb : T -> T -> bool; neqb : T -> T -> bool;
  nfrexp : T -> Z;              (* the exponent stored by std::frexp *)
  nldexp : T -> Z -> T;         (* std::ldexp *)
  nofZ : Z -> T;                (* integer literals, int -> double *)
  neps : T;                     (* numeric_constants<CoordType>::epsilon() *)
  npi : T; nsqrt2 : T; nsqrt3 : T;
  nmaxval : T;                  (* std::numeric_limits<CoordType>::max() *)
  nminval : T                   (* std::numeric_limits<CoordType>::min() *)
}.

Declare Scope num_scope.
Delimit Scope num_scope with num.
Infix "+" := nadd : num_scope.
Infix "-" := nsub : num_scope.
Infix "*" := nmul : num_scope.
Infix "/" := ndiv : num_scope.
Notation "- x" := (nopp x) : num_scope.
Infix "<?" := nltb : num_scope.
Infix "<=?" := nleb : num_scope.
Infix "=?" := neqb : num_scope.
Notation "x >? y" := (nltb y x) (only parsing) : num_scope.
Notation "x >=? y" := (nleb y x) (only parsing) : num_scope.

Definition n0 {T} `{Num T} : T := nofZ 0.
Definition n1 {T} `{Num T} : T := nofZ 1.
Definition n2 {T} `{Num T} : T := nofZ 2.
Definition nhalf {T} `{Num T} : T := ndiv n1 n2.

(** ** Reals *)

(** frexp writes x = m * 2^e with 1/2 <= |m| < 1; exponent 0 for x = 0. *)
Definition Rfrexp (x : R) : Z := if Req_bool x 0 then 0%Z else mag radix2 x.

(** The angle of the point (x,y), in (-PI, PI]; 0 at the origin.  The argument
    order is that of std::atan2(y, x). *)
Definition Ratan2 (y x : R) : R :=
  if Rlt_bool 0 x then atan (y / x)
  else if Rlt_bool x 0 then (if Rle_bool 0 y then atan (y / x) + PI else atan (y / x) - PI)%R
  else if Rlt_bool 0 y then (PI / 2)%R
  else if Rlt_bool y 0 then (- (PI / 2))%R
  else 0%R.

(** Exact reals; [eps] stands for the library epsilon.  [Epsilon] is just R; it is a
    class so that the epsilon in scope is found automatically. *)
Class Epsilon := epsilon : R.
#[export] Instance Rnum (eps : Epsilon) : Num R := {|
  nadd := Rplus; nsub := Rminus; nmul := Rmult; ndiv := Rdiv;
  nopp := Ropp; nabs := Rabs; nsqrt := sqrt;
  nsin := sin; ncos := cos; nacos := acos; natan2 := Ratan2;
  nltb := Rlt_bool; nleb := Rle_bool; neqb := Req_bool;
  nfrexp := Rfrexp; nldexp := fun x e => (x * bpow radix2 e)%R;
  nofZ := IZR; neps := eps;
  npi := PI; nsqrt2 := sqrt 2; nsqrt3 := sqrt 3;
  nmaxval := (bpow radix2 1024 - bpow radix2 971)%R;
  nminval := bpow radix2 (-1022)
|}.

(** ** IEEE binary64 *)

(** What the standard leaves open: the trigonometric functions and the exponent
    frexp stores for infinities and NaN (one fixed value). *)
Record libm := {
  m_sin : spec_float -> spec_float; m_cos : spec_float -> spec_float;
  m_acos : spec_float -> spec_float; m_atan2 : spec_float -> spec_float -> spec_float;
  m_frexp_special : Z
}.

Definition prec64 : Z := 53.
Definition emax64 : Z := 1024.

Definition b64_frexp (m : libm) (x : spec_float) : Z :=
  match x with
  | S754_zero _ => 0%Z
  | S754_finite _ _ _ => snd (SFfrexp prec64 emax64 x)
  | _ => m_frexp_special m
  end.

Definition b64_ofZ (z : Z) : spec_float := binary_normalize prec64 emax64 z 0 false.

(** 30 * 2^-52, const.h 61, 130-133 *)
Definition b64_eps : spec_float := SFmul prec64 emax64 (b64_ofZ 30) (SFldexp prec64 emax64 (b64_ofZ 1) (-52)).
(** Correctly rounded constants of const.h 112-126 as integer times power of two. *)
Definition b64_pi : spec_float := binary_normalize prec64 emax64 7074237752028440 (-51) false.
Definition b64_sqrt2 : spec_float := SFsqrt prec64 emax64 (b64_ofZ 2).
Definition b64_sqrt3 : spec_float := SFsqrt prec64 emax64 (b64_ofZ 3).

Definition B64 (m : libm) : Num spec_float := {|
  nadd := SFadd prec64 emax64; nsub := SFsub prec64 emax64;
  nmul := SFmul prec64 emax64; ndiv := SFdiv prec64 emax64;
  nopp := SFopp; nabs := SFabs; nsqrt := SFsqrt prec64 emax64;
  nsin := m_sin m; ncos := m_cos m; nacos := m_acos m; natan2 := m_atan2 m;
  nltb := SFltb; nleb := SFleb; neqb := SFeqb;
  nfrexp := b64_frexp m; nldexp := SFldexp prec64 emax64;
  nofZ := b64_ofZ; neps := b64_eps;
  npi := b64_pi; nsqrt2 := b64_sqrt2; nsqrt3 := b64_sqrt3;
  nmaxval := SFmax_float prec64 emax64;
  nminval := SFldexp prec64 emax64 (b64_ofZ 1) (-1022)
|}.

(** A double: a spec_float in canonical form within range. *)
Definition is_double (x : spec_float) : Prop := valid_binary prec64 emax64 x = true.

(** ** Arrays *)
Definition tab {A} (n : nat) (f : nat -> A) : list A := map f (seq 0 n).

Section Arrays.
Context {T} `{Num T}.
Open Scope num_scope.

(** Array element; only used with an index below the array length. *)
Definition get (l : list T) (i : nat) : T := nth i l n0.

(** [CoordType ans = 0; for(i = 0; i < n; ++i) ans += f(i);] *)
Definition nsum (n : nat) (f : nat -> T) : T := fold_left (fun acc i => acc + f i) (seq 0 n) n0.

(** [for(i = 0; i < n; ++i) if(!p(i)) return false; return true;] *)
Definition all_below (n : nat) (p : nat -> bool) : bool := forallb p (seq 0 n).

End Arrays.
