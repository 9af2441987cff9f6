(** Model of src/wfmath/timestamp.h and timestamp.cpp (POSIX branch, 64-bit
    [long], [time_t] and [suseconds_t]). *)
From Coq Require Import ZArith Bool.
From Verif Require Import Base.
Open Scope Z_scope.

(** timestamp.cpp 43 *)
Definition Million : Z := 1000000.

(** timestamp.cpp 47-58 [regularize]: one conditional carry step. *)
Definition regularize (sec usec : Z) : outcome (Z * Z) :=
  if Million <=? usec then
    do u <- slong (usec - Million); do s <- slong (sec + 1); Ret (s, u)
  else if usec <? 0 then
    do u <- slong (usec + Million); do s <- slong (sec - 1); Ret (s, u)
  else Ret (sec, usec).

(** timestamp.h 52-104 [class TimeDiff].  [None] for the two fields is the
    indeterminate value left by the default constructor (timestamp.h 57, which
    initialises [m_isvalid] only); the fields are always set together. *)
Record timediff := { d_valid : bool; d_fields : option (Z * Z) }.

(** timestamp.h 117-160 [class TimeStamp]; [_val] is value-initialised (127). *)
Record timestamp := { t_valid : bool; t_sec : Z; t_usec : Z }.

(** Reading the fields of a TimeDiff; reading indeterminate values is undefined. *)
Definition d_read (d : timediff) : outcome (Z * Z) :=
  match d_fields d with Some p => Ret p | None => Undef end.

(** timestamp.cpp 62-67 private constructor. *)
Definition mk_timediff (sec usec : Z) (valid : bool) : outcome timediff :=
  do p <- (if valid then regularize sec usec else Ret (sec, usec));
  Ret {| d_valid := valid; d_fields := Some p |}.

(** timestamp.h 57 *)
Definition timediff_default : timediff := {| d_valid := false; d_fields := None |}.

(** timestamp.cpp 69-79.  C++ [/] and [%] truncate: [Z.quot], [Z.rem]. *)
Definition timediff_of_msec (msec : Z) : outcome timediff :=
  let s := Z.quot msec 1000 in
  let u := Z.rem msec 1000 in
  do p <- (if msec <? 0 then
             do s' <- slong (s - 1);
             do u' <- (if u <? 0 then slong (u + Million) else Ret u);
             Ret (s', u')
           else Ret (s, u));
  Ret {| d_valid := true; d_fields := Some p |}.

(** timestamp.cpp 81-84 *)
Definition milliseconds (d : timediff) : outcome Z :=
  do '(s, u) <- d_read d;
  do a <- slong (s * 1000);
  slong (a + Z.quot u 1000).

(** timestamp.h 69 *)
Definition full_time (d : timediff) : outcome (Z * Z) := d_read d.

(** timestamp.cpp 86-96 *)
Definition td_add_assign (v d : timediff) : outcome timediff :=
  do '(vs, vu) <- d_read v;
  do '(ds, du) <- d_read d;
  do s <- slong (vs + ds);
  do u <- slong (vu + du);
  let valid := d_valid v && d_valid d in
  do p <- (if valid then regularize s u else Ret (s, u));
  Ret {| d_valid := valid; d_fields := Some p |}.

(** timestamp.cpp 98-108 *)
Definition td_sub_assign (v d : timediff) : outcome timediff :=
  do '(vs, vu) <- d_read v;
  do '(ds, du) <- d_read d;
  do s <- slong (vs - ds);
  do u <- slong (vu - du);
  let valid := d_valid v && d_valid d in
  do p <- (if valid then regularize s u else Ret (s, u));
  Ret {| d_valid := valid; d_fields := Some p |}.

(** timestamp.h 78 *)
Definition td_neg (v : timediff) : outcome timediff :=
  do '(vs, vu) <- d_read v;
  do s <- slong (- vs);
  do u <- slong (- vu);
  mk_timediff s u (d_valid v).

(** timestamp.cpp 110-113 *)
Definition td_add (a b : timediff) : outcome timediff :=
  do '(sa, ua) <- d_read a;
  do '(sb, ub) <- d_read b;
  do s <- slong (sa + sb);
  do u <- slong (ua + ub);
  mk_timediff s u (d_valid a && d_valid b).

(** timestamp.cpp 115-118 *)
Definition td_sub (a b : timediff) : outcome timediff :=
  do '(sa, ua) <- d_read a;
  do '(sb, ub) <- d_read b;
  do s <- slong (sa - sb);
  do u <- slong (ua - ub);
  mk_timediff s u (d_valid a && d_valid b).

(** timestamp.cpp 120-123 *)
Definition td_lt (a b : timediff) : outcome bool :=
  do '(sa, ua) <- d_read a;
  do '(sb, ub) <- d_read b;
  Ret ((sa <? sb) || ((sa =? sb) && (ua <? ub))).

(** timestamp.cpp 125-128 *)
Definition td_eq (a b : timediff) : outcome bool :=
  do '(sa, ua) <- d_read a;
  do '(sb, ub) <- d_read b;
  Ret ((sa =? sb) && (ua =? ub)).

(** timestamp.h 106-109 *)
Definition td_gt (a b : timediff) := td_lt b a.
(** timestamp.h 106-109, as above *)
Definition td_le (a b : timediff) := do x <- td_lt b a; Ret (negb x).
(** timestamp.h 106-109, as above *)
Definition td_ge (a b : timediff) := do x <- td_lt a b; Ret (negb x).
(** timestamp.h 106-109, as above *)
Definition td_ne (a b : timediff) := do x <- td_eq b a; Ret (negb x).

(** timestamp.h 133 *)
Definition timestamp_default : timestamp := {| t_valid := false; t_sec := 0; t_usec := 0 |}.

(** timestamp.cpp 130-152 [now]: the result of gettimeofday, a parameter here. *)
Definition ts_now (sec usec : Z) : timestamp := {| t_valid := true; t_sec := sec; t_usec := usec |}.

(** timestamp.cpp 154-163 *)
Definition ts_epoch : timestamp := {| t_valid := true; t_sec := 0; t_usec := 0 |}.

(** timestamp.cpp 167-174 private constructor. *)
Definition mk_timestamp (sec usec : Z) (valid : bool) : outcome timestamp :=
  do '(s, u) <- (if valid then regularize sec usec else Ret (sec, usec));
  Ret {| t_valid := valid; t_sec := s; t_usec := u |}.

(** timestamp.cpp 176-182 *)
Definition ts_lt (a b : timestamp) : bool :=
  if t_sec a =? t_sec b then t_usec a <? t_usec b else t_sec a <? t_sec b.

(** timestamp.cpp 184-188 *)
Definition ts_eq (a b : timestamp) : bool :=
  (t_sec a =? t_sec b) && (t_usec a =? t_usec b).

(** timestamp.h 165-168 *)
Definition ts_gt (a b : timestamp) := ts_lt b a.
(** timestamp.h 165-168, as above *)
Definition ts_le (a b : timestamp) := negb (ts_lt b a).
(** timestamp.h 165-168, as above *)
Definition ts_ge (a b : timestamp) := negb (ts_lt a b).
(** timestamp.h 165-168, as above *)
Definition ts_ne (a b : timestamp) := negb (ts_eq b a).

(** timestamp.cpp 190-199 *)
Definition ts_add_assign (a : timestamp) (d : timediff) : outcome timestamp :=
  do '(ds, du) <- d_read d;
  do s <- slong (t_sec a + ds);
  do u <- slong (t_usec a + du);
  let valid := t_valid a && d_valid d in
  do '(s', u') <- (if valid then regularize s u else Ret (s, u));
  Ret {| t_valid := valid; t_sec := s'; t_usec := u' |}.

(** timestamp.cpp 201-210 *)
Definition ts_sub_assign (a : timestamp) (d : timediff) : outcome timestamp :=
  do '(ds, du) <- d_read d;
  do s <- slong (t_sec a - ds);
  do u <- slong (t_usec a - du);
  let valid := t_valid a && d_valid d in
  do '(s', u') <- (if valid then regularize s u else Ret (s, u));
  Ret {| t_valid := valid; t_sec := s'; t_usec := u' |}.

(** timestamp.cpp 212-216; the reversed-argument form timestamp.h 163 is the same call. *)
Definition ts_add (a : timestamp) (d : timediff) : outcome timestamp :=
  do '(ds, du) <- d_read d;
  do s <- slong (t_sec a + ds);
  do u <- slong (t_usec a + du);
  mk_timestamp s u (t_valid a && d_valid d).

(** timestamp.cpp 218-222 *)
Definition ts_sub (a : timestamp) (d : timediff) : outcome timestamp :=
  do '(ds, du) <- d_read d;
  do s <- slong (t_sec a - ds);
  do u <- slong (t_usec a - du);
  mk_timestamp s u (t_valid a && d_valid d).

(** timestamp.cpp 224-228 *)
Definition ts_diff (a b : timestamp) : outcome timediff :=
  do s <- slong (t_sec a - t_sec b);
  do u <- slong (t_usec a - t_usec b);
  mk_timediff s u (t_valid a && t_valid b).

(** Programs over the public time API.  [XNow] is a timestamp as delivered by
    now(); [XMsec] uses the public millisecond constructor. *)
Inductive texp : Type :=
| XEpoch | XNow (sec usec : Z)
| XAdd (t : texp) (d : dexp) | XSub (t : texp) (d : dexp)
| XAddAssign (t : texp) (d : dexp) | XSubAssign (t : texp) (d : dexp)
with dexp : Type :=
| DDiff (a b : texp) | DMsec (m : Z)
| DAdd (a b : dexp) | DSub (a b : dexp)
| DAddAssign (a b : dexp) | DSubAssign (a b : dexp)
| DNeg (a : dexp).

(** programs over the operators of timestamp.h 60-170 *)
Fixpoint teval (e : texp) : outcome timestamp :=
  match e with
  | XEpoch => Ret ts_epoch
  | XNow s u => Ret (ts_now s u)
  | XAdd t d => do x <- teval t; do y <- deval d; ts_add x y
  | XSub t d => do x <- teval t; do y <- deval d; ts_sub x y
  | XAddAssign t d => do x <- teval t; do y <- deval d; ts_add_assign x y
  | XSubAssign t d => do x <- teval t; do y <- deval d; ts_sub_assign x y
  end
with deval (e : dexp) : outcome timediff :=
  match e with
  | DDiff a b => do x <- teval a; do y <- teval b; ts_diff x y
  | DMsec m => timediff_of_msec m
  | DAdd a b => do x <- deval a; do y <- deval b; td_add x y
  | DSub a b => do x <- deval a; do y <- deval b; td_sub x y
  | DAddAssign a b => do x <- deval a; do y <- deval b; td_add_assign x y
  | DSubAssign a b => do x <- deval a; do y <- deval b; td_sub_assign x y
  | DNeg a => do x <- deval a; td_neg x
  end.
