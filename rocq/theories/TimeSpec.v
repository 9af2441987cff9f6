(** Independent specification for the time classes: integers of microseconds. *)
From Coq Require Import ZArith Bool.
From Verif Require Import Base TimeModel.
Open Scope Z_scope.

(** A (seconds, microseconds) pair is in normal form. *)
Definition normal_usec (u : Z) : Prop := 0 <= u < 1000000.
(** The number of microseconds a pair stands for. *)
Definition micros (s u : Z) : Z := s * 1000000 + u.

(** A valid object that stands for [z] microseconds, in normal form. *)
Definition ts_represents (t : timestamp) (z : Z) : Prop :=
  t_valid t = true /\ fits_long (t_sec t) = true /\ normal_usec (t_usec t) /\ micros (t_sec t) (t_usec t) = z.
Definition td_represents (d : timediff) (z : Z) : Prop :=
  d_valid d = true /\ exists s u, d_fields d = Some (s, u) /\ fits_long s = true /\ normal_usec u /\ micros s u = z.

(** The integer program corresponding to an expression.  A millisecond
    constructor [DMsec m] stands for the value its constructor stores (which is
    not [1000 * m], see property C03): floor-style seconds and a residue. *)
Definition msec_stored (m : Z) : Z :=
  if m <? 0 then (Z.quot m 1000 - 1) * 1000000 + (if Z.rem m 1000 <? 0 then Z.rem m 1000 + 1000000 else 0)
  else Z.quot m 1000 * 1000000 + Z.rem m 1000.

Fixpoint tmean (e : texp) : Z :=
  match e with
  | XEpoch => 0
  | XNow s u => s * 1000000 + u
  | XAdd t d | XAddAssign t d => tmean t + dmean d
  | XSub t d | XSubAssign t d => tmean t - dmean d
  end
with dmean (e : dexp) : Z :=
  match e with
  | DDiff a b => tmean a - tmean b
  | DMsec m => msec_stored m
  | DAdd a b | DAddAssign a b => dmean a + dmean b
  | DSub a b | DSubAssign a b => dmean a - dmean b
  | DNeg a => - dmean a
  end.

(** Timestamps entering the program come from the clock in normal form. *)
Fixpoint tclock_ok (e : texp) : Prop :=
  match e with
  | XEpoch => True
  | XNow s u => fits_long s = true /\ normal_usec u
  | XAdd t d | XAddAssign t d | XSub t d | XSubAssign t d => tclock_ok t /\ dclock_ok d
  end
with dclock_ok (e : dexp) : Prop :=
  match e with
  | DDiff a b => tclock_ok a /\ tclock_ok b
  | DMsec m => fits_long m = true
  | DAdd a b | DAddAssign a b | DSub a b | DSubAssign a b => dclock_ok a /\ dclock_ok b
  | DNeg a => dclock_ok a
  end.

(** Every value occurring in the program is within +-2^61 seconds. *)
Definition in_range (z : Z) : Prop := - (2 ^ 61 * 1000000) <= z <= 2 ^ 61 * 1000000.
Fixpoint tin_range (e : texp) : Prop :=
  in_range (tmean e) /\
  match e with
  | XEpoch | XNow _ _ => True
  | XAdd t d | XAddAssign t d | XSub t d | XSubAssign t d => tin_range t /\ din_range d
  end
with din_range (e : dexp) : Prop :=
  in_range (dmean e) /\
  match e with
  | DDiff a b => tin_range a /\ tin_range b
  | DMsec _ => True
  | DAdd a b | DAddAssign a b | DSub a b | DSubAssign a b => din_range a /\ din_range b
  | DNeg a => din_range a
  end.

(** Within +-2^59 seconds (about 18 billion years). *)
Definition small (z : Z) : Prop := - (2 ^ 59 * 1000000) <= z <= 2 ^ 59 * 1000000.
