(** Property theorems for the time classes: C01, C02, C03 and the time part of C14. *)
From Coq Require Import ZArith Bool Lia.
From Verif Require Import Base TimeModel TimeSpec TimeProofs.
Open Scope Z_scope.

(** C01: whatever program is run, a result that is produced is in normal form
    and is exactly the integer the program computes. *)
Theorem C01_timestamp_programs_exact : forall e t,
  tclock_ok e -> teval e = Ret t -> ts_represents t (tmean e).
Proof. exact (fun e t H => proj1 time_sound e H t). Qed.
Print Assumptions C01_timestamp_programs_exact.

Theorem C01_timediff_programs_exact : forall e d,
  dclock_ok e -> deval e = Ret d -> td_represents d (dmean e).
Proof. exact (fun e d H => proj2 time_sound e H d). Qed.
Print Assumptions C01_timediff_programs_exact.

(** ... and there is a result whenever all values stay within +-2^61 seconds. *)
Theorem C01_timestamp_programs_defined : forall e,
  tclock_ok e -> tin_range e -> exists t, teval e = Ret t.
Proof. exact (proj1 time_total). Qed.
Print Assumptions C01_timestamp_programs_defined.

Theorem C01_timediff_programs_defined : forall e,
  dclock_ok e -> din_range e -> exists d, deval e = Ret d.
Proof. exact (proj2 time_total). Qed.
Print Assumptions C01_timediff_programs_defined.

Example C01_example :
  let e := XSub (XAdd XEpoch (DDiff (XNow 5 999999) (XNow 3 7))) (DNeg (DDiff (XNow 1 2) (XNow 2 1))) in
  tclock_ok e /\ tin_range e /\ teval e = Ret {| t_valid := true; t_sec := 1; t_usec := 999993 |}.
Proof. cbn. unfold normal_usec, in_range. cbn. repeat split; try reflexivity; lia. Qed.

(** C02 *)
Theorem C02_timestamp_order_is_chronological : forall a b x y,
  ts_represents a x -> ts_represents b y ->
  ts_lt a b = (x <? y) /\ ts_gt a b = (y <? x) /\ ts_le a b = (x <=? y) /\ ts_ge a b = (y <=? x) /\
  ts_eq a b = (x =? y) /\ ts_ne a b = negb (x =? y).
Proof. exact ts_compare_all. Qed.
Print Assumptions C02_timestamp_order_is_chronological.

Theorem C02_timediff_order_is_chronological : forall a b x y,
  td_represents a x -> td_represents b y ->
  td_lt a b = Ret (x <? y) /\ td_gt a b = Ret (y <? x) /\ td_le a b = Ret (x <=? y) /\ td_ge a b = Ret (y <=? x) /\
  td_eq a b = Ret (x =? y) /\ td_ne a b = Ret (negb (x =? y)).
Proof. exact td_compare_all. Qed.
Print Assumptions C02_timediff_order_is_chronological.

Theorem C02_difference_then_add_recovers : forall a b x y,
  ts_represents a x -> ts_represents b y -> small x -> small y ->
  exists d, ts_diff a b = Ret d /\ ts_add b d = Ret a.
Proof. exact diff_add_roundtrip. Qed.
Print Assumptions C02_difference_then_add_recovers.

Theorem C02_add_then_subtract_recovers : forall a d x y,
  ts_represents a x -> td_represents d y -> small x -> small y ->
  exists r, ts_add a d = Ret r /\ ts_sub r d = Ret a.
Proof. exact add_sub_roundtrip. Qed.
Print Assumptions C02_add_then_subtract_recovers.

Theorem C02_addition_is_monotone : forall a b d x y z,
  ts_represents a x -> ts_represents b y -> td_represents d z -> small x -> small y -> small z ->
  exists ra rb, ts_add a d = Ret ra /\ ts_add b d = Ret rb /\ ts_lt ra rb = ts_lt a b.
Proof. exact ts_add_monotone. Qed.
Print Assumptions C02_addition_is_monotone.

Theorem C02_timestamp_validity : forall a d r,
  (ts_add a d = Ret r \/ ts_sub a d = Ret r \/ ts_add_assign a d = Ret r \/ ts_sub_assign a d = Ret r) ->
  t_valid r = t_valid a && d_valid d.
Proof. exact ts_ops_valid. Qed.
Print Assumptions C02_timestamp_validity.

Theorem C02_timediff_validity : forall a b r,
  (td_add a b = Ret r \/ td_sub a b = Ret r \/ td_add_assign a b = Ret r \/ td_sub_assign a b = Ret r) ->
  d_valid r = d_valid a && d_valid b.
Proof. exact td_ops_valid. Qed.
Print Assumptions C02_timediff_validity.

Example C02_example :
  ts_represents {| t_valid := true; t_sec := 7; t_usec := 999999 |} 7999999 /\
  td_represents {| d_valid := true; d_fields := Some (-1, 1) |} (-999999) /\ small 7999999 /\ small (-999999) /\
  ts_add {| t_valid := true; t_sec := 7; t_usec := 999999 |} {| d_valid := true; d_fields := Some (-1, 1) |}
    = Ret {| t_valid := true; t_sec := 7; t_usec := 0 |}.
Proof.
  unfold ts_represents, td_represents, small, normal_usec, micros. cbn.
  repeat split; try reflexivity; try lia. exists (-1), 1. repeat split; try reflexivity; lia.
Qed.

(** C03: the claim is false; this is exactly when the round trip succeeds. *)
Theorem C03_msec_roundtrip_refuted : exists m r,
  fits_long m = true /\ obind (timediff_of_msec m) milliseconds = Ret r /\ r <> m.
Proof. exists 1500, 1000. split; [|split]; [reflexivity|reflexivity|discriminate]. Qed.
Print Assumptions C03_msec_roundtrip_refuted.

Theorem C03_msec_roundtrip_partial : forall m,
  - 2 ^ 62 <= m <= 2 ^ 62 ->
  exists r, obind (timediff_of_msec m) milliseconds = Ret r /\
  (r = m <-> (0 <= m /\ m mod 1000 = 0) \/ (m < 0 /\ m mod 1000 = 999)).
Proof. exact msec_roundtrip_iff. Qed.
Print Assumptions C03_msec_roundtrip_partial.

Example C03_example : obind (timediff_of_msec 2000) milliseconds = Ret 2000
  /\ obind (timediff_of_msec (-1)) milliseconds = Ret (-1)
  /\ obind (timediff_of_msec (-1000)) milliseconds = Ret (-2000).
Proof. repeat split; reflexivity. Qed.

(** C14, time part: a default constructed TimeDiff has indeterminate fields, so
    arithmetic with it does not return an invalid result, it is undefined. *)
Theorem C14_default_timediff_arithmetic_refuted :
  td_add timediff_default timediff_default = Undef /\ ts_add ts_epoch timediff_default = Undef.
Proof. split; reflexivity. Qed.
Print Assumptions C14_default_timediff_arithmetic_refuted.
