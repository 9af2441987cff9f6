(** C68: rounding in vector arithmetic.  The other theorems about vectors are about exact arithmetic;
    these bound the distance between what the library computes with doubles and the exact value. *)
From Coq Require Import ZArith Reals Bool SpecFloat Lia Lra List.
From Flocq Require Import Core IEEE754.BinarySingleNaN.
From Verif Require Import Base Scalar RLib B64Ops RSpec ConstModel VecModel RotModel ConstSpec VecSpec RoundSpec
  RoundLib RoundProofs RoundProofs2 RoundProofs3 RoundProofs4 RoundProofs5.
Import ListNotations.
Open Scope R_scope.

Lemma half_big : bpow radix2 1022 = big / 2.
Proof. unfold big. change (bpow radix2 1023) with (bpow radix2 (1 + 1022)). rewrite bpow_plus. change (bpow radix2 1) with 2. field. Qed.

(** Sums, differences, multiples and quotients are correctly rounded in each coordinate: the nearest doubles to the
    exact values, for all coordinates whose exact value is at most 2^1023 in size. *)
Theorem C68_coordinates : forall m n a b c, doubles n a -> doubles n b -> finite_double c ->
  ((forall i, (i < n)%nat -> Rabs (rco a i + rco b i) <= bpow radix2 1023) ->
     doubles n (vec_add (H := B64 m) n a b) /\ forall i, (i < n)%nat -> rco (vec_add (H := B64 m) n a b) i = nearest (rco a i + rco b i)) /\
  ((forall i, (i < n)%nat -> Rabs (rco a i - rco b i) <= bpow radix2 1023) ->
     doubles n (vec_sub (H := B64 m) n a b) /\ forall i, (i < n)%nat -> rco (vec_sub (H := B64 m) n a b) i = nearest (rco a i - rco b i)) /\
  ((forall i, (i < n)%nat -> Rabs (rco a i * real c) <= bpow radix2 1023) ->
     doubles n (vec_scale (H := B64 m) n a c) /\ forall i, (i < n)%nat -> rco (vec_scale (H := B64 m) n a c) i = nearest (rco a i * real c)) /\
  (real c <> 0 -> (forall i, (i < n)%nat -> Rabs (rco a i / real c) <= bpow radix2 1023) ->
     doubles n (vec_div (H := B64 m) n a c) /\ forall i, (i < n)%nat -> rco (vec_div (H := B64 m) n a c) i = nearest (rco a i / real c)) /\
  (doubles n (vec_neg (H := B64 m) n a) /\ forall i, (i < n)%nat -> rco (vec_neg (H := B64 m) n a) i = - rco a i).
Proof.
  intros m n a b c Da Db Fc. apply fl_iff in Fc. split; [|split; [|split; [|split]]].
  - apply add_round; auto.
  - apply sub_round; auto.
  - apply scale_round; auto.
  - apply div_round; auto.
  - apply neg_exact; auto.
Qed.
Print Assumptions C68_coordinates.

(** The distance to the nearest double. *)
Theorem C68_nearest : forall x, Rabs (nearest x - x) <= half_ulp * Rabs x + half_tiny.
Proof. exact rnd_err. Qed.
Print Assumptions C68_nearest.

(** Going from a to b by the difference b - a ends within three half units of b. *)
Theorem C68_difference : forall m n a b, doubles n a -> doubles n b ->
  (forall i, (i < n)%nat -> Rabs (rco a i) <= bpow radix2 1021 /\ Rabs (rco b i) <= bpow radix2 1021) ->
  let r := vec_add (H := B64 m) n a (vec_sub (H := B64 m) n b a) in
  doubles n r /\ forall i, (i < n)%nat -> Rabs (rco r i - rco b i) <= 2 * half_ulp * Rabs (rco b i - rco a i) + half_ulp * Rabs (rco b i).
Proof.
  intros m n a b Da Db B r. change half_ulp with u64. pose proof u64_pos as [U U4].
  assert (H21 : 4 * bpow radix2 1021 = bpow radix2 1023) by (change 4 with (bpow radix2 2); rewrite <- bpow_plus; reflexivity).
  pose proof (bpow_gt_0 radix2 1021) as P21.
  assert (BD : forall i, (i < n)%nat -> Rabs (rco b i - rco a i) <= 2 * bpow radix2 1021).
  { intros i Hi. destruct (B i Hi). pose proof (Rabs_triang (rco b i) (- rco a i)) as T. rewrite Rabs_Ropp in T. unfold Rminus. lra. }
  destruct (sub_round m n b a Db Da) as [Ds Es].
  { intros i Hi. specialize (BD i Hi). unfold big. lra. }
  set (d := vec_sub (H := B64 m) n b a) in *.
  assert (E1 : forall i, (i < n)%nat -> Rabs (rco d i - (rco b i - rco a i)) <= u64 * Rabs (rco b i - rco a i)).
  { intros i Hi. rewrite Es by auto. apply (rnd_add_err (rco b i) (- rco a i)).
    - apply fl_format. eapply co_fl; eauto.
    - apply generic_format_opp, fl_format. eapply co_fl; eauto. }
  assert (E2 : forall i, (i < n)%nat -> Rabs (rco a i + rco d i) <= Rabs (rco b i) + u64 * Rabs (rco b i - rco a i)).
  { intros i Hi. specialize (E1 i Hi). pose proof (Rabs_triang (rco d i - (rco b i - rco a i)) (rco b i)) as T.
    replace (rco d i - (rco b i - rco a i) + rco b i) with (rco a i + rco d i) in T by ring. lra. }
  destruct (add_round m n a d Da Ds) as [Dr Er].
  { intros i Hi. specialize (E2 i Hi). specialize (BD i Hi). destruct (B i Hi). unfold big.
    assert (u64 * Rabs (rco b i - rco a i) <= / 4 * (2 * bpow radix2 1021)) by (apply Rmult_le_compat; try lra; apply Rabs_pos). lra. }
  split; [exact Dr|]. intros i Hi. unfold r. rewrite Er by auto. rewrite nearest_rnd.
  pose proof (rnd_add_err (rco a i) (rco d i)) as R.
  specialize (R ltac:(apply fl_format; eapply co_fl; eauto) ltac:(apply fl_format; eapply co_fl; eauto)).
  specialize (E1 i Hi). specialize (E2 i Hi).
  pose proof (Rabs_triang (rnd (rco a i + rco d i) - (rco a i + rco d i)) (rco d i - (rco b i - rco a i))) as T.
  replace (rnd (rco a i + rco d i) - (rco a i + rco d i) + (rco d i - (rco b i - rco a i))) with (rnd (rco a i + rco d i) - rco b i) in T by ring.
  set (X := Rabs (rco b i - rco a i)) in *. assert (0 <= X) by apply Rabs_pos.
  assert (u64 * Rabs (rco a i + rco d i) <= u64 * (Rabs (rco b i) + u64 * X)) by (apply Rmult_le_compat_l; lra).
  assert (u64 * (u64 * X) <= u64 * (1 * X)) by (apply Rmult_le_compat_l; [lra|]; apply Rmult_le_compat_r; lra). lra.
Qed.
Print Assumptions C68_difference.

(** Dot is either the sum of the products, with an error of at most dimension + 2 half units relative to the sum of
    their sizes, or zero because that sum is below the library's tolerance. *)
Theorem C68_dot : forall m n a b, (Z.of_nat n <= 2 ^ 26)%Z -> doubles n a -> doubles n b ->
  Rsum n (fun i => Rabs (rco a i * rco b i)) <= bpow radix2 1022 ->
  let d := dot (H := B64 m) n a b in
  finite_double d /\
  exists s, Rabs (s - inner n (rco a) (rco b)) <= (INR n + 2) * half_ulp * Rsum n (fun i => Rabs (rco a i * rco b i)) + 2 * INR n * half_tiny /\
   (real d = s \/ real d = 0 /\
    forall A B, (forall i, (i < n)%nat -> Rabs (rco a i) <= A) -> (forall i, (i < n)%nat -> Rabs (rco b i) <= B) ->
      Rabs s <= 2 * lib_eps * (1 + half_ulp) * Rmin A B + half_tiny).
Proof.
  intros m n a b L Da Db B d. rewrite half_big in B. rewrite <- epsR_lib.
  destruct (dot_ok m n a b L Da Db B) as [F E]. split; [now apply fl_iff|exact E].
Qed.
Print Assumptions C68_dot.

(** sqrMag and mag: never negative, and relatively exact to dimension + 2 (or + 5) half units. *)
Theorem C68_length : forall m n a, (Z.of_nat n <= 2 ^ 26)%Z -> doubles n a -> norm2 n (rco a) <= bpow radix2 1022 ->
  let s := sqr_mag (H := B64 m) n a in let l := VecModel.mag (H := B64 m) n a in
  (finite_double s /\ 0 <= real s /\ Rabs (real s - norm2 n (rco a)) <= (INR n + 2) * half_ulp * norm2 n (rco a) + 2 * INR n * half_tiny) /\
  (finite_double l /\ 0 <= real l /\
   (bpow radix2 (-990) <= norm2 n (rco a) -> Rabs (real l - norm n (rco a)) <= (INR n + 5) * half_ulp * norm n (rco a))).
Proof.
  intros m n a L Da B s l. rewrite half_big in B. split.
  - destruct (sqr_mag_ok m n a L Da B) as [F E]. split; [now apply fl_iff|exact E].
  - destruct (mag_ok m n a L Da B) as [F E]. split; [now apply fl_iff|exact E].
Qed.
Print Assumptions C68_length.

(** normalize(c): direction and length. *)
Theorem C68_normalize : forall m n a c, (Z.of_nat n <= 2 ^ 26)%Z -> doubles n a -> finite_double c ->
  bpow radix2 (-990) <= norm2 n (rco a) <= bpow radix2 1022 -> bpow radix2 (-400) <= Rabs (real c) <= bpow radix2 400 ->
  let w := normalize (H := B64 m) n a c in
  doubles n w /\
  (forall i, (i < n)%nat -> Rabs (rco w i - real c / norm n (rco a) * rco a i) <= (INR n + 10) * half_ulp * Rabs (real c / norm n (rco a) * rco a i) + half_tiny) /\
  Rabs (norm n (rco w) - Rabs (real c)) <= (INR n + 11) * half_ulp * Rabs (real c).
Proof.
  intros m n a c L Da Fc B C. rewrite half_big in B. apply fl_iff in Fc. exact (normalize_ok m n a c L Da Fc B C).
Qed.
Print Assumptions C68_normalize.

(** SquaredDistance and Distance. *)
Theorem C68_distance : forall m n p q, (Z.of_nat n <= 2 ^ 26)%Z -> doubles n p -> doubles n q ->
  dist2 n (rco p) (rco q) <= bpow radix2 1022 ->
  let d2 := squared_distance (H := B64 m) n p q in let d := distance (H := B64 m) n p q in
  (finite_double d2 /\ 0 <= real d2 /\ exists s, 0 <= s /\
   Rabs (s - dist2 n (rco p) (rco q)) <= (INR n + 4) * half_ulp * dist2 n (rco p) (rco q) + 2 * INR n * half_tiny /\
   (real d2 = s \/ real d2 = 0 /\
    forall A B, (forall i, (i < n)%nat -> Rabs (rco p i) <= A) -> (forall i, (i < n)%nat -> Rabs (rco q i) <= B) ->
      s <= 2 * lib_eps * (1 + half_ulp) * Rmax 1 (Rmin A B) + half_tiny)) /\
  (finite_double d /\ 0 <= real d /\
   (bpow radix2 (-990) <= dist2 n (rco p) (rco q) ->
    Rabs (real d - dist n (rco p) (rco q)) <= (INR n + 7) * half_ulp * dist n (rco p) (rco q) \/
    real d = 0 /\ forall A B, (forall i, (i < n)%nat -> Rabs (rco p i) <= A) -> (forall i, (i < n)%nat -> Rabs (rco q i) <= B) ->
      dist2 n (rco p) (rco q) <= 3 * lib_eps * Rmax 1 (Rmin A B))).
Proof.
  intros m n p q L Dp Dq B d2 d. rewrite half_big in B. rewrite <- epsR_lib. split.
  - destruct (squared_distance_ok m n p q L Dp Dq B) as [F E]. split; [now apply fl_iff|exact E].
  - destruct (distance_ok m n p q L Dp Dq B) as [F E]. split; [now apply fl_iff|exact E].
Qed.
Print Assumptions C68_distance.

(** Cross in space. *)
Theorem C68_cross : forall m a b, doubles 3 a -> doubles 3 b ->
  (forall i, (i < 3)%nat -> cross_mass (rco a) (rco b) i <= bpow radix2 1022) ->
  let c := cross3 (H := B64 m) a b in
  doubles 3 c /\ forall i, (i < 3)%nat -> exists s,
    Rabs (s - cross_coord (rco a) (rco b) i) <= 3 * half_ulp * cross_mass (rco a) (rco b) i + 3 * half_tiny /\
    (rco c i = s \/ rco c i = 0 /\
     forall A B, (forall j, (j < 3)%nat -> Rabs (rco a j) <= A) -> (forall j, (j < 3)%nat -> Rabs (rco b j) <= B) ->
       Rabs s <= 2 * lib_eps * (1 + half_ulp) * Rmin A B + half_tiny).
Proof. intros m a b Da Db B. rewrite half_big in B. rewrite <- epsR_lib. exact (cross3_ok m a b Da Db B). Qed.
Print Assumptions C68_cross.

(** v.rotate(m), and the product in the other order: each coordinate is within dimension + 2 half units of the exact
    product, relative to the lengths of the vector and of the matrix column (row). *)
Theorem C68_rotate : forall m n M v, (Z.of_nat n <= 2 ^ 26)%Z -> mdoubles m n M -> doubles n v ->
  ((forall i, (i < n)%nat -> norm n (fun j => mco m M j i) * norm n (rco v) <= bpow radix2 1022) ->
   let w := vec_rotate (H := B64 m) n v M in
   doubles n w /\ forall i, (i < n)%nat -> Rabs (rco w i - Rsum n (fun j => mco m M j i * rco v j)) <=
     (INR n + 2) * half_ulp * (norm n (fun j => mco m M j i) * norm n (rco v)) + 2 * INR n * half_tiny) /\
  ((forall i, (i < n)%nat -> norm n (mco m M i) * norm n (rco v) <= bpow radix2 1022) ->
   let w := prod_mv (H := B64 m) n M v in
   doubles n w /\ forall i, (i < n)%nat -> Rabs (rco w i - Rsum n (fun j => mco m M i j * rco v j)) <=
     (INR n + 2) * half_ulp * (norm n (mco m M i) * norm n (rco v)) + 2 * INR n * half_tiny).
Proof.
  intros m n M v L DM Dv. change half_ulp with u64. change half_tiny with eta64.
  assert (CS : forall f g, Rsum n (fun j => Rabs (f j * g j)) <= norm n f * norm n g).
  { intros f g. assert (NA : forall h, norm n h = norm n (fun j => Rabs (h j))).
    { intros h. unfold norm. f_equal. apply Rsum_ext. intros. rewrite <- Rabs_mult. symmetry. apply Rabs_pos_eq, Rle_0_sqr. }
    rewrite (NA f), (NA g). eapply Rle_trans; [|apply inner_le_norm]. apply Req_le, Rsum_ext. intros. apply Rabs_mult. }
  pose proof (pos_INR n). pose proof u64_pos as [U _].
  assert (K : 0 <= (INR n + 2) * u64) by (apply Rmult_le_pos; lra).
  split; intros B w; rewrite half_big in B.
  - destruct (inv_prod_round m n M v L DM Dv) as [Dw Ew].
    { intros i Hi. eapply Rle_trans; [apply (CS (fun j => mco m M j i))|apply B, Hi]. }
    split; [exact Dw|]. intros i Hi. eapply Rle_trans; [apply Ew, Hi|]. apply Rplus_le_compat_r, Rmult_le_compat_l; [exact K|apply (CS (fun j => mco m M j i))].
  - destruct (prod_round m n M v L DM Dv) as [Dw Ew].
    { intros i Hi. eapply Rle_trans; [apply (CS (mco m M i))|apply B, Hi]. }
    split; [exact Dw|]. intros i Hi. eapply Rle_trans; [apply Ew, Hi|]. apply Rplus_le_compat_r, Rmult_le_compat_l; [exact K|apply (CS (mco m M i))].
Qed.
Print Assumptions C68_rotate.

(** Exact symmetries, for every double including infinities and NaN. *)
Theorem C68_symmetric : forall m n (a b : coords spec_float),
  dot (H := B64 m) n a b = dot (H := B64 m) n b a /\ distance (H := B64 m) n a b = distance (H := B64 m) n b a /\
  vec_add (H := B64 m) n a b = vec_add (H := B64 m) n b a.
Proof. intros. split; [apply dot_sym|split; [apply distance_sym|apply add_sym]]. Qed.
Print Assumptions C68_symmetric.

(** The hypotheses are met by (1/10, 2/10, -3/10) and (10, 7, 1/3), and the result is a rounded one. *)
Definition d_tenth : spec_float := SFdiv prec64 emax64 (b64_ofZ 1) (b64_ofZ 10).
Definition d_third : spec_float := SFdiv prec64 emax64 (b64_ofZ 1) (b64_ofZ 3).
Definition v1 : coords spec_float := mkC [d_tenth; SFmul prec64 emax64 (b64_ofZ 2) d_tenth; SFmul prec64 emax64 (b64_ofZ (-3)) d_tenth] true.
Definition v2 : coords spec_float := mkC [b64_ofZ 10; b64_ofZ 7; d_third] true.
Example C68_example : doubles 3 v1 /\ doubles 3 v2 /\
  (forall i, (i < 3)%nat -> Rabs (rco v1 i) <= 1 /\ Rabs (rco v2 i) <= 10) /\
  Rsum 3 (fun i => Rabs (rco v1 i * rco v2 i)) <= bpow radix2 1022 /\
  bpow radix2 (-990) <= norm2 3 (rco v1) <= bpow radix2 1022 /\
  forall m, real (dot (H := B64 m) 3 v1 v2) <> inner 3 (rco v1) (rco v2).
Proof.
  assert (D1 : doubles 3 v1) by (split; [reflexivity|repeat (constructor; [split; [reflexivity|exact I]|]); constructor]).
  assert (D2 : doubles 3 v2) by (split; [reflexivity|repeat (constructor; [split; [reflexivity|exact I]|]); constructor]).
  assert (C : forall s p e, real (S754_finite s p e) = IZR (cond_Zopp s (Zpos p)) * bpow radix2 e) by reflexivity.
  assert (E1 : el v1 = [S754_finite false 7205759403792794 (-56); S754_finite false 7205759403792794 (-55); S754_finite true 5404319552844596 (-54)]) by (vm_compute; reflexivity).
  assert (E2 : el v2 = [S754_finite false 5629499534213120 (-49); S754_finite false 7881299347898368 (-50); S754_finite false 6004799503160661 (-54)]) by (vm_compute; reflexivity).
  assert (A0 : rco v1 0 = 7205759403792794 / 2 ^ 56) by (unfold rco; rewrite E1; cbn [nth]; rewrite C; unfold bpow; simpl; lra).
  assert (A1 : rco v1 1 = 7205759403792794 / 2 ^ 55) by (unfold rco; rewrite E1; cbn [nth]; rewrite C; unfold bpow; simpl; lra).
  assert (A2 : rco v1 2 = - 5404319552844596 / 2 ^ 54) by (unfold rco; rewrite E1; cbn [nth]; rewrite C; unfold bpow; simpl; lra).
  assert (B0 : rco v2 0 = 5629499534213120 / 2 ^ 49) by (unfold rco; rewrite E2; cbn [nth]; rewrite C; unfold bpow; simpl; lra).
  assert (B1 : rco v2 1 = 7881299347898368 / 2 ^ 50) by (unfold rco; rewrite E2; cbn [nth]; rewrite C; unfold bpow; simpl; lra).
  assert (B2 : rco v2 2 = 6004799503160661 / 2 ^ 54) by (unfold rco; rewrite E2; cbn [nth]; rewrite C; unfold bpow; simpl; lra).
  assert (Big : 100 <= bpow radix2 1022) by (apply Rle_trans with (bpow radix2 7); [unfold bpow; simpl; lra|apply bpow_le; lia]).
  assert (Low : bpow radix2 (-990) <= / 128) by (apply Rle_trans with (bpow radix2 (-7)); [apply bpow_le; lia|unfold bpow; simpl; lra]).
  assert (Bd : forall i, (i < 3)%nat -> Rabs (rco v1 i) <= 1 /\ Rabs (rco v2 i) <= 10).
  { intros i Hi. destruct i as [|[|[|i]]]; [| | |lia]; rewrite ?A0, ?A1, ?A2, ?B0, ?B1, ?B2; simpl; split; apply Rabs_le; lra. }
  split; [exact D1|]. split; [exact D2|]. split; [exact Bd|]. split; [|split; [split|]].
  - assert (T : forall i, (i < 3)%nat -> Rabs (rco v1 i * rco v2 i) <= 10).
    { intros i Hi. destruct (Bd i Hi). rewrite Rabs_mult. replace 10 with (1 * 10) by ring. apply Rmult_le_compat; auto; apply Rabs_pos. }
    simpl Rsum. pose proof (T 0%nat ltac:(lia)). pose proof (T 1%nat ltac:(lia)). pose proof (T 2%nat ltac:(lia)). lra.
  - unfold norm2, inner. simpl Rsum. rewrite A0, A1, A2. simpl in *. lra.
  - unfold norm2, inner. simpl Rsum. rewrite A0, A1, A2. simpl in *. lra.
  - intros m. assert (E : dot (H := B64 m) 3 v1 v2 = S754_finite false 5179139571476071 (-51)) by (vm_compute; reflexivity).
    rewrite E, C. unfold inner. simpl Rsum. rewrite A0, A1, A2, B0, B1, B2. unfold bpow. simpl. lra.
Qed.
