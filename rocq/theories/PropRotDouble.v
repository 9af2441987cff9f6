(** C70 Rotation matrices in doubles. *)
From Coq Require Import ZArith NArith Reals Bool SpecFloat Lia Lra List Psatz.
From Flocq Require Import Core IEEE754.BinarySingleNaN.
From Verif Require Import Base Scalar OrdLib RLib B64Lib B64Ops FloatOps RSpec ConstModel VecModel RotModel VecSpec ConstSpec RotSpec RoundSpec RotRoundSpec QuatRoundSpec MatLib
  RoundLib RoundProofs RoundProofs2 RoundProofs3 RoundProofs4 RoundProofs5 QuatRound RotRound PropRot PropQuatDouble2.
Import ListNotations.
Open Scope R_scope.

(** The doubles pi/2 and 1, and the sines and cosines that a C library gives for them: the nearest doubles. *)
Definition d1 : spec_float := b64_ofZ 1.
Definition d_half_pi : spec_float := S754_finite false 7074237752028440 (-52).
Definition usual_sincos (m : libm) : Prop :=
  m_sin m d1 = S754_finite false 7579296827247854 (-53) /\ m_cos m d1 = S754_finite false 4866610526750348 (-53) /\
  m_sin m d_half_pi = d1 /\ m_cos m d_half_pi = S754_finite false 4967757600021511 (-106).

(** normalize() of the product of a rotation about x by 1 and one about z by pi/2.  The product is orthogonal to within one half unit;
    what normalize() makes of it is valid and has a first row of length over 1.1.  The elimination accepts the element 6e-17 as a pivot. *)
Definition turned (m : libm) : outcome (rotmatrix spec_float) := do x <- rot_x (H := B64 m) d1; do z <- rot_z (H := B64 m) d_half_pi; prod (H := B64 m) 3 x z.
Definition M_turned : rotmatrix spec_float :=
  mkM [[S754_finite false 4967757600021511 (-106); S754_finite false 4503599627370496 (-52); S754_zero false];
       [S754_finite true 4866610526750348 (-53); S754_finite false 5368181772571197 (-107); S754_finite false 7579296827247854 (-53)];
       [S754_finite false 7579296827247854 (-53); S754_finite true 8360447759954027 (-107); S754_finite false 4866610526750348 (-53)]] false true 2.
Definition M_spoiled : rotmatrix spec_float :=
  mkM [[S754_finite true 9007199254740991 (-54); S754_finite false 4503599627370496 (-52); S754_zero false];
       [S754_finite true 4866610526750348 (-53); S754_finite false 5368181772571196 (-107); S754_finite false 7579296827247854 (-53)];
       [S754_finite false 7579296827247854 (-53); S754_finite true 8360447759954028 (-107); S754_finite false 4866610526750348 (-53)]] false true 1.
Lemma rot_x_value m : usual_sincos m -> rot_x (H := B64 m) d1 = Ret (mkM [[d1; S754_zero false; S754_zero false]; [S754_zero false; S754_finite false 4866610526750348 (-53); S754_finite false 7579296827247854 (-53)]; [S754_zero false; S754_finite true 7579296827247854 (-53); S754_finite false 4866610526750348 (-53)]] false true 1).
Proof. intros (S1 & C1 & _ & _). unfold rot_x, rot_plane. cbn [Nat.ltb Nat.leb Nat.eqb negb andb oassert]. change (nsin (Num := B64 m) d1) with (m_sin m d1). change (ncos (Num := B64 m) d1) with (m_cos m d1). rewrite S1, C1. reflexivity. Qed.
Lemma rot_z_value m : usual_sincos m -> rot_z (H := B64 m) d_half_pi = Ret (mkM [[S754_finite false 4967757600021511 (-106); d1; S754_zero false]; [S754_finite true 4503599627370496 (-52); S754_finite false 4967757600021511 (-106); S754_zero false]; [S754_zero false; S754_zero false; d1]] false true 1).
Proof. intros (_ & _ & S1 & C1). unfold rot_z, rot_plane. cbn [Nat.ltb Nat.leb Nat.eqb negb andb oassert]. change (nsin (Num := B64 m) d_half_pi) with (m_sin m d_half_pi). change (ncos (Num := B64 m) d_half_pi) with (m_cos m d_half_pi). rewrite S1, C1. reflexivity. Qed.
Lemma turned_value m : usual_sincos m -> turned m = Ret M_turned.
Proof. intros U. unfold turned. rewrite (rot_x_value m U). cbn [obind]. rewrite (rot_z_value m U). cbn [obind]. vm_compute. reflexivity. Qed.
Lemma spoiled_value m : rot_normalize (H := B64 m) 3 M_turned = Ret M_spoiled.
Proof. vm_compute. reflexivity. Qed.

Ltac mdouble := intros i j Hi Hj; destruct i as [|[|[|i]]], j as [|[|[|j]]]; try lia; (split; [reflexivity|exact Logic.I]).
Lemma turned_near m : near_orthogonal m 3 M_turned half_ulp.
Proof.
  split; [mdouble|]. intros i j Hi Hj.
  set (a := mco m M_turned). assert (E : forall k l, (k < 3)%nat -> (l < 3)%nat -> a k l = nth l (nth k
    [[4967757600021511 * bpow radix2 (-106); 4503599627370496 * bpow radix2 (-52); 0]; [-4866610526750348 * bpow radix2 (-53); 5368181772571197 * bpow radix2 (-107); 7579296827247854 * bpow radix2 (-53)];
     [7579296827247854 * bpow radix2 (-53); -8360447759954027 * bpow radix2 (-107); 4866610526750348 * bpow radix2 (-53)]] []) 0).
  { intros k l Hk Hl. destruct k as [|[|[|k]]], l as [|[|[|l]]]; try lia; reflexivity. }
  clearbody a. assert (Q : Rsum 3 (fun k => a i k * a j k) = a i 0%nat * a j 0%nat + a i 1%nat * a j 1%nat + a i 2%nat * a j 2%nat) by (cbn [Rsum]; ring). rewrite Q, !E by lia.
  unfold half_ulp, bpow. change (Z.pow_pos radix2 53) with 9007199254740992%Z. change (Z.pow_pos radix2 52) with 4503599627370496%Z. change (Z.pow_pos radix2 106) with 81129638414606681695789005144064%Z. change (Z.pow_pos radix2 107) with 162259276829213363391578010288128%Z.
  destruct i as [|[|[|i]]], j as [|[|[|j]]]; try lia; cbn [nth]; unfold delta; cbn [Nat.eqb]; apply Rabs_le; lra.
Qed.
Lemma spoiled_row m : 6 / 5 <= Rsum 3 (fun k => mco m M_spoiled 0 k * mco m M_spoiled 0 k).
Proof.
  cbn [Rsum]. change (mco m M_spoiled 0 0) with (-9007199254740991 * bpow radix2 (-54)). change (mco m M_spoiled 0 1) with (4503599627370496 * bpow radix2 (-52)). change (mco m M_spoiled 0 2) with 0.
  unfold bpow. change (Z.pow_pos radix2 54) with 18014398509481984%Z. change (Z.pow_pos radix2 52) with 4503599627370496%Z. lra.
Qed.
Theorem C70_normalize_refuted : forall m : libm, exists M M', near_orthogonal m 3 M half_ulp /\ mvalid M = true /\ (usual_sincos m -> turned m = Ret M) /\
  rot_normalize (H := B64 m) 3 M = Ret M' /\ mvalid M' = true /\ 6 / 5 <= Rsum 3 (fun k => mco m M' 0 k * mco m M' 0 k).
Proof.
  intros m. exists M_turned, M_spoiled. split; [apply turned_near|]. split; [reflexivity|]. split; [apply turned_value|]. split; [apply spoiled_value|]. split; [reflexivity|apply spoiled_row].
Qed.
Print Assumptions C70_normalize_refuted.

(** normalize() can also fail its assertion, that a rotation is not singular: the product of rotations about x by 0.3, about z by pi/2 and
    about x by 0.7, orthogonal to within two half units. *)
Definition M_singular : rotmatrix spec_float :=
  mkM [[S754_finite false 4967757600021511 (-106); S754_finite false 6889085979303315 (-53); S754_finite false 5802597072378296 (-53)];
       [S754_finite true 8604906112879034 (-53); S754_finite true 6859138744006869 (-55); S754_finite false 8143456449245811 (-55)];
       [S754_finite false 5323618770401843 (-54); S754_finite true 5543432714936401 (-53); S754_finite false 6581395212752066 (-53)]] false true 3.
Theorem C70_normalize_aborts_refuted : forall m : libm, exists M, near_orthogonal m 3 M (2 * half_ulp) /\ mvalid M = true /\ rot_normalize (H := B64 m) 3 M = AssertFail.
Proof.
  intros m. exists M_singular. split; [|split; [reflexivity|vm_compute; reflexivity]]. split; [mdouble|]. intros i j Hi Hj.
  set (a := mco m M_singular). assert (E : forall k l, (k < 3)%nat -> (l < 3)%nat -> a k l = nth l (nth k
    [[4967757600021511 * bpow radix2 (-106); 6889085979303315 * bpow radix2 (-53); 5802597072378296 * bpow radix2 (-53)]; [-8604906112879034 * bpow radix2 (-53); -6859138744006869 * bpow radix2 (-55); 8143456449245811 * bpow radix2 (-55)];
     [5323618770401843 * bpow radix2 (-54); -5543432714936401 * bpow radix2 (-53); 6581395212752066 * bpow radix2 (-53)]] []) 0).
  { intros k l Hk Hl. destruct k as [|[|[|k]]], l as [|[|[|l]]]; try lia; reflexivity. }
  clearbody a. assert (Q : Rsum 3 (fun k => a i k * a j k) = a i 0%nat * a j 0%nat + a i 1%nat * a j 1%nat + a i 2%nat * a j 2%nat) by (cbn [Rsum]; ring). rewrite Q, !E by lia.
  unfold half_ulp, bpow. change (Z.pow_pos radix2 53) with 9007199254740992%Z. change (Z.pow_pos radix2 54) with 18014398509481984%Z. change (Z.pow_pos radix2 55) with 36028797018963968%Z. change (Z.pow_pos radix2 106) with 81129638414606681695789005144064%Z.
  destruct i as [|[|[|i]]], j as [|[|[|j]]]; try lia; cbn [nth]; unfold delta; cbn [Nat.eqb]; apply Rabs_le; lra.
Qed.
Print Assumptions C70_normalize_aborts_refuted.

(** It happens without a call of normalize(): turn once about x, once about z by pi/2 and eighteen times about x.  The last product is
    renormalised because of its age, and the first row of the result has a length over 1.5. *)
Definition M_last : rotmatrix spec_float :=
  mkM [[S754_finite true 4503599627370496 (-52); S754_finite false 7477401708565048 (-53); S754_finite true 7885745512091416 (-53)];
       [S754_finite false 6518486913970100 (-54); S754_finite false 6834503180596696 (-53); S754_finite false 6009338590096424 (-53)];
       [S754_finite false 6398423834182460 (-52); S754_finite false 8776768051681672 (-54); S754_finite false 7717103870700274 (-54)]] false true 1.
Theorem C70_products_refuted : forall m : libm, usual_sincos m -> exists x z P, rot_x (H := B64 m) d1 = Ret x /\ rot_z (H := B64 m) d_half_pi = Ret z /\
  fold_left (do_turn m 3) (Times z :: repeat (Times x) 18) (Ret x) = Ret P /\ mvalid P = true /\ 12 / 5 <= Rsum 3 (fun k => mco m P 0 k * mco m P 0 k).
Proof.
  intros m U. rewrite (rot_x_value m U), (rot_z_value m U). do 2 eexists. exists M_last. split; [reflexivity|]. split; [reflexivity|]. split; [vm_compute; reflexivity|]. split; [reflexivity|].
  cbn [Rsum]. change (mco m M_last 0 0) with (-4503599627370496 * bpow radix2 (-52)). change (mco m M_last 0 1) with (7477401708565048 * bpow radix2 (-53)). change (mco m M_last 0 2) with (-7885745512091416 * bpow radix2 (-53)).
  unfold bpow. change (Z.pow_pos radix2 53) with 9007199254740992%Z. change (Z.pow_pos radix2 52) with 4503599627370496%Z. lra.
Qed.
Print Assumptions C70_products_refuted.
(** The hypothesis is met. *)
Example C70_usual : exists m : libm, usual_sincos m.
Proof.
  exists {| m_sin := fun x => if SFeqb x d1 then S754_finite false 7579296827247854 (-53) else d1; m_cos := fun x => if SFeqb x d1 then S754_finite false 4866610526750348 (-53) else S754_finite false 4967757600021511 (-106);
    m_acos := fun x => x; m_atan2 := fun x _ => x; m_frexp_special := 0%Z |}. repeat split.
Qed.
(** In the plane the damage is smaller: the small elements of a quarter turn and 2^-27 radians differ by a factor of two afterwards. *)
Definition M_plane : rotmatrix spec_float := mkM [[S754_finite false 4503599627370496 (-79); S754_finite false 4503599627370496 (-52)]; [S754_finite true 4503599627370496 (-52); S754_finite false 4503599627370496 (-79)]] false true 1.
Theorem C70_plane_refuted : forall m : libm, exists M M', near_orthogonal m 2 M half_ulp /\ mvalid M = true /\ rot_normalize (H := B64 m) 2 M = Ret M' /\ mvalid M' = true /\
  bpow radix2 (-28) <= Rabs (Rsum 2 (fun k => mco m M' 0 k * mco m M' 1 k)).
Proof.
  intros m. exists M_plane, (mkM [[S754_finite false 4503599627370496 (-80); S754_finite false 4503599627370496 (-52)]; [S754_finite true 4503599627370496 (-52); S754_finite false 4503599627370496 (-79)]] false true 1).
  split; [|split; [reflexivity|split; [vm_compute; reflexivity|split; [reflexivity|]]]].
  - split; [intros i j Hi Hj; destruct i as [|[|i]], j as [|[|j]]; try lia; (split; [reflexivity|exact Logic.I])|]. intros i j Hi Hj. set (a := mco m M_plane).
    assert (E : forall k l, (k < 2)%nat -> (l < 2)%nat -> a k l = nth l (nth k [[4503599627370496 * bpow radix2 (-79); 4503599627370496 * bpow radix2 (-52)]; [-4503599627370496 * bpow radix2 (-52); 4503599627370496 * bpow radix2 (-79)]] []) 0).
    { intros k l Hk Hl. destruct k as [|[|k]], l as [|[|l]]; try lia; reflexivity. }
    clearbody a. assert (Q : Rsum 2 (fun k => a i k * a j k) = a i 0%nat * a j 0%nat + a i 1%nat * a j 1%nat) by (cbn [Rsum]; ring). rewrite Q, !E by lia.
    unfold half_ulp, bpow. change (Z.pow_pos radix2 53) with 9007199254740992%Z. change (Z.pow_pos radix2 52) with 4503599627370496%Z. change (Z.pow_pos radix2 79) with 604462909807314587353088%Z.
    destruct i as [|[|i]], j as [|[|j]]; try lia; cbn [nth]; unfold delta; cbn [Nat.eqb]; apply Rabs_le; lra.
  - cbn [Rsum]. set (M' := mkM _ _ _ _). change (mco m M' 0 0) with (4503599627370496 * bpow radix2 (-80)). change (mco m M' 0 1) with (4503599627370496 * bpow radix2 (-52)). change (mco m M' 1 0) with (-4503599627370496 * bpow radix2 (-52)). change (mco m M' 1 1) with (4503599627370496 * bpow radix2 (-79)).
    unfold bpow. change (Z.pow_pos radix2 28) with 268435456%Z. change (Z.pow_pos radix2 52) with 4503599627370496%Z. change (Z.pow_pos radix2 79) with 604462909807314587353088%Z. change (Z.pow_pos radix2 80) with 1208925819614629174706176%Z. rewrite Rabs_right; lra.
Qed.
Print Assumptions C70_plane_refuted.

(** ** What holds *)
(** rotation(i, j, theta) in any dimension, with a sine and a cosine right to within two half units, stands for the exact rotation. *)
Theorem C70_plane_rotation : forall (m : libm) n i j theta, (i < n)%nat -> (j < n)%nat -> i <> j -> accurate_at m theta ->
  exists M E, rot_plane (H := B64 m) n i j theta = Ret M /\ rot_plane (H := Rnum 0) n i j (real theta) = Ret E /\ stands_for m n M (ent E).
Proof.
  intros m n i j theta Hi Hj Nij (Fs & Fc & Es & Ec). unfold rot_plane. destruct (Nat.ltb_spec i n); [|lia]. destruct (Nat.ltb_spec j n); [|lia]. destruct (Nat.eqb_spec i j) as [Qij|Qij]; [contradiction|]. cbn [andb negb oassert].
  do 2 eexists. split; [reflexivity|]. split; [reflexivity|].
  assert (F1 : finite_double (n1 (H := B64 m))) by (split; [reflexivity|exact Logic.I]). assert (F0 : finite_double (n0 (H := B64 m))) by (split; [reflexivity|exact Logic.I]).
  assert (V1 : real (n1 (H := B64 m)) = 1) by (change (n1 (H := B64 m)) with (b64_ofZ 1); valZ 1%Z). assert (V0 : real (n0 (H := B64 m)) = 0) by reflexivity.
  change (nsin (Num := B64 m) theta) with (m_sin m theta). change (ncos (Num := B64 m) theta) with (m_cos m theta). set (s := m_sin m theta) in *. set (c := m_cos m theta) in *.
  destruct (opp_ok s) as [Fo Eo]; [now apply fl_iff|]. change half_ulp with u64 in *. change real with val in *. nums.
  assert (C : forall k l, (k < n)%nat -> (l < n)%nat ->
    let x := (if Nat.eqb k l then (if Nat.eqb k i || Nat.eqb k j then c else n1 (H := B64 m)) else if Nat.eqb k i && Nat.eqb l j then s else if Nat.eqb k j && Nat.eqb l i then nopp (Num := B64 m) s else n0 (H := B64 m)) in
    let y := (if Nat.eqb k l then (if Nat.eqb k i || Nat.eqb k j then cos (val theta) else 1) else if Nat.eqb k i && Nat.eqb l j then sin (val theta) else if Nat.eqb k j && Nat.eqb l i then - sin (val theta) else 0) in
    finite_double x /\ Rabs (val x - y) <= 2 * u64).
  { intros k l _ _. cbv zeta. destruct (Nat.eqb k l).
    - destruct (Nat.eqb k i || Nat.eqb k j); [split; [exact Fc|exact Ec]|]. split; [exact F1|]. rewrite V1, Rminus_diag_eq, Rabs_R0; lra.
    - destruct (Nat.eqb k i && Nat.eqb l j); [split; [exact Fs|exact Es]|]. destruct (Nat.eqb k j && Nat.eqb l i); [split; [now apply fl_iff|]|split; [exact F0|rewrite V0, Rminus_diag_eq, Rabs_R0; lra]].
      change (nopp (Num := B64 m) s) with (SFopp s). rewrite Eo. replace (- val s - - sin (val theta)) with (- (val s - sin (val theta))) by ring. now rewrite Rabs_Ropp. }
  split; [|split; [reflexivity|split; [cbn; lia|split]]].
  - intros k l Hk Hl. unfold elem. cbn [me]. rewrite mget_mtab by auto. now apply C.
  - apply (C23_orthogonal_partial (1 : Epsilon) n (MPlane i j (val theta))); [lra|exact Logic.I| |reflexivity]. cbn [meval]. unfold rot_plane. destruct (Nat.ltb_spec i n); [|lia]. destruct (Nat.ltb_spec j n); [|lia]. destruct (Nat.eqb_spec i j) as [Rij|Rij]; [contradiction|]. reflexivity.
  - intros k l Hk Hl. unfold mco, elem, ent. cbn [me]. rewrite mget_mtab, rc_mtab by auto. destruct (C k l Hk Hl) as [_ E]. eapply Rle_trans; [exact E|change half_ulp with u64; lra].
Qed.
Print Assumptions C70_plane_rotation.
(** mirror(i) is exact. *)
Theorem C70_mirror : forall (m : libm) n i, (i < n)%nat -> exists M E, rot_mirror_axis (H := B64 m) n i = Ret M /\ rot_mirror_axis (H := Rnum 0) n i = Ret E /\ stands_for m n M (ent E) /\
  forall k l, (k < n)%nat -> (l < n)%nat -> mco m M k l = ent E k l.
Proof.
  intros m n i Hi. unfold rot_mirror_axis. destruct (Nat.ltb_spec i n); [|lia]. do 2 eexists. split; [reflexivity|]. split; [reflexivity|]. set (M := mkM _ _ _ _). set (E := mkM _ _ _ _).
  assert (V1 : val (n1 (H := B64 m)) = 1) by (change (n1 (H := B64 m)) with (b64_ofZ 1); change val with real; valZ 1%Z).
  assert (Vm : val (nopp (Num := B64 m) (n1 (H := B64 m))) = -1) by (destruct (opp_ok (n1 (H := B64 m))) as [_ Eo]; [split; reflexivity|]; change (nopp (Num := B64 m) (n1 (H := B64 m))) with (SFopp (n1 (H := B64 m))); rewrite Eo, V1; ring).
  assert (C : forall k l, (k < n)%nat -> (l < n)%nat -> finite_double (elem (H := B64 m) M k l) /\ mco m M k l = ent E k l).
  { intros k l Hk Hl. unfold mco, elem, ent, M, E. cbn [me]. rewrite mget_mtab, rc_mtab by auto. unfold kron. change real with val. destruct (Nat.eqb k i && Nat.eqb l i); [split; [split; [reflexivity|exact Logic.I]|exact Vm]|].
    destruct (Nat.eqb k l); (split; [split; [reflexivity|exact Logic.I]|]); [exact V1|reflexivity]. }
  split; [|intros; now apply C]. split; [intros k l Hk Hl; now apply C|]. split; [reflexivity|]. split; [cbn; lia|]. split.
  - apply (C23_orthogonal_partial (1 : Epsilon) n (MMirrorAxis i)); [lra|exact Logic.I| |reflexivity]. cbn [meval]. unfold rot_mirror_axis. destruct (Nat.ltb_spec i n); [|lia]. reflexivity.
  - intros k l Hk Hl. destruct (C k l Hk Hl) as [_ ->]. rewrite Rminus_diag_eq, Rabs_R0 by reflexivity. unfold half_ulp. pose proof (bpow_gt_0 radix2 (-53)). lra.
Qed.
Print Assumptions C70_mirror.
(** Up to eighteen products and quotients, before the age brings the renormalisation: every element is within 9 n^2 half units per factor of
    the product of the exact rotations, which is orthogonal, and the rows are orthonormal to within 27 n^2 half units per factor. *)
Theorem C70_few_products_partial : forall (m : libm) n M O ts us, (0 < n)%nat -> (Z.of_nat n <= 2 ^ 20)%Z -> stands_for m n M O -> Forall2 (turn_for m n) ts us -> (length ts <= 18)%nat ->
  exists P, fold_left (do_turn m n) ts (Ret M) = Ret P /\ mvalid P = true /\ orthogonal n (fold_left (exact_turn n) us O) /\
    near_orthogonal m n P (27 * INR n ^ 2 * half_ulp * INR (S (length ts))) /\
    forall i j, (i < n)%nat -> (j < n)%nat -> Rabs (mco m P i j - fold_left (exact_turn n) us O i j) <= 9 * INR n ^ 2 * half_ulp * INR (S (length ts)).
Proof.
  intros m n M O ts us N0 N1 S F L. destruct (turns_ok m n ts us M O 0 N0 N1 L (good_start m n M O N0 N1 S) F) as (P & E & D & V & _ & OA & EP). cbn [Nat.add] in EP. exists P. split; [exact E|]. split; [exact V|]. split; [exact OA|].
  change half_ulp with u64. set (A := fold_left (exact_turn n) us O) in *. set (e := 9 * INR n * INR n * u64 * INR (Datatypes.S (length ts))) in *.
  replace (27 * INR n ^ 2 * u64 * INR (Datatypes.S (length ts))) with (3 * e) by (unfold e; ring). replace (9 * INR n ^ 2 * u64 * INR (Datatypes.S (length ts))) with e by (unfold e; ring).
  split; [split; [exact D|]|].
  - intros i j Hi Hj. specialize (OA i j Hi Hj) as Q. unfold mmul, mtr in Q. rewrite <- Q. apply (inner_close n (mco m P i) (mco m P j) (A i) (A j) e); auto; try (now apply row_norm). apply turn_bound; auto. lia.
  - intros i j Hi Hj. eapply Rle_trans; [apply (coord_norm n (fun j => mco m P i j - A i j) j Hj)|auto].
Qed.
Print Assumptions C70_few_products_partial.
Example C70_few_products_example : forall theta : spec_float, exists m M X, rot_plane (H := B64 m) 3 1 2 theta = Ret X /\ stands_for m 3 X M /\ Forall2 (turn_for m 3) [Times X; Over X; Times X] [Times M; Over M; Times M].
Proof.
  intros theta. destruct (some_libm theta) as (m & A). destruct (C70_plane_rotation m 3 1 2 theta ltac:(lia) ltac:(lia) ltac:(lia) A) as (X & E & EX & _ & S). exists m, (ent E), X. split; [exact EX|]. split; [exact S|]. do 3 (constructor; [exact S|]). constructor.
Qed.
