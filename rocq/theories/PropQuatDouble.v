(** C31 and C65 in doubles: the rounding error of one product, and of any number of them.  A quaternion of doubles denotes the
    Hamilton quaternion [rq4 q]; the rotation it stands for is that of its direction [hdir (rq4 q)], of length one.  One half unit in
    the last place, [half_ulp], is 2^-53. *)
From Coq Require Import ZArith NArith Reals Bool SpecFloat Lia Lra List Psatz.
From Flocq Require Import Core IEEE754.BinarySingleNaN.
From Verif Require Import Base Scalar RSpec ConstModel VecModel RotModel QuatModel VecSpec ConstSpec RoundSpec QuatSpec QuatRoundSpec
  RoundLib RoundProofs RoundProofs2 RoundProofs3 RoundProofs4 RoundProofs5 QuatProofs DriftProofs QuatRound QuatRound2 QuatRound3.
Import ListNotations.
Open Scope R_scope.

(** Every component of a * b and a / b is within 150 half units of the exact product (the code multiplies in the opposite order of
    Hamilton), when no renormalisation is due; b.inverse() is exact. *)
Theorem C31_product_double : forall (m : libm) (a b : quat spec_float), qdoubles a -> qdoubles b -> hnorm2 (rq4 a) <= 121 / 100 -> hnorm2 (rq4 b) <= 121 / 100 ->
  (qage a + qage b < 20)%N ->
  let p := quat_mul (H := B64 m) a b in let d := quat_div (H := B64 m) a b in
  qdoubles p /\ qdoubles d /\ 
  (forall i, (i < 4)%nat -> Rabs (h4 (rq4 p) i - h4 (hmul (rq4 b) (rq4 a)) i) <= 150 * half_ulp) /\
  (forall i, (i < 4)%nat -> Rabs (h4 (rq4 d) i - h4 (hmul (hconj (rq4 b)) (rq4 a)) i) <= 150 * half_ulp) /\
  rq4 (quat_inverse (H := B64 m) b) = hconj (rq4 b).
Proof.
  intros m a b Da Db Na Nb A p d.
  assert (Ch : forall v, quat_check (H := B64 m) (mkQ (qw a) (qv a) v (age_add (qage a) (qage b))) = mkQ (qw a) (qv a) v (qage a + qage b)).
  { intros v. unfold quat_check, age_add. cbn [qage qvalid]. rewrite N.mod_small by lia. change (N.of_nat max_norm_age) with 20%N. destruct (N.leb_spec 20 (qage a + qage b)); [lia|reflexivity]. }
  assert (Four : forall x y k, hclose x y k -> forall i, (i < 4)%nat -> Rabs (h4 x i - h4 y i) <= k). { intros x y k (A0 & A1 & A2 & A3) [|[|[|[|i]]]] Hi; auto. }
  set (a' := mkQ (qw a) (qv a) (qvalid a && qvalid b) (qage a + qage b)).
  destruct (dmul_ok m a' b Da Db Na Nb) as [Dp Cp]. destruct (ddiv_ok m a' b Da Db Na Nb) as [Dd Cd].
  assert (Ep : p = dmul m a' b) by (unfold p, quat_mul; rewrite Ch; reflexivity). assert (Ed : d = ddiv m a' b) by (unfold d, quat_div; rewrite Ch; reflexivity).
  rewrite Ep, Ed. split; [exact Dp|]. split; [exact Dd|]. split; [exact (Four _ _ _ Cp)|]. split; [exact (Four _ _ _ Cd)|]. exact (proj2 (inverse_ok m b Db)).
Qed.
(** normalize() scales by 2 / (n + 1), n the squared length, to within 15 half units. *)
Theorem C31_normalize_double : forall (m : libm) (q : quat spec_float), qdoubles q -> 9 / 10 <= hnorm2 (rq4 q) <= 11 / 10 ->
  let r := quat_normalize (H := B64 m) q in
  qdoubles r /\ forall i, (i < 4)%nat -> Rabs (h4 (rq4 r) i - 2 / (hnorm2 (rq4 q) + 1) * h4 (rq4 q) i) <= 15 * half_ulp.
Proof.
  intros m q D N r. destruct (norm_ok m q D N) as [Dr Cr]. split; [exact Dr|]. destruct Cr as (A0 & A1 & A2 & A3). intros [|[|[|[|i]]]] Hi; auto.
Qed.

(** Any number of operations.  The right operands are fresh: of length one to within 100 half units, of age 1 to 19. *)
Inductive dmove := DTimes (q : quat spec_float) | DOver (q : quat spec_float) | DInvert | DNormalise.
Definition dfresh_quat (q : quat spec_float) : Prop := qdoubles q /\ qvalid q = true /\ (1 <= qage q < 20)%N /\ Rabs (hnorm2 (rq4 q) - 1) <= 100 * half_ulp.
Definition dfresh_move (k : dmove) : Prop := match k with DTimes q | DOver q => dfresh_quat q | _ => True end.
Definition apply_dmove (m : libm) (p : quat spec_float) (k : dmove) : quat spec_float :=
  match k with DTimes q => quat_mul (H := B64 m) p q | DOver q => quat_div (H := B64 m) p q | DInvert => quat_inverse (H := B64 m) p | DNormalise => quat_normalize (H := B64 m) p end.
(** The same moves on exact rotations. *)
Definition ideal_move (p : ham) (k : dmove) : ham :=
  match k with DTimes q => hmul (hdir (rq4 q)) p | DOver q => hmul (hconj (hdir (rq4 q))) p | DInvert => hconj p | DNormalise => p end.

(** However many moves: the squared length stays within 16000 half units of one, less than 2 * 10^-12, and the rotation is within 700
    half units per move of the exact product of the rotations. *)
Theorem C65_chain_double_partial : forall (m : libm) p moves, dfresh_quat p -> Forall dfresh_move moves ->
  let q := fold_left (apply_dmove m) moves p in
  qdoubles q /\ qvalid q = true /\ Rabs (hnorm2 (rq4 q) - 1) <= 16000 * half_ulp /\
  hdist (hdir (rq4 q)) (fold_left ideal_move moves (hdir (rq4 p))) <= 700 * half_ulp * INR (length moves).
Proof.
  intros m p moves Fp F q. assert (Gp : dnear p).
  { destruct Fp as (D & V & A & N). split; [exact D|]. split; [exact V|]. split; [lia|]. nums. change half_ulp with u64 in N. assert (0 <= IZR (Z.of_N (qage p))) by (apply IZR_le; lia). nra. }
  assert (L : forall p x, dnear p -> dnear (fold_left (apply_dmove m) moves p) /\
    hdist (hdir (rq4 (fold_left (apply_dmove m) moves p))) (fold_left ideal_move moves x) <= 700 * u64 * INR (length moves) + hdist (hdir (rq4 p)) x).
  { clear q p Fp Gp. nums. induction F as [|k moves Fk F IH]; intros p x G.
    - cbn [fold_left length INR]. split; [exact G|]. lra.
    - cbn [fold_left]. change (length (k :: moves)) with (S (length moves)). rewrite S_INR.
      assert (St : dnear (apply_dmove m p k) /\ hdist (hdir (rq4 (apply_dmove m p k))) (ideal_move x k) <= 700 * u64 + hdist (hdir (rq4 p)) x).
      { destruct k as [r|r| |]; cbn [apply_dmove ideal_move dfresh_move] in *.
        - destruct (dnear_mul m p r G Fk) as [G' H]. split; [exact G'|]. eapply Rle_trans; [apply (hdist_tri _ (hmul (hdir (rq4 r)) (hdir (rq4 p))))|]. rewrite hdist_mul_l, hdir_len; [lra|]. destruct Fk as (_ & _ & _ & N). apply (pos_len _ _ N). change half_ulp with u64. lra.
        - destruct (dnear_div m p r G Fk) as [G' H]. split; [exact G'|]. eapply Rle_trans; [apply (hdist_tri _ (hmul (hconj (hdir (rq4 r))) (hdir (rq4 p))))|]. rewrite hdist_mul_l, hlen_conj, hdir_len; [lra|]. destruct Fk as (_ & _ & _ & N). apply (pos_len _ _ N). change half_ulp with u64. lra.
        - destruct (dnear_inverse m p G) as [G' H]. split; [exact G'|]. rewrite H, hdist_conj. lra.
        - destruct (dnear_normalize m p G) as [G' H]. split; [exact G'|]. eapply Rle_trans; [apply (hdist_tri _ (hdir (rq4 p)))|]. lra. }
      destruct St as [G' H]. destruct (IH _ (ideal_move x k) G') as [G2 H2]. split; [exact G2|]. lra. }
  destruct (L p (hdir (rq4 p)) Gp) as [G H]. rewrite hdist_refl in H. fold q in G, H. split; [exact (proj1 G)|]. split; [exact (proj1 (proj2 G))|]. split; [exact (dnear_bound q G)|]. change half_ulp with u64. lra.
Qed.
Print Assumptions C31_product_double.
Print Assumptions C31_normalize_double.
Print Assumptions C65_chain_double_partial.

(** The quaternion Quaternion(3, 4, 0, 0) of the tests, (0.6, 0.8, 0, 0) rounded, and the identity. *)
Definition q34 (m : libm) : quat spec_float := quat_make (H := B64 m) (b64_ofZ 3) (b64_ofZ 4) (b64_ofZ 0) (b64_ofZ 0).
Lemma q34_value m : q34 m = mkQ (S754_finite false 5404319552844595 (-53)) (mkC [S754_finite false 7205759403792794 (-53); S754_zero false; S754_zero false] true) true 1.
Proof. vm_compute. reflexivity. Qed.
Example C65_chain_double_example : forall m : libm, dfresh_quat (q34 m) /\ Forall dfresh_move [DTimes (q34 m); DInvert; DOver (q34 m); DNormalise] /\ hnorm2 (rq4 (q34 m)) <> 1.
Proof.
  intros m. rewrite q34_value. set (q := mkQ _ _ _ _).
  assert (E : rq4 q = mkH (5404319552844595 * bpow radix2 (-53)) (7205759403792794 * bpow radix2 (-53)) 0 0) by reflexivity.
  assert (N2 : Rabs (hnorm2 (rq4 q) - 1) <= 100 * half_ulp /\ hnorm2 (rq4 q) <> 1).
  { rewrite E. unfold hnorm2, half_ulp. cbn [hw hx hy hz]. unfold bpow. change (Z.pow_pos radix2 53) with 9007199254740992%Z. split; [apply Rabs_le; lra|lra]. }
  assert (F : dfresh_quat q). { split; [|split; [reflexivity|split; [cbn; lia|exact (proj1 N2)]]]. split; [split; [reflexivity|exact Logic.I]|]. split; [reflexivity|]. unfold q. cbn [qv el]. repeat (constructor; [split; [reflexivity|exact Logic.I]|]). constructor. }
  clearbody q. split; [exact F|]. split; [|exact (proj2 N2)]. repeat (constructor; [first [exact F|exact Logic.I]|]). constructor.
Qed.
