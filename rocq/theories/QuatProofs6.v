(** Rounded products, ages, validity, equality, self assignment, counterexamples. *)
From Coq Require Import Reals Lra Lia List Bool Psatz ZArith NArith.
From Flocq Require Import Core.Zaux Core.Raux.
From Verif Require Import Base Scalar ConstModel VecModel RotModel QuatModel RSpec RLib VecSpec RotSpec QuatSpec VecProofs VecProofs2 VecProofs4 MatLib RotProofs2 RotProofs3 QuatProofs QuatProofs2 QuatProofs3 QuatProofs4 QuatProofs5.
Import ListNotations.
Open Scope R_scope.

(** ** Any number type *)
Section Any.
Context {T} `{Num T}.
Lemma quat_mul_age (p q : quat T) : qvalid (quat_mul p q) = true ->
  (qage (quat_mul p q) < 20)%N /\ (age_add (qage p) (qage q) < 20 -> qage (quat_mul p q) = age_add (qage p) (qage q))%N /\ (20 <= age_add (qage p) (qage q) -> qage (quat_mul p q) = 1)%N.
Proof.
  unfold quat_mul, quat_check. change (N.of_nat max_norm_age) with 20%N. cbn [qvalid qage].
  destruct (qvalid p && qvalid q) eqn:V; [|rewrite andb_false_r; discriminate]. rewrite andb_true_r.
  intros _. destruct (N.leb_spec 20 (age_add (qage p) (qage q))); cbn [quat_normalize qage]; repeat split; auto; lia.
Qed.
Lemma quat_div_age (p q : quat T) : qvalid (quat_div p q) = true ->
  (qage (quat_div p q) < 20)%N /\ (age_add (qage p) (qage q) < 20 -> qage (quat_div p q) = age_add (qage p) (qage q))%N /\ (20 <= age_add (qage p) (qage q) -> qage (quat_div p q) = 1)%N.
Proof.
  unfold quat_div, quat_check. change (N.of_nat max_norm_age) with 20%N. cbn [qvalid qage].
  destruct (qvalid p && qvalid q) eqn:V; [|rewrite andb_false_r; discriminate]. rewrite andb_true_r.
  intros _. destruct (N.leb_spec 20 (age_add (qage p) (qage q))); cbn [quat_normalize qage]; repeat split; auto; lia.
Qed.
Lemma any_mul_valid (p q : quat T) : qvalid (quat_mul p q) = qvalid p && qvalid q.
Proof. unfold quat_mul, quat_check. destruct (_ && _)%bool; reflexivity. Qed.
Lemma any_div_valid (p q : quat T) : qvalid (quat_div p q) = qvalid p && qvalid q.
Proof. unfold quat_div, quat_check. destruct (_ && _)%bool; reflexivity. Qed.
Lemma any_equal_invalid (p q : quat T) e b : quat_equal p q e = Ret b -> qvalid p = false \/ qvalid q = false -> b = false.
Proof.
  unfold quat_equal, oassert. destruct (_ <? _)%num; [|discriminate]. intros E [V|V]; rewrite V in E; cbn [negb orb] in E; rewrite ?orb_true_r in E; congruence.
Qed.
End Any.

Section Q.
Context (eps : Epsilon).

(** ** Products with rounding in Dot and Cross *)
Lemma unit_bounded q : unit_quat q -> Rabs (qw q) <= 1 /\ bounded_by 3 (qv q) 1.
Proof.
  unfold unit_quat, hnorm2, q4. cbn [hw hx hy hz]. intros U.
  assert (S : forall x, x * x <= 1 -> Rabs x <= 1) by (intros x Hx; apply Rabs_le; nra).
  split; [apply S; nra|]. intros i Hi. apply S. destruct i as [|[|[|]]]; try lia; nra.
Qed.
Lemma perturbed_norm a b c d x y z w k : 0 <= k -> a * a + b * b + c * c + d * d = 1 ->
  Rabs (x - a) <= k -> Rabs (y - b) <= k -> Rabs (z - c) <= k -> Rabs (w - d) <= k ->
  Rabs (x * x + y * y + z * z + w * w - 1) <= 4 * k + 4 * (k * k).
Proof.
  intros K U A B C D.
  assert (Q : forall s t, Rabs s <= k -> s * t <= k * Rabs t).
  { intros s t Hs. apply Rle_trans with (Rabs (s * t)); [apply Rle_abs|]. rewrite Rabs_mult. apply Rmult_le_compat_r; auto. apply Rabs_pos. }
  assert (S2 : forall s, Rabs s <= k -> 0 <= s * s <= k * k).
  { intros s Hs. split; [nra|]. rewrite <- (Rabs_pos_eq (s * s)) by nra. rewrite Rabs_mult. pose proof (Rabs_pos s). apply Rmult_le_compat; auto. }
  (* |a| + |b| + |c| + |d| <= 2 *)
  assert (L : Rabs a + Rabs b + Rabs c + Rabs d <= 2).
  { assert (M : forall s, Rabs s <= s * s + / 4).
    { intros s. destruct (Rcase_abs s); [rewrite Rabs_left by auto|rewrite Rabs_right by auto]; [pose proof (pow2_ge_0 (s + / 2))|pose proof (pow2_ge_0 (s - / 2))]; lra. }
    pose proof (M a). pose proof (M b). pose proof (M c). pose proof (M d). lra. }
  pose proof (S2 _ A). pose proof (S2 _ B). pose proof (S2 _ C). pose proof (S2 _ D).
  pose proof (Q _ a A). pose proof (Q _ b B). pose proof (Q _ c C). pose proof (Q _ d D).
  assert (N : forall s t, Rabs s <= k -> - (s * t) <= k * Rabs t) by (intros s t Hs; replace (- (s * t)) with ((- s) * t) by ring; apply Q; rewrite Rabs_Ropp; auto).
  pose proof (N _ a A). pose proof (N _ b B). pose proof (N _ c C). pose proof (N _ d D).
  assert (kL : k * (Rabs a + Rabs b + Rabs c + Rabs d) <= k * 2) by (apply Rmult_le_compat_l; auto).
  apply Rabs_le. 
  replace (x * x + y * y + z * z + w * w - 1) with (2 * ((x - a) * a + (y - b) * b + (z - c) * c + (w - d) * d) + ((x - a) * (x - a) + (y - b) * (y - b) + (z - c) * (z - c) + (w - d) * (w - d))) by (rewrite <- U; ring).
  lra.
Qed.
Lemma mul_near_unit p q : 0 <= (eps : R) -> qdims p -> qdims q -> unit_quat p -> unit_quat q ->
  Rabs (hnorm2 (q4 (quat_mul p q)) - 1) <= 8 * eps + 16 * (eps * eps).
Proof.
  intros He D1 D2 U1 U2. destruct (unit_bounded p U1) as [_ B1]. destruct (unit_bounded q U2) as [_ B2].
  pose proof (dot_error eps 3 (qv p) (qv q) 1 1 ltac:(lia) He D1 D2 B1 B2) as Ed.
  pose proof (fun i Hi => cross3_error eps (qv p) (qv q) 1 1 i He D1 D2 B1 B2 Hi) as Ec.
  rewrite Rmin_left in Ed by lra. rewrite Rmin_left in Ec by lra. rewrite Rmult_1_r in Ed, Ec.
  rewrite mul_form by (auto; split; auto). unfold hnorm2, q4. cbn [qw qv hw hx hy hz]. unfold vec_sub, vec_add, vec_scale. rewrite ?co_tab by lia. rewrite ?at_tab by lia. toco.
  pose proof (hmul_norm (q4 q) (q4 p)) as N. unfold unit_quat in U1, U2. rewrite U1, U2 in N. unfold hnorm2 in N. unfold hmul, q4 in N. cbn [qw qv hw hx hy hz] in N.
  replace (8 * eps + 16 * (eps * eps)) with (4 * (2 * eps) + 4 * ((2 * eps) * (2 * eps))) by ring.
  rewrite Rmult_1_l in N.
  eapply perturbed_norm; [lra|exact N|..].
  - replace (_ - _) with (- (dot 3 (qv p) (qv q) - inner 3 (co (qv p)) (co (qv q)))) by (unfold inner; cbn [Rsum]; ring). rewrite Rabs_Ropp. exact Ed.
  - specialize (Ec 0%nat ltac:(lia)). rewrite <- Rabs_Ropp in Ec. refine (Rle_trans _ _ _ (Req_le _ _ _) Ec). f_equal. cbn [cross_coord]. ring.
  - specialize (Ec 1%nat ltac:(lia)). rewrite <- Rabs_Ropp in Ec. refine (Rle_trans _ _ _ (Req_le _ _ _) Ec). f_equal. cbn [cross_coord]. ring.
  - specialize (Ec 2%nat ltac:(lia)). rewrite <- Rabs_Ropp in Ec. refine (Rle_trans _ _ _ (Req_le _ _ _) Ec). f_equal. cbn [cross_coord]. ring.
Qed.

(** ** isEqualTo *)
Lemma close_bool (p q : quat R) e : ((Rle_bool (Rabs (qw p - qw q)) e) && all_below 3 (fun i => negb (Rlt_bool e (Rabs (co (qv p) i - co (qv q) i)))))%bool = true <-> ham_close (q4 p) (q4 q) e.
Proof.
  unfold ham_close, q4. cbn [hw hx hy hz]. cbn [all_below seq forallb]. rewrite !andb_true_iff, !negb_true_iff.
  assert (A : forall x y, Rle_bool x y = true <-> x <= y) by (intros; destruct (Rle_bool_spec x y); split; intros; auto; try lra; discriminate).
  assert (B : forall x y, Rlt_bool y x = false <-> x <= y) by (intros; destruct (Rlt_bool_spec y x); split; intros; auto; try lra; discriminate).
  rewrite A, !B. tauto.
Qed.

Lemma quat_equal_spec p q e b : quat_equal p q e = Ret b ->
  0 < e /\ (b = true <-> qvalid p = true /\ qvalid q = true /\ (ham_close (q4 p) (q4 q) e \/ ham_close (q4 p) (hneg (q4 q)) e)).
Proof.
  unfold quat_equal, oassert, n0. cbn [nltb nleb nsub nadd nabs nofZ Rnum]. destruct (Rlt_bool_spec 0 e) as [P|]; [|discriminate].
  intros E. split; auto. destruct (qvalid q) eqn:Vq; cbn [negb orb] in E; [|split; [intros ->; discriminate|intros (_ & X & _); discriminate X]].
  destruct (qvalid p) eqn:Vp; cbn [negb orb] in E; [|split; [intros ->; discriminate|intros (X & _); discriminate X]].
  pose proof (close_bool p q e) as C1.
  set (q' := mkQ (- qw q) (mkC (tab 3 (fun i => - co (qv q) i)) true) true 0).
  assert (N : q4 q' = hneg (q4 q)) by (unfold q4, hneg, q'; cbn [qw qv hw hx hy hz]; rewrite !co_tab by lia; reflexivity).
  pose proof (close_bool p q' e) as C2. rewrite N in C2.
  assert (E2 : ((Rle_bool (Rabs (qw p + qw q)) e) && all_below 3 (fun i => negb (Rlt_bool e (Rabs (co (qv p) i + co (qv q) i)))))%bool =
               ((Rle_bool (Rabs (qw p - qw q')) e) && all_below 3 (fun i => negb (Rlt_bool e (Rabs (co (qv p) i - co (qv q') i)))))%bool).
  { unfold q'. cbn [qw qv all_below seq forallb]. rewrite !co_tab by lia. unfold Rminus. rewrite !Ropp_involutive. reflexivity. }
  rewrite <- E2 in C2. clear E2 N. clearbody q'. rewrite <- C1, <- C2.
  change (@at_ R (Rnum eps) (qv p)) with (co (qv p)) in E. change (@at_ R (Rnum eps) (qv q)) with (co (qv q)) in E.
  set (A := (Rle_bool (Rabs (qw p - qw q)) e && _)%bool) in *. 
  set (B0 := Rle_bool (Rabs (qw p + qw q)) e) in *. set (B1 := all_below 3 (fun i => negb (Rlt_bool e (Rabs (co (qv p) i + co (qv q) i))))) in *.
  assert (b = (A || (B0 && B1))%bool) as ->.
  { destruct A; cbn [orb]; [congruence|]. destruct B0; cbn [andb]; congruence. }
  rewrite orb_true_iff. tauto.
Qed.
Lemma close_sym p q e : ham_close p q e -> ham_close q p e.
Proof. unfold ham_close. rewrite !(Rabs_minus_sym (hw p)), !(Rabs_minus_sym (hx p)), !(Rabs_minus_sym (hy p)), !(Rabs_minus_sym (hz p)). auto. Qed.
Lemma close_neg p q e : ham_close p (hneg q) e -> ham_close q (hneg p) e.
Proof.
  unfold ham_close, hneg. cbn [hw hx hy hz]. unfold Rminus. rewrite !Ropp_involutive. rewrite (Rplus_comm (hw p)), (Rplus_comm (hx p)), (Rplus_comm (hy p)), (Rplus_comm (hz p)). auto.
Qed.
Lemma close_refl p e : 0 <= e -> ham_close p p e.
Proof. intros. unfold ham_close, Rminus. rewrite !Rplus_opp_r, Rabs_R0. auto. Qed.

(** ** q *= q and q /= q *)
Lemma mul_self_q4 q : qdims q -> unit_quat q -> exact_dot eps 3 (qv q) (qv q) ->
  let w := qw q * qw q - norm2 3 (co (qv q)) in
  q4 (quat_mul_self q) = mkH w ((qw q + w) * hx (q4 q)) ((qw q + w) * hy (q4 q)) ((qw q + w) * hz (q4 q)).
Proof.
  intros D U E w. pose proof (exact_self eps _ E) as [_ C]. unfold quat_mul_self. rewrite (check_unit eps); [|intros _; exact U|exact D].
  cbn [checked qw qv]. rewrite E. unfold q4. cbn [qw qv hw hx hy hz]. unfold vec_sub, vec_add, vec_scale. rewrite ?co_tab by lia. rewrite ?at_tab by lia. toco. rewrite !C by lia.
  cbn [cross_coord]. change (inner 3 (co (qv q)) (co (qv q))) with (norm2 3 (co (qv q))). fold w. f_equal; ring.
Qed.
Lemma div_self_q4 q : qdims q -> unit_quat q -> exact_dot eps 3 (qv q) (qv q) ->
  q4 (quat_div_self q) = mkH 1 ((1 - qw q) * hx (q4 q)) ((1 - qw q) * hy (q4 q)) ((1 - qw q) * hz (q4 q)).
Proof.
  intros D U E. pose proof (exact_self eps _ E) as [_ C]. unfold quat_div_self. rewrite (check_unit eps); [|intros _; exact U|exact D].
  cbn [checked qw qv]. rewrite E. unfold q4. cbn [qw qv hw hx hy hz]. unfold vec_sub, vec_add, vec_scale. rewrite ?co_tab by lia. rewrite ?at_tab by lia. toco. rewrite !C by lia.
  cbn [cross_coord]. change (inner 3 (co (qv q)) (co (qv q))) with (norm2 3 (co (qv q))). unfold unit_quat in U. rewrite hnorm2_q4 in U. rewrite U. f_equal; ring.
Qed.
(** When is q *= q right? *)
Lemma mul_self_right q : qdims q -> unit_quat q -> exact_dot eps 3 (qv q) (qv q) ->
  (q4 (quat_mul_self q) = q4 (quat_mul q q) <-> qw q = 1 \/ qw q = -1 \/ qw q = - / 2).
Proof.
  intros D U E. rewrite (mul_self_q4 q D U E), (mul_q4 eps); auto; [|split; auto|apply exact_self; auto].
  unfold unit_quat in U. rewrite hnorm2_q4 in U. rewrite norm2_3 in *. unfold hmul, q4. cbn [hw hx hy hz].
  set (w := qw q) in *. set (x := co (qv q) 0) in *. set (y := co (qv q) 1) in *. set (z := co (qv q) 2) in *. split.
  - intros X. injection X as _ X1 X2 X3.
    assert (F : forall s, (w + (w * w - (x * x + y * y + z * z))) * s = 2 * w * s -> s = 0 \/ (w - 1) * (2 * w + 1) = 0).
    { intros s Hs. replace (x * x + y * y + z * z) with (1 - w * w) in Hs by lra. assert (G : s * ((w - 1) * (2 * w + 1)) = 0) by lra. apply Rmult_integral in G. auto. }
    destruct (F x ltac:(lra)) as [Zx|Zx]; [destruct (F y ltac:(lra)) as [Zy|Zy]; [destruct (F z ltac:(lra)) as [Zz|Zz]|]|].
    + assert (Hw : (w - 1) * (w + 1) = 0) by (rewrite Zx, Zy, Zz in U; lra). apply Rmult_integral in Hw as [|]; [left|right; left]; lra.
    + apply Rmult_integral in Zz as [|]; [left|right; right]; lra.
    + apply Rmult_integral in Zy as [|]; [left|right; right]; lra.
    + apply Rmult_integral in Zx as [|]; [left|right; right]; lra.
  - intros [W|[W|W]]; rewrite W in *.
    + assert (x = 0 /\ y = 0 /\ z = 0) as (-> & -> & ->) by (repeat split; nra). f_equal; ring.
    + assert (x = 0 /\ y = 0 /\ z = 0) as (-> & -> & ->) by (repeat split; nra). f_equal; ring.
    + assert (S : x * x + y * y + z * z = 3 / 4) by lra. rewrite S. f_equal; lra.
Qed.

(** ** Checking that a product is not rounded *)
Lemma exact_pair_large a b B : 0 <= (eps : R) -> dims 3 a -> bounded_by 3 a B ->
  (inner 3 (co a) (co b) = 0 \/ 2 * eps * B <= Rabs (inner 3 (co a) (co b))) ->
  (forall i, (i < 3)%nat -> cross_coord (co a) (co b) i = 0 \/ 2 * eps * B <= Rabs (cross_coord (co a) (co b) i)) ->
  nonzero 3 b -> dims 3 b -> exact_pair eps a b.
Proof.
  intros He Da HB I C Nb Db.
  assert (PB : 0 <= B) by (eapply (bounded_nonneg 3); eauto; lia).
  destruct (Req_dec (max_abs (H := Rnum eps) (el a)) 0) as [Z|Z].
  - split.
    + unfold exact_dot. rewrite dot_def, (zero_inner_l eps 3 a b Da Z). destruct (Rle_bool _ _); reflexivity.
    + intros i Hi. rewrite cross3_co by auto. rewrite (cross_zero_l eps a b i Da Z). unfold rclamp. destruct (Rlt_bool _ _); reflexivity.
  - pose proof (arr_bound_l eps 3 a b B eps He Da HB PB Z (nonzero_max eps 3 b Db Nb)) as U. split.
    + unfold exact_dot. rewrite dot_def. destruct I as [-> |I]; [destruct (Rle_bool _ _); reflexivity|]. rewrite Rle_bool_true by lra. reflexivity.
    + intros i Hi. rewrite cross3_co by auto. unfold rclamp. destruct (C i Hi) as [-> |L]; [destruct (Rlt_bool _ _); reflexivity|]. rewrite Rlt_bool_false by lra. reflexivity.
Qed.
End Q.

(** Without a tolerance every product is exact. *)
Lemma exact_pair_0 a b : exact_pair 0 a b.
Proof. split; [apply dot_inner|]. intros i Hi. apply cross3_co0; auto. Qed.
