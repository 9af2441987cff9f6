(** LogGamma at the integers, in exact arithmetic (C53, C59). *)
From Coq Require Import ZArith Reals List Lra Lia Psatz Bool.
From Flocq Require Import Core.Raux.
From Verif Require Import Base Scalar RLib MiniballModel ProbModel Stirling.
Import ListNotations.
Open Scope R_scope.

Lemma ln_mono x y : 0 < x -> x <= y -> ln x <= ln y.
Proof. intros Hx [L| ->]; [left; now apply ln_increasing|lra]. Qed.

Section Prob.
Context (eps : Epsilon).
Variable u : R.
#[local] Hint Extern 0 (Num R) => exact (Rnum eps) : typeclass_instances.
#[local] Hint Extern 0 (Trans R) => exact (Rtrans u) : typeclass_instances.

(** the terms of the series at z *)
Definition cf (i : nat) : R := nth i (coeffs (H := Rnum eps)) 0.
Definition term (z : R) (i : nat) : R := cf i / z ^ (2 * i + 1).
Fixpoint partial (z : R) (k : nat) : R := match k with O => term z 0 | S j => partial z j + term z (S j) end.

Lemma series_run z small : z <> 0 -> forall cs i ans,
  cs = skipn i (coeffs (H := Rnum eps)) -> 
  (exists k, (i <= k <= 10)%nat /\ (forall j, (i <= j < k)%nat -> small <= Rabs (term z j)) /\ Rabs (term z k) < small /\
     series_loop cs (/ z ^ (2 * i + 1)) (/ z * / z) small ans = Ret (fold_left Rplus (map (term z) (seq i (S k - i))) ans)) \/
  ((forall j, (i <= j <= 10)%nat -> small <= Rabs (term z j)) /\ series_loop cs (/ z ^ (2 * i + 1)) (/ z * / z) small ans = AssertFail).
Proof.
  intros Hz. induction cs as [|c cs IH]; intros i ans E.
  - right. assert (Hi : (11 <= i)%nat). { destruct (Nat.le_gt_cases 11 i); auto. apply (f_equal (@length R)) in E. rewrite skipn_length in E. change (length coeffs) with 11%nat in E. change (length (@nil R)) with 0%nat in E. lia. }
    split; [intros; lia|reflexivity].
  - assert (Hi : (i <= 10)%nat). { destruct (Nat.le_gt_cases i 10); auto. rewrite skipn_all2 in E; [discriminate|cbn; lia]. }
    assert (Ec : c = cf i /\ cs = skipn (S i) (coeffs (H := Rnum eps))).
    { unfold cf. clear -E. revert i E. generalize (coeffs (H := Rnum eps)). induction l as [|x l IH]; intros [|i] E; try discriminate; cbn in *; [injection E as -> ->; auto|]. apply IH; auto. }
    destruct Ec as (-> & Ecs). cbn [series_loop]. cbn [nmul nadd nabs nltb Rnum].
    assert (Et : cf i * / z ^ (2 * i + 1) = term z i) by reflexivity. rewrite Et.
    destruct (Rlt_bool_spec (Rabs (term z i)) small) as [L|L].
    + left. exists i. split; [lia|]. split; [intros; lia|]. split; auto. replace (S i - i)%nat with 1%nat by lia. reflexivity.
    + assert (Ep : / z ^ (2 * i + 1) * (/ z * / z) = / z ^ (2 * S i + 1)). { replace (2 * S i + 1)%nat with (2 * i + 1 + 2)%nat by lia. rewrite (pow_add z (2 * i + 1) 2). pose proof (pow_nonzero z (2 * i + 1) Hz) as N. set (w := z ^ (2 * i + 1)) in *. clearbody w. cbn [pow]. field. auto. }
      rewrite Ep. destruct (IH (S i) (ans + term z i) Ecs) as [(k & Hk & Hb & Hs & R1)|(Hb & R1)].
      * left. exists k. split; [lia|]. split; [intros j Hj; destruct (Nat.eq_dec j i) as [->|]; auto; apply Hb; lia|]. split; auto. rewrite R1. f_equal.
        replace (S k - i)%nat with (S (S k - S i)) by lia. reflexivity.
      * right. split; [intros j Hj; destruct (Nat.eq_dec j i) as [->|]; auto; apply Hb; lia|]. exact R1.
Qed.
Lemma fold_partial z k ans : fold_left Rplus (map (term z) (seq 0 (S k))) ans = ans + partial z k.
Proof. induction k as [|k IH]; [cbn; ring|]. rewrite seq_S, map_app, fold_left_app, IH. cbn [partial map fold_left plus]. ring. Qed.
Lemma stirling_run z ls : z <> 0 -> let a := stirling_start z ls in
  (exists k, (k <= 10)%nat /\ (forall j, (j < k)%nat -> Rabs a * u <= Rabs (term z j)) /\ Rabs (term z k) < Rabs a * u /\ stirling z ls = Ret (a + partial z k)) \/
  ((forall j, (j <= 10)%nat -> Rabs a * u <= Rabs (term z j)) /\ stirling z ls = AssertFail).
Proof.
  intros Hz a. unfold stirling. fold a. cbn zeta. change (ndiv n1 z) with (1 / z). change (nmul (1 / z) (1 / z)) with (1 / z * (1 / z)). change (nmul (nabs a) tulp) with (Rabs a * u).
  replace (1 / z) with (/ z) by (unfold Rdiv; ring). destruct (series_run z (Rabs a * u) Hz _ 0%nat a eq_refl) as [(k & Hk & Hb & Hs & E)|(Hb & E)]; change (2 * 0 + 1)%nat with 1%nat in E; rewrite pow_1 in E.
  - left. exists k. split; [lia|]. split; [intros; apply Hb; lia|]. split; auto. cbn [skipn] in E. rewrite E. f_equal. rewrite Nat.sub_0_r. apply fold_partial.
  - right. split; [intros; apply Hb; lia|]. exact E.
Qed.

(** the terms alternate and each is at most a tenth of the one before *)
Lemma terms z : 10 <= z -> 0 < term z 0 /\ - term z 0 / 10 <= term z 1 < 0 /\ 0 < term z 2 <= - term z 1 / 10 /\ - term z 2 / 10 <= term z 3 < 0 /\ 0 < term z 4 <= - term z 3 / 10 /\
  - term z 4 / 10 <= term z 5 < 0 /\ 0 < term z 6 <= - term z 5 / 10 /\ - term z 6 / 10 <= term z 7 < 0 /\ 0 < term z 8 <= - term z 7 / 10 /\ - term z 8 / 10 <= term z 9 < 0 /\ 0 < term z 10 <= - term z 9 / 10.
Proof.
  intros Hz. assert (P : forall k, 0 < / z ^ k) by (intros; apply Rinv_0_lt_compat, pow_lt; lra).
  assert (Q : forall k, / z ^ (k + 2) <= / z ^ k / 100).
  { intros k. rewrite (pow_add z k 2). replace (/ z ^ k / 100) with (/ (z ^ k * 100)) by (field; apply pow_nonzero; lra). apply Rinv_le_contravar; [assert (0 < z ^ k) by (apply pow_lt; lra); lra|]. apply Rmult_le_compat_l; [left; apply pow_lt; lra|]. nra. }
  unfold term, cf, coeffs, frac, Rdiv. cbn [nth ndiv nofZ Rnum].
  pose proof (P 1%nat). pose proof (P 3%nat). pose proof (P 5%nat). pose proof (P 7%nat). pose proof (P 9%nat). pose proof (P 11%nat). pose proof (P 13%nat). pose proof (P 15%nat). pose proof (P 17%nat). pose proof (P 19%nat). pose proof (P 21%nat).
  pose proof (Q 1%nat). pose proof (Q 3%nat). pose proof (Q 5%nat). pose proof (Q 7%nat). pose proof (Q 9%nat). pose proof (Q 11%nat). pose proof (Q 13%nat). pose proof (Q 15%nat). pose proof (Q 17%nat). pose proof (Q 19%nat).
  change (1 + 2)%nat with 3%nat in *. change (3 + 2)%nat with 5%nat in *. change (5 + 2)%nat with 7%nat in *. change (7 + 2)%nat with 9%nat in *. change (9 + 2)%nat with 11%nat in *. change (11 + 2)%nat with 13%nat in *. change (13 + 2)%nat with 15%nat in *. change (15 + 2)%nat with 17%nat in *. change (17 + 2)%nat with 19%nat in *. change (19 + 2)%nat with 21%nat in *.
  change (2 * 0 + 1)%nat with 1%nat. change (2 * 1 + 1)%nat with 3%nat. change (2 * 2 + 1)%nat with 5%nat. change (2 * 3 + 1)%nat with 7%nat. change (2 * 4 + 1)%nat with 9%nat. change (2 * 5 + 1)%nat with 11%nat. change (2 * 6 + 1)%nat with 13%nat. change (2 * 7 + 1)%nat with 15%nat. change (2 * 8 + 1)%nat with 17%nat. change (2 * 9 + 1)%nat with 19%nat. change (2 * 10 + 1)%nat with 21%nat.
  unfold Rdiv in *. cbn [ndiv Rnum] in *. unfold Rdiv. 
  repeat match goal with |- context [ / z ^ ?k ] => let y := fresh "y" in set (y := / z ^ k) in *; clearbody y end.
  repeat split; lra.
Qed.

Lemma start_split z ls : stirling_start z ls = (z - 1 / 2) * ln z - z + ln (2 * PI) / 2 - ls.
Proof. unfold stirling_start, nhalf, n1, n2. cbn [nsub nmul nadd ndiv nofZ tlog tlog_pi tlog2 Rnum Rtrans]. rewrite ln_mult by (try apply PI_RGT_0; lra). lra. Qed.
Lemma partial_close z L a k : 10 <= z -> (k <= 10)%nat ->
  0 <= L - (a + 1 / 12 / z - 1 / 360 / z ^ 3 + 1 / 1260 / z ^ 5 - 1 / 1680 / z ^ 7) <= 1 / 1188 / z ^ 9 ->
  Rabs (a + partial z k - L) <= (if Nat.ltb k 3 then Rabs (term z k) else 1 / 30000 / z ^ 7).
Proof.
  intros Hz Hk HL. destruct (terms z Hz) as (T0 & T1 & T2 & T3 & T4 & T5 & T6 & T7 & T8 & T9 & T10).
  assert (E0 : term z 0 = 1 / 12 / z) by (unfold term; change (2 * 0 + 1)%nat with 1%nat; rewrite pow_1; reflexivity).
  assert (E1 : term z 1 = - (1 / 360 / z ^ 3)) by (unfold term; change (2 * 1 + 1)%nat with 3%nat; unfold cf, coeffs, frac; cbn [nth ndiv nofZ Rnum]; unfold Rdiv; ring).
  assert (E2 : term z 2 = 1 / 1260 / z ^ 5) by reflexivity.
  assert (E3 : term z 3 = - (1 / 1620 / z ^ 7)) by (unfold term; change (2 * 3 + 1)%nat with 7%nat; unfold cf, coeffs, frac; cbn [nth ndiv nofZ Rnum]; unfold Rdiv; ring).
  assert (E4 : term z 4 = 1 / 1188 / z ^ 9). { unfold term. change (2 * 4 + 1)%nat with 9%nat. unfold cf, coeffs, frac. cbn [nth ndiv nofZ Rnum]. f_equal. lra. }
  rewrite <- E0, <- E2, <- E4 in HL.
  assert (E3' : 1 / 1680 / z ^ 7 = - (1620 / 1680) * term z 3) by (rewrite E3; lra).
  assert (E3'' : 1 / 30000 / z ^ 7 = - (1620 / 30000) * term z 3) by (rewrite E3; lra).
  assert (E4' : term z 4 <= - term z 3 * 136364 / 10000000).
  { rewrite E4, E3. replace (z ^ 9) with (z ^ 7 * (z * z)) by ring. replace (- - (1 / 1620 / z ^ 7) * 136364 / 10000000) with (/ z ^ 7 * (136364 / 10000000 / 1620)) by lra.
    assert (P7 : 0 < z ^ 7) by (apply pow_lt; lra). replace (1 / 1188 / (z ^ 7 * (z * z))) with (/ z ^ 7 * (1 / 1188 * / (z * z))) by (field; lra).
    apply Rmult_le_compat_l; [left; now apply Rinv_0_lt_compat|]. assert (/ (z * z) <= / 100) by (apply Rinv_le_contravar; nra). lra. }
  rewrite E3''. rewrite E3', (eq_sym (Ropp_involutive (1 / 360 / z ^ 3))), <- E1 in HL.
  set (t0 := term z 0) in *; set (t1 := term z 1) in *; set (t2 := term z 2) in *; set (t3 := term z 3) in *; set (t4 := term z 4) in *; set (t5 := term z 5) in *; set (t6 := term z 6) in *; set (t7 := term z 7) in *; set (t8 := term z 8) in *; set (t9 := term z 9) in *; set (t10 := term z 10) in *.
  assert (D : Rabs t0 = t0 /\ Rabs t1 = - t1 /\ Rabs t2 = t2) by (rewrite (Rabs_pos_eq t0), (Rabs_left t1), (Rabs_pos_eq t2) by lra; auto). destruct D as (D0 & D1 & D2).
  do 11 (destruct k as [|k]; [cbn [partial Nat.ltb Nat.leb]; fold t0 t1 t2 t3 t4 t5 t6 t7 t8 t9 t10; rewrite ?D0, ?D1, ?D2; apply Rabs_le; lra|]). lia.
Qed.

(** [stirling] near a target *)
Lemma stirling_close z ls L : 10 <= z -> 1 / 10 ^ 19 <= u -> 1 / 2 <= L ->
  (let a := (z - 1 / 2) * ln z - z + ln (2 * PI) / 2 - ls in 0 <= L - (a + 1 / 12 / z - 1 / 360 / z ^ 3 + 1 / 1260 / z ^ 5 - 1 / 1680 / z ^ 7) <= 1 / 1188 / z ^ 9) ->
  exists v, stirling z ls = Ret v /\ Rabs (v - L) <= u * L + 1 / 30000 / z ^ 7 /\ Rabs (v - L) <= 1 / 100.
Proof.
  intros Hz Hu HL B. cbn zeta in B. rewrite <- start_split in B. set (a := stirling_start z ls) in B.
  destruct (terms z Hz) as (T0 & T1 & T2 & T3 & T4 & T5 & T6 & T7 & T8 & T9 & T10).
  assert (E0 : term z 0 = 1 / 12 / z) by (unfold term; change (2 * 0 + 1)%nat with 1%nat; rewrite pow_1; reflexivity).
  assert (Z1 : 0 < / z <= 1 / 10) by (split; [apply Rinv_0_lt_compat; lra|replace (1 / 10) with (/ 10) by lra; apply Rinv_le_contravar; lra]).
  assert (Pk : forall k, 0 < / z ^ k <= 1 / 10 ^ k).
  { intros k. split; [apply Rinv_0_lt_compat, pow_lt; lra|]. replace (1 / 10 ^ k) with (/ 10 ^ k) by (unfold Rdiv; ring). apply Rinv_le_contravar; [apply pow_lt; lra|apply pow_incr; lra]. }
  assert (A : L - 1 / 100 <= a <= L).
  { assert (F : 1 / 12 / z <= 1 / 120) by lra. pose proof (Pk 3%nat). pose proof (Pk 5%nat). pose proof (Pk 7%nat). pose proof (Pk 9%nat).
    assert (Q : forall k, / z ^ (k + 2) <= / z ^ k / 100).
    { intros k. rewrite (pow_add z k 2). replace (/ z ^ k / 100) with (/ (z ^ k * 100)) by (field; apply pow_nonzero; lra). apply Rinv_le_contravar; [assert (0 < z ^ k) by (apply pow_lt; lra); lra|]. apply Rmult_le_compat_l; [left; apply pow_lt; lra|]. nra. }
    pose proof (Q 1%nat) as Q1. pose proof (Q 3%nat) as Q2. pose proof (Q 5%nat) as Q3. pose proof (Q 7%nat) as Q4. change (1 + 2)%nat with 3%nat in Q1. change (3 + 2)%nat with 5%nat in Q2. change (5 + 2)%nat with 7%nat in Q3. change (7 + 2)%nat with 9%nat in Q4. rewrite pow_1 in Q1.
    unfold Rdiv in B, F |- *. set (i3 := / z ^ 3) in *; set (i5 := / z ^ 5) in *; set (i7 := / z ^ 7) in *; set (i9 := / z ^ 9) in *; set (i1 := / z) in *. clearbody i1 i3 i5 i7 i9 a. split; lra. }
  assert (Ta : Rabs (term z 10) < Rabs a * u).
  { rewrite (Rabs_pos_eq a), (Rabs_pos_eq (term z 10)) by lra. unfold term. change (2 * 10 + 1)%nat with 21%nat. unfold cf, coeffs, frac. cbn [nth ndiv nofZ Rnum].
    pose proof (Pk 21%nat) as P. unfold Rdiv at 1. set (i := / z ^ 21) in *. clearbody i. clear -P Hu A HL.
    assert (U : 49 / 100 * (1 / 10 ^ 19) <= a * u) by (apply Rmult_le_compat; lra).
    assert (V : 854513 / 63756 * i <= 14 * (1 / 10 ^ 21)) by (apply Rmult_le_compat; lra).
    assert (W : 14 * (1 / 10 ^ 21) < 49 / 100 * (1 / 10 ^ 19)) by lra. lra. }
  assert (Az : z <> 0) by lra.
  destruct (stirling_run z ls Az) as [(k & Hk & _ & Hs & E)|(Hb & _)]; [|specialize (Hb 10%nat (le_n _)); fold a in Hb; lra].
  fold a in Hs, E. exists (a + partial z k). split; [exact E|].
  pose proof (partial_close z L a k Hz Hk B) as C. assert (Pu : 0 < u) by (apply Rlt_le_trans with (1 / 10 ^ 19); [apply Rdiv_lt_0_compat; [lra|apply pow_lt; lra]|lra]).
  assert (SA : Rabs a * u <= u * L) by (rewrite Rabs_pos_eq by lra; nra).
  assert (P7 : 0 <= 1 / 30000 / z ^ 7) by (unfold Rdiv at 1; left; apply Rmult_lt_0_compat; [lra|apply Pk]).
  assert (Z0 : term z 0 <= 1 / 120) by (rewrite E0; unfold Rdiv in *; lra). pose proof (Pk 7%nat) as P7'.
  assert (C2 : Rabs (a + partial z k - L) <= 1 / 100).
  { eapply Rle_trans; [exact C|]. destruct k as [|[|[|k]]]; cbn [Nat.ltb Nat.leb]; [rewrite Rabs_pos_eq; lra|rewrite Rabs_left; lra|rewrite Rabs_pos_eq; lra|]. unfold Rdiv in *. lra. }
  split; [|exact C2]. destruct (Nat.ltb k 3); [lra|]. assert (0 <= u * L) by nra. lra.
Qed.

Lemma shift_far fuel s z : 10 <= z -> shift_loop (S fuel) s z = Some (s, z).
Proof. intros Hz. cbn [shift_loop]. change (nltb z (nofZ gamma_cutoff)) with (Rlt_bool z 10). now rewrite Rlt_bool_false. Qed.
Lemma shift_near fuel s z : z < 10 -> shift_loop (S fuel) s z = shift_loop fuel (s * z) (z + 1).
Proof. intros Hz. cbn [shift_loop]. change (nltb z (nofZ gamma_cutoff)) with (Rlt_bool z 10). now rewrite Rlt_bool_true. Qed.

Lemma log_gamma_far k z : 10 <= z -> log_gamma_ (S k) z = Some (stirling z 0).
Proof.
  intros Hz. cbn [log_gamma_]. change (nltb z nhalf) with (Rlt_bool z (1 / 2)). change (neqb z nhalf) with (Req_bool z (1 / 2)). change (neqb z n1) with (Req_bool z 1). change (neqb z n2) with (Req_bool z 2). change (nltb z (nofZ gamma_cutoff)) with (Rlt_bool z 10).
  rewrite Rlt_bool_false, !Req_bool_false, Rlt_bool_false by lra. reflexivity.
Qed.
Lemma log_gamma_near k z : 2 < z < 10 -> log_gamma_ (S k) z = match shift_loop 11 1 z with None => None | Some (s, y) => Some (stirling y (ln (Rabs s))) end.
Proof.
  intros Hz. cbn [log_gamma_]. change (nltb z nhalf) with (Rlt_bool z (1 / 2)). change (neqb z nhalf) with (Req_bool z (1 / 2)). change (neqb z n1) with (Req_bool z 1). change (neqb z n2) with (Req_bool z 2). change (nltb z (nofZ gamma_cutoff)) with (Rlt_bool z 10).
  rewrite Rlt_bool_false, !Req_bool_false, Rlt_bool_true by lra. reflexivity.
Qed.
Lemma ln_fact n : (2 <= n)%nat -> 1 / 2 <= ln (INR (fact n)).
Proof.
  intros Hn. pose proof ln_lt_2. assert (ln 2 <= ln (INR (fact n))); [|lra]. apply ln_mono; [lra|]. change 2 with (INR 2). apply le_INR. change 2%nat with (fact 2). now apply fact_le.
Qed.
Lemma fact9_split n j : (j + n = 9)%nat -> forall s, s * INR (fact n) = INR (fact 9) -> ln (Rabs s) = ln (INR (fact 9)) - ln (INR (fact n)).
Proof.
  intros _ s E. pose proof (INR_fact_lt_0 n). pose proof (INR_fact_lt_0 9). assert (P : 0 < s). { destruct (Rlt_le_dec 0 s) as [|L]; auto. pose proof (Rmult_le_compat_r _ _ _ (Rlt_le _ _ H) L). rewrite E in H1. lra. }
  rewrite Rabs_pos_eq by lra. rewrite <- E, ln_mult by lra. lra.
Qed.
Definition cut (n : nat) : R := Rmax (INR n + 1) 10.
Lemma log_gamma_int n k : 1 / 10 ^ 19 <= u -> (2 <= n)%nat ->
  exists v, log_gamma_ (S k) (INR n + 1) = Some (Ret v) /\ Rabs (v - ln (INR (fact n))) <= u * ln (INR (fact n)) + 1 / 30000 / cut n ^ 7 /\ Rabs (v - ln (INR (fact n))) <= 1 / 100.
Proof.
  intros Hu Hn. unfold cut. destruct (Nat.le_gt_cases 9 n) as [G|G].
  - pose proof (le_INR _ _ G) as G'. change (INR 9) with (1+1+1+1+1+1+1+1+1) in G'. rewrite log_gamma_far by lra. rewrite Rmax_left by lra.
    destruct (stirling_close (INR n + 1) 0 (ln (INR (fact n)))) as (v & E & B); [lra|auto|now apply ln_fact| |exists v; rewrite E; auto].
    pose proof (stirling_bounds n) as S. cbn zeta in S |- *. unfold stirl in S. rewrite Rminus_0_r. exact S.
  - pose proof (lt_INR _ _ G) as G'. pose proof (le_INR _ _ Hn) as Hn'. change (INR 9) with (1+1+1+1+1+1+1+1+1) in G'. change (INR 2) with (1 + 1) in Hn'. rewrite log_gamma_near by lra. rewrite Rmax_right by lra.
    assert (S : exists s, shift_loop 11 1 (INR n + 1) = Some (s, 10) /\ s * INR (fact n) = INR (fact 9)).
    { rewrite !INR_IZR_INZ. destruct n as [|n]; [lia|]. destruct n as [|n]; [lia|]. do 7 (destruct n as [|n]; [cbn [Z.of_nat Pos.of_succ_nat Pos.succ]; repeat first [rewrite shift_far by lra|rewrite shift_near by lra]; eexists; split; [apply f_equal, f_equal; lra|vm_compute (Z.of_nat (fact _)); lra]|]). lia. }
    destruct S as (s & -> & Es). rewrite (fact9_split n (9 - n) ltac:(lia) s Es).
    destruct (stirling_close 10 (ln (INR (fact 9)) - ln (INR (fact n))) (ln (INR (fact n)))) as (v & E & B); [lra|auto|now apply ln_fact| |exists v; rewrite E; auto].
    pose proof (stirling_bounds 9) as S. cbn zeta in S |- *. replace (INR 9 + 1) with 10 in S by (change (INR 9) with (1+1+1+1+1+1+1+1+1); lra). unfold stirl in S. lra.
Qed.
End Prob.
