(** The loop of the continued fraction at one half (C61). *)
From Coq Require Import ZArith Reals List Lra Lia Psatz Bool.
From Coquelicot Require Import Coquelicot.
From Flocq Require Import Core.Raux Core.Zaux.
From Verif Require Import Base Scalar RLib MiniballModel ProbModel ProbSpec ProbProofs ProbProofs5 ProbProofs6 ProbProofs7 GaussInt MillsProofs.
Open Scope R_scope.

Section Mills.
Variable x : R.
Let z := x * x / 2.
Hypothesis Hx : 0 < x.
Hypothesis Hz : 3 / 2 <= z.

Definition be (n : nat) : R := z + 1 / 2 + 2 * INR n.
Definition al (n : nat) : R := INR n * (1 / 2 - INR n).
Fixpoint cfs (v0 v1 : R) (n : nat) : R :=
  match n with
  | O => v0
  | S j => match j with O => v1 | S i => be j * cfs v0 v1 j + al j * cfs v0 v1 i end
  end.
Lemma cfs_SS v0 v1 n : cfs v0 v1 (S (S n)) = be (S n) * cfs v0 v1 (S n) + al (S n) * cfs v0 v1 n.
Proof. reflexivity. Qed.
Definition An := cfs 0 1.
Definition Bn := cfs 1 (be 0).
Definition Wn (n : nat) : R := mom (2 * n) x / 2 ^ n.
Definition kap : R := x * dens x / 2.
Lemma kap_pos : 0 < kap.
Proof. unfold kap. pose proof (dens_pos x). nra. Qed.
Lemma Wn_pos n : 0 < Wn n.
Proof. apply Rdiv_lt_0_compat; [apply mom_pos; lra|apply pow_lt; lra]. Qed.
Lemma Wn_1 : Wn 1 = be 0 * Wn 0 - kap.
Proof. unfold Wn, be, kap, z. change (2 * 1)%nat with 2%nat. change (2 * 0)%nat with 0%nat. cbn [mom pow INR]. field. Qed.
Lemma Wn_SS n : Wn (S (S n)) = be (S n) * Wn (S n) + al (S n) * Wn n.
Proof.
  unfold Wn. replace (2 * S (S n))%nat with (S (S (S (S (2 * n))))) by lia. replace (2 * S n)%nat with (S (S (2 * n))) by lia. set (k := (2 * n)%nat).
  assert (Ek : INR k = 2 * INR n) by (unfold k; rewrite mult_INR; reflexivity). rewrite (mom_SS (S (S k))), (mom_SS (S k)). pose proof (mom_SS k x) as E0.
  unfold be, al, z. rewrite !S_INR, Ek in *. assert (P : 0 < 2 ^ n) by (apply pow_lt; lra). cbn [pow]. set (m0 := mom k x) in *. set (m1 := mom (S k) x) in *. rewrite E0. field. lra.
Qed.
Lemma Wn_le n : Wn (S n) <= (INR n + 1 / 2) * Wn n.
Proof.
  unfold Wn. replace (2 * S n)%nat with (S (S (2 * n))) by lia. rewrite mom_SS, S_INR, mult_INR. change (INR 2) with 2. pose proof (mom_pos (S (2 * n)) x ltac:(lra)) as P. assert (Q : 0 < 2 ^ n) by (apply pow_lt; lra). cbn [pow].
  apply Rmult_le_reg_r with (2 * 2 ^ n); [lra|]. unfold Rdiv at 1. rewrite Rmult_assoc, Rinv_l, Rmult_1_r by lra. replace ((INR n + 1 / 2) * (mom (2 * n) x / 2 ^ n) * (2 * 2 ^ n)) with ((2 * INR n + 1) * mom (2 * n) x) by (field; lra). nra.
Qed.
Lemma combo_both n : Wn n = Bn n * Wn 0 - kap * An n /\ Wn (S n) = Bn (S n) * Wn 0 - kap * An (S n).
Proof.
  induction n as [|n (IH1 & IH2)].
  - split; [cbn [Bn An cfs]; ring|]. rewrite Wn_1. cbn [Bn An cfs]. ring.
  - split; auto. rewrite Wn_SS, IH1, IH2. unfold Bn, An. rewrite !cfs_SS. ring.
Qed.
Lemma combo n : Wn n = Bn n * Wn 0 - kap * An n.
Proof. apply combo_both. Qed.

Lemma Bn_grow n : 0 < Bn n /\ (INR n + 1 / 2 + sqrt z * sqrt (INR (S n))) * Bn n <= Bn (S n).
Proof.
  assert (Q1 : 1 <= sqrt z) by (rewrite <- sqrt_1; apply sqrt_le_1; lra). assert (Q2 : sqrt z * sqrt z = z) by (apply sqrt_sqrt; lra).
  induction n as [|n (P & G)].
  - cbn [Bn cfs INR]. rewrite sqrt_1. split; [lra|]. unfold be. cbn [INR]. nra.
  - set (p := sqrt (INR (S n))) in *. set (q := sqrt z) in *. assert (NP : 0 < INR (S n)) by (apply lt_0_INR; lia). assert (Pp : 0 < p) by (apply sqrt_lt_R0; auto). assert (PP : p * p = INR (S n)) by (apply sqrt_sqrt; lra).
    assert (EN : INR n = p * p - 1) by (rewrite PP, S_INR; ring). assert (N0 := pos_INR n).
    set (g := INR n + 1 / 2 + q * p) in *. assert (Pg : 0 < g) by (unfold g; nra). assert (PB : 0 < Bn (S n)) by nra. split; auto.
    unfold Bn at 2. rewrite cfs_SS. fold Bn. change (cfs 1 (be 0)) with Bn. unfold be, al. rewrite <- PP.
    set (r := sqrt (INR (S (S n)))). assert (RR : r * r = p * p + 1) by (unfold r; rewrite sqrt_sqrt by apply pos_INR; rewrite (S_INR (S n)), PP; ring). assert (Pr : 0 <= r) by apply sqrt_pos.
    (* B n <= B (S n) / g *)
    assert (L : Bn n <= Bn (S n) / g). { apply Rmult_le_reg_r with g; auto. unfold Rdiv. rewrite Rmult_assoc, Rinv_l, Rmult_1_r by lra. rewrite Rmult_comm. exact G. }
    assert (A0 : p * p * (1 / 2 - p * p) <= 0) by nra.
    apply Rle_trans with ((z + 1 / 2 + 2 * (p * p)) * Bn (S n) + p * p * (1 / 2 - p * p) * (Bn (S n) / g)).
    2: { apply Rplus_le_compat_l. nra. }
    replace ((z + 1 / 2 + 2 * (p * p)) * Bn (S n) + p * p * (1 / 2 - p * p) * (Bn (S n) / g)) with ((z + 1 / 2 + 2 * (p * p) + p * p * (1 / 2 - p * p) / g) * Bn (S n)) by (field; lra).
    apply Rmult_le_compat_r; [lra|]. apply Rmult_le_reg_r with g; auto. replace ((z + 1 / 2 + 2 * (p * p) + p * p * (1 / 2 - p * p) / g) * g) with ((z + 1 / 2 + 2 * (p * p)) * g + p * p * (1 / 2 - p * p)) by (field; lra).
    assert (Eg : g = p * p - 1 / 2 + q * p) by (unfold g; lra). 
    (* q r g <= z g + p^3 q *)
    assert (K : q * r * g <= z * g + p * p * (q * p)).
    { rewrite Eg, <- Q2. assert (R' : r * (p * p - 1 / 2 + q * p) <= q * (p * p - 1 / 2 + q * p) + p * p * p); [|nra].
      assert (H1 : r * (p + q) <= p * p + p * q + q * q).
      { apply Rsqr_incr_0_var; [|nra]. unfold Rsqr. assert (E1 : r * (p + q) * (r * (p + q)) = (p * p + 1) * ((p + q) * (p + q))) by (rewrite <- RR; ring). rewrite E1. assert (QQ : 3 / 2 <= q * q) by lra. set (q2 := q * q) in *. assert (0 <= p * p) by nra. assert (0 <= p * q) by nra.
        assert (E2 : (p * p + p * q + q2) * (p * p + p * q + q2) - (p * p + 1) * ((p + q) * (p + q)) = p * p * (2 * q2 - 1) + 2 * (p * q) * (q2 - 1) + q2 * (q2 - 1)) by (unfold q2; ring).
        assert (0 <= p * p * (2 * q2 - 1) + 2 * (p * q) * (q2 - 1) + q2 * (q2 - 1)); [|lra]. assert (0 <= p * p * (2 * q2 - 1)) by (apply Rmult_le_pos; lra). assert (0 <= 2 * (p * q) * (q2 - 1)) by (apply Rmult_le_pos; lra). assert (0 <= q2 * (q2 - 1)) by (apply Rmult_le_pos; lra). lra. }
      assert (H2 : p * (r * (p + q)) <= p * (p * p + p * q + q * q)) by (apply Rmult_le_compat_l; lra). destruct (Rle_or_lt q r) as [H3|H3]; [lra|].
      (* r < q *) assert (r * (p * p - 1 / 2 + q * p) <= q * (p * p - 1 / 2 + q * p)); [|nra]. apply Rmult_le_compat_r; [|lra]. assert (1 <= p * p) by lra. nra. }
    rewrite Eg in K |- *. clear - K. lra.
Qed.
Lemma Bn_pos n : 0 < Bn n.
Proof. apply Bn_grow. Qed.

Definition Cn (n : nat) : R := An n / Bn n.
Definition Fr : R := Wn 0 / kap.
Definition Dn (n : nat) : R := Fr - Cn n.
Lemma Dn_eq n : Dn n = Wn n / (kap * Bn n).
Proof. unfold Dn, Cn, Fr. rewrite (combo n). pose proof kap_pos. pose proof (Bn_pos n). field. lra. Qed.
Lemma Dn_pos n : 0 < Dn n.
Proof. rewrite Dn_eq. apply Rdiv_lt_0_compat; [apply Wn_pos|]. apply Rmult_lt_0_compat; [apply kap_pos|apply Bn_pos]. Qed.
Lemma Dn_step n : Dn (S n) * (1 + sqrt z / sqrt (INR (S n))) <= Dn n.
Proof.
  rewrite !Dn_eq. destruct (Bn_grow n) as (P & G). pose proof (Bn_pos (S n)) as P'. pose proof (Wn_le n) as L. pose proof (Wn_pos n) as W. pose proof kap_pos as K. pose proof (Wn_pos (S n)) as W'. pose proof (pos_INR n) as N0.
  assert (NP : 0 < INR (S n)) by (apply lt_0_INR; lia). set (p := sqrt (INR (S n))) in *. set (q := sqrt z) in *. assert (Pp : 0 < p) by (apply sqrt_lt_R0; auto). assert (PP : p * p = INR (S n)) by (apply sqrt_sqrt; lra). assert (Q0 : 0 <= q) by apply sqrt_pos.
  apply Rmult_le_reg_r with (kap * Bn (S n) * Bn n); [apply Rmult_lt_0_compat; auto; now apply Rmult_lt_0_compat|].
  replace (Wn (S n) / (kap * Bn (S n)) * (1 + q / p) * (kap * Bn (S n) * Bn n)) with (Wn (S n) * ((1 + q / p) * Bn n)) by (field; lra). replace (Wn n / (kap * Bn n) * (kap * Bn (S n) * Bn n)) with (Wn n * Bn (S n)) by (field; lra).
  apply Rle_trans with ((INR n + 1 / 2) * Wn n * ((1 + q / p) * Bn n)).
  { apply Rmult_le_compat_r; auto. assert (0 <= q / p) by (apply Rmult_le_pos; auto; left; now apply Rinv_0_lt_compat). nra. }
  rewrite (Rmult_comm (INR n + 1 / 2)), Rmult_assoc. apply Rmult_le_compat_l; [lra|]. eapply Rle_trans; [|exact G]. rewrite <- Rmult_assoc. apply Rmult_le_compat_r; [lra|].
  assert (E : (INR n + 1 / 2) * (q / p) <= q * p); [|lra]. assert (INR n + 1 / 2 <= p * p) by (rewrite PP, S_INR; lra). replace (q * p) with (p * p * (q / p)) by (field; lra). apply Rmult_le_compat_r; auto. apply Rmult_le_pos; auto. left. now apply Rinv_0_lt_compat.
Qed.
Lemma Fr_small : 0 < Fr <= 2 / 3.
Proof.
  unfold Fr. pose proof kap_pos as K. split; [apply Rdiv_lt_0_compat; auto; apply Wn_pos|]. pose proof (mom_pos 1 x ltac:(lra)) as M. unfold kap, Wn in *. change (2 * 0)%nat with 0%nat. cbn [mom pow] in *. pose proof (dens_pos x).
  apply Rmult_le_reg_r with (x * dens x / 2); auto. unfold Rdiv at 1. rewrite Rmult_assoc, Rinv_l, Rmult_1_r by lra. unfold z in Hz. pose proof (proj1 (ntail_bounds x ltac:(lra))). apply Rmult_le_reg_r with x; auto. unfold Rdiv. rewrite Rinv_1. nra.
Qed.
Lemma Dn_1 : Dn 1 <= Cn 1 / 3.
Proof.
  rewrite Dn_eq. unfold Cn. pose proof (Wn_le 0) as L. cbn [INR] in L. pose proof Fr_small as (F0 & F1). unfold Fr in *. pose proof kap_pos as K. pose proof (Bn_pos 1) as B. unfold An. cbn [cfs].
  assert (E : Wn 0 <= 2 / 3 * kap). { replace (Wn 0) with (Wn 0 / kap * kap) by (field; lra). apply Rmult_le_compat_r; lra. }
  replace (Wn 1 / (kap * Bn 1)) with (Wn 1 / kap * / Bn 1) by (field; lra). replace (1 / Bn 1 / 3) with (1 / 3 * / Bn 1) by (field; lra). apply Rmult_le_compat_r; [left; now apply Rinv_0_lt_compat|]. apply Rmult_le_reg_r with kap; auto. unfold Rdiv at 1. rewrite Rmult_assoc, Rinv_l by lra. lra.
Qed.
Lemma Dn_exp m : Dn (S m) <= Dn 1 * exp (1 - sqrt (INR (S m))).
Proof.
  induction m as [|m IH]; [cbn [INR]; rewrite sqrt_1; replace (1 - 1) with 0 by ring; rewrite exp_0; lra|].
  pose proof (Dn_step (S m)) as S1. pose proof (Dn_pos (S (S m))) as P2. set (a := sqrt (INR (S m))) in *. set (b := sqrt (INR (S (S m)))) in *. set (q := sqrt z) in *.
  assert (NP : 1 <= INR (S m)) by (rewrite S_INR; pose proof (pos_INR m); lra). assert (A : 1 <= a) by (rewrite <- sqrt_1; apply sqrt_le_1; lra). assert (AA : a * a = INR (S m)) by (apply sqrt_sqrt; lra). assert (BB : b * b = a * a + 1) by (unfold b; rewrite sqrt_sqrt by apply pos_INR; rewrite (S_INR (S m)), AA; ring).
  assert (B0 : 0 <= b) by apply sqrt_pos. assert (AB : a < b) by nra. assert (QQ : q * q = z) by (apply sqrt_sqrt; lra). assert (Q0 : 0 <= q) by apply sqrt_pos.
  assert (D : (b - a) * (b + a) = 1) by nra. assert (Dh : 0 <= b - a <= 1 / 2). { assert (141 / 100 <= b) by nra. split; [lra|]. apply Rmult_le_reg_r with (b + a); [lra|]. rewrite D. lra. }
  assert (E : exp (b - a) <= 1 + q / b).
  { eapply Rle_trans; [apply exp_upper; lra|]. apply Rplus_le_compat_l. apply Rmult_le_reg_r with (b * (b + a)); [nra|]. replace (2 * (b - a) * (b * (b + a))) with (2 * b * ((b - a) * (b + a))) by ring. rewrite D. replace (q / b * (b * (b + a))) with (q * (b + a)) by (field; lra).
    assert (Qb : 122 / 100 <= q) by nra. assert (Ab : 70 / 100 * b <= a). { apply Rsqr_incr_0_var; [|lra]. unfold Rsqr. nra. } nra. }
  replace (exp (1 - b)) with (exp (1 - a) * / exp (b - a)) by (rewrite <- exp_Ropp, <- exp_plus; f_equal; ring). pose proof (exp_pos (b - a)) as Pe. apply Rmult_le_reg_r with (exp (b - a)); auto. replace (Dn 1 * (exp (1 - a) * / exp (b - a)) * exp (b - a)) with (Dn 1 * exp (1 - a)) by (field; lra).
  eapply Rle_trans; [|exact IH]. eapply Rle_trans; [|exact S1]. apply Rmult_le_compat_l; lra.
Qed.
Lemma Cn_mono n : Cn n <= Cn (S n).
Proof.
  pose proof (Dn_step n) as S1. pose proof (Dn_pos (S n)) as P. assert (0 <= sqrt z / sqrt (INR (S n))). { apply Rmult_le_pos; [apply sqrt_pos|]. left. apply Rinv_0_lt_compat, sqrt_lt_R0, lt_0_INR. lia. } assert (Dn (S n) <= Dn n) by nra. unfold Dn in *. lra.
Qed.
Lemma Cn_1 n : Cn 1 <= Cn (S n).
Proof. induction n as [|n IH]; [lra|]. eapply Rle_trans; [exact IH|apply Cn_mono]. Qed.
Lemma Cn_1_pos : 0 < Cn 1.
Proof. unfold Cn, An. cbn [cfs]. apply Rdiv_lt_0_compat; [lra|apply Bn_pos]. Qed.
Lemma Cn_lt n : Cn n < Fr.
Proof. pose proof (Dn_pos n). unfold Dn in *. lra. Qed.

Section Loop.
Context (eps : Epsilon).
Variable u : R.
Hypothesis Hu : 0 < u < 1.
#[local] Hint Extern 0 (Num R) => exact (Rnum eps) : typeclass_instances.
#[local] Hint Extern 0 (Trans R) => exact (Rtrans u) : typeclass_instances.
Let l := ln (/ u).

(** a round that does not end the loop comes early *)
Lemma going_on n : u * Cn (S n) <= Cn (S (S n)) - Cn (S n) -> INR (S n) <= l * l.
Proof.
  intros G. pose proof (Dn_exp n) as E. pose proof Dn_1 as D1. pose proof (Cn_1 n) as C1. pose proof Cn_1_pos as CP. assert (D : u * Cn 1 <= Dn (S n)). { pose proof (Cn_lt (S (S n))). unfold Dn. nra. }
  set (s := sqrt (INR (S n))) in *. pose proof (exp_pos (1 - s)) as Pe. assert (L : u <= exp (1 - s) / 3). { apply Rmult_le_reg_r with (Cn 1); auto. nra. }
  assert (X : exp (1 - s) / 3 <= exp (- s)). { unfold Rminus. rewrite exp_plus. pose proof exp_le_3. pose proof (exp_pos (- s)). nra. }
  assert (S0 : 0 <= s) by apply sqrt_pos. assert (Sl : s <= l). { unfold l. rewrite ln_Rinv by lra. destruct (Rle_or_lt (ln u) (- s)) as [Q|Q]; [lra|]. apply exp_increasing in Q. rewrite exp_ln in Q by lra. lra. }
  assert (SS : s * s = INR (S n)) by (apply sqrt_sqrt, pos_INR). rewrite <- SS. nra.
Qed.
(** a round that ends it gives a good answer *)
Lemma stopped n : Cn (S n) - Cn n < u * Cn n -> Dn (S n) * sqrt z <= u * Fr * sqrt (INR (S n)).
Proof.
  intros G. pose proof (Dn_step n) as S1. pose proof (Cn_lt n) as L. assert (P : 0 < sqrt (INR (S n))) by (apply sqrt_lt_R0, lt_0_INR; lia). set (s := sqrt (INR (S n))) in *.
  assert (E : Dn (S n) * (sqrt z / s) <= u * Fr). { unfold Dn in *. nra. } apply Rmult_le_reg_r with (/ s); [now apply Rinv_0_lt_compat|]. replace (u * Fr * s * / s) with (u * Fr) by (field; lra). lra.
Qed.
Lemma cf_half_run : forall fuel i, INR (S i) <= 1 + l * l -> 1 + l * l < INR (S i + fuel) ->
  exists n, INR (S (S n)) <= 2 + l * l /\ Dn (S (S n)) * sqrt z <= u * Fr * sqrt (INR (S (S n))) /\
    cf_loop fuel (1 / 2) (be i) (An i / Bn (S i)) (Bn i / Bn (S i)) (Cn (S i)) 1 (INR (S i)) false = Some (Ret (Cn (S (S n)))).
Proof.
  induction fuel as [|fuel IH]; intros i H1 H2; [rewrite Nat.add_0_r in H2; lra|].
  cbn [cf_loop]. change (nmul (INR (S i)) (nsub (1 / 2) (INR (S i)))) with (al (S i)). change (nadd (be i) n2) with (be i + 2). assert (Eb : be i + 2 = be (S i)) by (unfold be; rewrite S_INR; ring). rewrite Eb. clear Eb.
  change (nadd (nmul (be (S i)) (Cn (S i))) (nmul (al (S i)) (An i / Bn (S i)))) with (be (S i) * Cn (S i) + al (S i) * (An i / Bn (S i))). change (nadd (nmul (be (S i)) 1) (nmul (al (S i)) (Bn i / Bn (S i)))) with (be (S i) * 1 + al (S i) * (Bn i / Bn (S i))).
  pose proof (Bn_pos (S i)) as P1. pose proof (Bn_pos (S (S i))) as P2. pose proof (Bn_pos i) as P0.
  assert (EA : be (S i) * Cn (S i) + al (S i) * (An i / Bn (S i)) = An (S (S i)) / Bn (S i)) by (unfold Cn, An; rewrite cfs_SS; field; lra).
  assert (EB : be (S i) * 1 + al (S i) * (Bn i / Bn (S i)) = Bn (S (S i)) / Bn (S i)). { unfold Bn in *. rewrite cfs_SS. field. lra. }
  rewrite EA, EB. clear EA EB. set (N := An (S (S i)) / Bn (S i)). set (Q := Bn (S (S i)) / Bn (S i)). assert (PQ : 0 < Q) by (apply Rdiv_lt_0_compat; auto).
  assert (EC : N / Q = Cn (S (S i))) by (unfold N, Q, Cn; field; lra). pose proof (Cn_1 (S i)) as C1. pose proof Cn_1_pos as CP. pose proof (Cn_lt (S (S i))) as CL. pose proof Fr_small as (F0 & F1).
  assert (EN : N = Cn (S (S i)) * Q) by (rewrite <- EC; field; lra). assert (PN : 0 < N < Q) by (rewrite EN; nra).
  change (nleb (nabs Q) (nmul (nabs N) cf_small)) with (Rle_bool (Rabs Q) (Rabs N * (bpow radix2 (-1022) * 1000))). rewrite Rle_bool_false by (rewrite !Rabs_pos_eq by lra; pose proof tiny_lt; pose proof tiny_pos; nra).
  cbn [negb andb]. change (ndiv N Q) with (N / Q). rewrite EC. pose proof (Cn_1 i) as C1'. change (nltb (nabs (nsub (Cn (S (S i))) (Cn (S i)))) (nmul (nabs (Cn (S i))) tulp)) with (Rlt_bool (Rabs (Cn (S (S i)) - Cn (S i))) (Rabs (Cn (S i)) * u)).
  pose proof (Cn_mono (S i)) as M. rewrite (Rabs_pos_eq (Cn (S (S i)) - Cn (S i))), (Rabs_pos_eq (Cn (S i))) by lra. destruct (Rlt_bool_spec (Cn (S (S i)) - Cn (S i)) (Cn (S i) * u)) as [G|G].
  - exists i. split; [rewrite (S_INR (S i)); lra|]. split; [apply stopped; lra|reflexivity].
  - change (ndiv (Cn (S i)) Q) with (Cn (S i) / Q). change (ndiv 1 Q) with (1 / Q). change (nadd (INR (S i)) n1) with (INR (S i) + 1). rewrite <- S_INR. change n1 with 1.
    assert (E1 : Cn (S i) / Q = An (S i) / Bn (S (S i))) by (unfold Cn, Q; field; lra). assert (E2 : 1 / Q = Bn (S i) / Bn (S (S i))) by (unfold Q; field; lra). rewrite E1, E2. apply IH.
    + rewrite (S_INR (S i)). pose proof (going_on i ltac:(lra)). lra.
    + replace (S (S i) + fuel)%nat with (S i + S fuel)%nat by lia. exact H2.
Qed.
Lemma igamc_half fuel : l * l < INR fuel ->
  exists c, igamc_nop fuel (1 / 2) z = Some (Ret c) /\ 0 < c < Fr /\ Fr - c <= u * (l + 2) * Fr.
Proof.
  intros Hf. unfold igamc_nop. change (nleb (nadd (1 / 2) n1) z) with (Rle_bool (1 / 2 + 1) z). change (nltb n0 (1 / 2)) with (Rlt_bool 0 (1 / 2)). rewrite Rle_bool_true, Rlt_bool_true by lra. cbn [andb oassert rbind].
  change (nsub (nadd z n1) (1 / 2)) with (z + 1 - 1 / 2). assert (Eb : z + 1 - 1 / 2 = be 0) by (unfold be; cbn [INR]; lra). rewrite Eb. assert (Pb : 2 <= be 0) by (rewrite <- Eb; lra).
  change (nleb (nabs (be 0)) cf_small) with (Rle_bool (Rabs (be 0)) (bpow radix2 (-1022) * 1000)). rewrite Rabs_pos_eq by lra. rewrite Rle_bool_false by (pose proof tiny_lt; lra).
  change (ndiv n1 (be 0)) with (1 / be 0). change n0 with 0. change n1 with 1.
  destruct (cf_half_run fuel 0) as (n & Hn & HD & E); [cbn [INR]; nra|rewrite plus_INR; cbn [INR]; lra|].
  change (An 0) with 0 in E. change (Bn 0) with 1 in E. change (Bn 1) with (be 0) in E. change (Cn 1) with (1 / be 0) in E. change (INR 1) with 1 in E. replace (0 / be 0) with 0 in E by (field; lra). exists (Cn (S (S n))). split; [exact E|].
  split; [split; [pose proof (Cn_1 (S n)); pose proof Cn_1_pos; lra|apply Cn_lt]|]. fold (Dn (S (S n))). pose proof Fr_small as (F0 & _). pose proof (Dn_pos (S (S n))) as DP.
  assert (Q1 : 1 <= sqrt z) by (rewrite <- sqrt_1; apply sqrt_le_1; lra). assert (L0 : 0 <= l). { unfold l. rewrite ln_Rinv by lra. assert (ln u <= 0); [|lra]. rewrite <- ln_1. left. apply ln_increasing; lra. }
  assert (Sn : sqrt (INR (S (S n))) <= l + 2). { apply Rsqr_incr_0_var; [|lra]. rewrite Rsqr_sqrt by apply pos_INR. unfold Rsqr. nra. }
  apply Rle_trans with (u * Fr * sqrt (INR (S (S n)))); [nra|]. replace (u * (l + 2) * Fr) with (u * Fr * (l + 2)) by ring. apply Rmult_le_compat_l; auto. nra.
Qed.
End Loop.
End Mills.
