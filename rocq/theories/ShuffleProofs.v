From Coq Require Import List ZArith NArith Bool Arith Lia Permutation FinFun.
From Coq Require Import ZifyBool ZifyNat ZifyN.
From Verif Require Import Base MTModel MTSpec MTProofs MTProofs2 ShuffleModel ShuffleSpec.
Import ListNotations.
Open Scope nat_scope.

Section S.
Context {C : Type}.
Implicit Types v w : list C.

Lemma swap_at_ok v i j : i < length v -> j < length v -> i <> j ->
  exists v', swap_at v i j = Ret v' /\ length v' = length v /\
    nth_error v' i = nth_error v j /\ nth_error v' j = nth_error v i /\
    (forall k, k <> i -> k <> j -> nth_error v' k = nth_error v k).
Proof.
  intros Hi Hj Hn. unfold swap_at, oget.
  destruct (nth_error v i) as [a|] eqn:Ea; [|apply nth_error_None in Ea; lia].
  destruct (nth_error v j) as [b|] eqn:Eb; [|apply nth_error_None in Eb; lia].
  cbn [obind]. rewrite oset_ret by auto. cbn [obind]. rewrite oset_ret by (rewrite upd_length; auto).
  eexists; split; [reflexivity|]. rewrite !upd_length. repeat split; auto.
  - rewrite nth_error_upd_other by auto. rewrite nth_error_upd_same by auto. auto.
  - rewrite nth_error_upd_same by (rewrite upd_length; auto). auto.
  - intros k K1 K2. rewrite !nth_error_upd_other by auto. reflexivity.
Qed.

Lemma nth_error_ext_eq : forall v w, (forall k, nth_error v k = nth_error w k) -> v = w.
Proof.
  induction v as [|a t IH]; intros [|b u] H; auto; try (specialize (H 0); discriminate).
  f_equal; [specialize (H 0); cbn in H; congruence|]. apply IH. intros k. exact (H (S k)).
Qed.

Definition transp (i j k : nat) : nat := if Nat.eqb k i then j else if Nat.eqb k j then i else k.

Lemma swap_at_perm v v' i j : swap_at v i j = Ret v' -> i <> j -> i < length v -> j < length v -> Permutation v v'.
Proof.
  intros E Hn Hi Hj. destruct (swap_at_ok v i j Hi Hj Hn) as (v2 & E2 & L & A & B & K).
  rewrite E in E2; inversion E2; subst v2.
  destruct v as [|d t]; [simpl in Hi; lia|]. apply (Permutation_nth _ _ d). split; [exact L|].
  exists (transp i j). unfold transp. split; [|split].
  - intros x Hx. destruct (Nat.eqb_spec x i), (Nat.eqb_spec x j); lia.
  - intros x y Hx Hy. destruct (Nat.eqb_spec x i), (Nat.eqb_spec x j), (Nat.eqb_spec y i), (Nat.eqb_spec y j); lia.
  - intros x Hx.
    assert (E0 : forall n m, nth_error v' n = nth_error (d :: t) m -> nth n v' d = nth m (d :: t) d).
    { intros n m H. rewrite <- !nth_default_eq. unfold nth_default. rewrite H. reflexivity. }
    destruct (Nat.eqb_spec x i) as [->|Ni]; [auto|]. destruct (Nat.eqb_spec x j) as [->|Nj]; auto.
Qed.

Lemma shuffle_from_perm pos : forall choices v, pos < length v -> below pos choices ->
  exists w, shuffle_from pos choices v = Ret w /\ Permutation v w /\
   (forall k, pos < k -> nth_error w k = nth_error v k).
Proof.
  induction pos as [|p IH]; intros choices v Hp Hb.
  - exists v. auto.
  - destruct choices as [|c cs]; [contradiction|]. destruct Hb as [Hc Hb]. cbn [shuffle_from].
    destruct (Nat.eqb_spec c (S p)) as [->|Hne].
    + destruct (IH cs v) as (w & E & P & K); auto; [lia|]. exists w. repeat split; auto. intros k Hk; apply K; lia.
    + destruct (swap_at_ok v (S p) c) as (v' & E & L & A & B & K); try lia. rewrite E. cbn [obind].
      destruct (IH cs v') as (w & E' & P & K'); auto; [lia|]. exists w. split; auto. split.
      * eapply perm_trans; [eapply (swap_at_perm v v' (S p) c); eauto; lia|auto].
      * intros k Hk. rewrite K' by lia. apply K; lia.
Qed.

Lemma shuffle_perm v choices : valid_choices (length v) choices ->
  exists w, shuffle v choices = Ret w /\ Permutation v w.
Proof.
  unfold valid_choices, shuffle. destruct (length v) as [|n] eqn:L; intros H.
  - exists v. auto.
  - replace (S n - 1) with n in H by lia.
    destruct (shuffle_from_perm n choices v) as (w & E & P & _); auto; [lia|]. eauto.
Qed.

Lemma NoDup_index v i j : NoDup v -> i < length v -> nth_error v i = nth_error v j -> i = j.
Proof. intros H; apply NoDup_nth_error; auto. Qed.

Lemma shuffle_from_reach pos : forall v w, NoDup v -> pos < length v -> Permutation v w ->
  (forall k, pos < k -> nth_error w k = nth_error v k) ->
  exists! choices, below pos choices /\ shuffle_from pos choices v = Ret w.
Proof.
  induction pos as [|p IH]; intros v w ND Hp P K.
  - assert (v = w).
    { assert (Lw := Permutation_length P).
      destruct v as [|a t]; [simpl in Hp; lia|]. destruct w as [|b u]; [simpl in Lw; lia|].
      assert (t = u).
      { apply nth_error_ext_eq. intros k. exact (eq_sym (K (S k) (Nat.lt_0_succ k))). }
      subst u. apply Permutation_app_inv_r with (l1 := [a]) (l2 := [b]) in P. apply Permutation_length_1 in P. congruence. }
    subst w. exists []. split; [split; [exact I|reflexivity]|].
    intros [|c cs] [Hb _]; [reflexivity|destruct Hb].
  - assert (Lw := Permutation_length P).
    destruct (nth_error w (S p)) as [x|] eqn:Ex; [|apply nth_error_None in Ex; lia].
    assert (Inx : In x v) by (apply Permutation_in with w; [now apply Permutation_sym|eapply nth_error_In; eauto]).
    destruct (In_nth_error v x Inx) as (c & Ec).
    assert (NDw : NoDup w) by (eapply Permutation_NoDup; eauto).
    assert (Hcl : c < length v) by (apply nth_error_Some; congruence).
    assert (Hc : c <= S p).
    { destruct (Nat.le_gt_cases c (S p)) as [|Hgt]; auto. exfalso.
      rewrite <- (K c Hgt) in Ec. assert (c = S p) by (apply (NoDup_index w c (S p) NDw); [lia|congruence]). lia. }
    destruct (Nat.eq_dec c (S p)) as [->|Hne].
    + destruct (IH v w ND) as (cs & [Hb Es] & U); auto; [lia| |].
      { intros k Hk. destruct (Nat.eq_dec k (S p)) as [->|]; [congruence|apply K; lia]. }
      exists (S p :: cs). split.
      * split; [split; auto|]. cbn [shuffle_from]. rewrite Nat.eqb_refl. exact Es.
      * intros [|c' cs'] [Hb' Es']; [destruct Hb'|]. destruct Hb' as [Hc' Hb']. cbn [shuffle_from] in Es'.
        destruct (Nat.eqb_spec c' (S p)) as [->|Hne'].
        { f_equal. apply U. auto. }
        exfalso. apply obind_ret in Es' as (v' & E & Es').
        destruct (swap_at_ok v (S p) c') as (v2 & E2 & L & A & B & _); try lia. rewrite E in E2; inversion E2; subst v2.
        destruct (shuffle_from_perm p cs' v') as (w' & Ew & _ & K'); auto; [lia|]. rewrite Es' in Ew; inversion Ew; subst w'.
        rewrite K', A in Ex by lia. apply Hne'. apply (NoDup_index v c' (S p) ND); [lia|congruence].
    + destruct (swap_at_ok v (S p) c) as (v' & E & L & A & B & K2); try lia.
      assert (PV : Permutation v v') by (eapply (swap_at_perm v v' (S p) c); eauto; lia).
      destruct (IH v' w) as (cs & [Hb Es] & U).
      { eapply Permutation_NoDup; eauto. } { lia. }
      { eapply perm_trans; [apply Permutation_sym; eauto|auto]. }
      { intros k Hk. destruct (Nat.eq_dec k (S p)) as [->|]; [congruence|]. rewrite K2 by lia. apply K; lia. }
      exists (c :: cs). split.
      * split; [split; auto|]. cbn [shuffle_from]. destruct (Nat.eqb_spec c (S p)); [lia|]. rewrite E. exact Es.
      * intros [|c' cs'] [Hb' Es']; [destruct Hb'|]. destruct Hb' as [Hc' Hb']. cbn [shuffle_from] in Es'.
        destruct (Nat.eqb_spec c' (S p)) as [->|Hne'].
        { exfalso. destruct (shuffle_from_perm p cs' v) as (w' & Ew & _ & K'); auto; [lia|]. rewrite Es' in Ew; inversion Ew; subst w'.
          rewrite K' in Ex by lia. apply Hne. apply (NoDup_index v c (S p) ND); [lia|congruence]. }
        apply obind_ret in Es' as (v2 & E2 & Es').
        destruct (swap_at_ok v (S p) c') as (v3 & E3 & L3 & A3 & _); try lia. rewrite E2 in E3; inversion E3; subst v3.
        destruct (shuffle_from_perm p cs' v2) as (w' & Ew & _ & K'); auto; [lia|]. rewrite Es' in Ew; inversion Ew; subst w'.
        rewrite K', A3 in Ex by lia.
        assert (c' = c) by (apply (NoDup_index v c' c ND); [lia|congruence]). subst c'.
        rewrite E in E2; inversion E2; subst v2. f_equal. apply U. auto.
Qed.

Lemma shuffle_bijection v w : NoDup v -> Permutation v w ->
  exists! choices, valid_choices (length v) choices /\ shuffle v choices = Ret w.
Proof.
  intros ND P. unfold valid_choices, shuffle. destruct (length v) as [|n] eqn:L.
  - destruct v; [|discriminate]. apply Permutation_nil in P. subst w.
    exists []. split; [split; [exact I|reflexivity]|]. intros [|c cs] [Hb _]; [reflexivity|destruct Hb].
  - replace (S n - 1) with n by lia. apply shuffle_from_reach; auto; [lia|].
    intros k Hk. rewrite (proj2 (nth_error_None v k)) by lia. apply nth_error_None.
    rewrite <- (Permutation_length P). lia.
Qed.

(** The generator-driven loop is the choice-driven one. *)
Lemma shuffle_mt_from_choices fuel pos : forall g v w g', mt_typed g -> (N.of_nat pos < 2 ^ 32)%N ->
  shuffle_mt_from fuel pos g v = Ret (Some (w, g')) ->
  exists choices, below pos choices /\ shuffle_from pos choices v = Ret w /\ mt_typed g'.
Proof.
  induction pos as [|p IH]; intros g v w g' T Hp H; cbn [shuffle_mt_from] in H.
  - inversion H; subst. exists []. split; [exact I|auto].
  - apply obind_ret in H as (r & Er & H). destruct r as [[i g1]|]; [|discriminate].
    assert (Ew : w32 (N.of_nat (S p)) = N.of_nat (S p)) by (unfold w32; now apply N.mod_small).
    rewrite Ew in Er. apply rand_below_total_word in Er as [Hi T1]; auto.
    destruct (Nat.eqb_spec (N.to_nat i) (S p)) as [Ei|Ei].
    + apply IH in H as (cs & Hb & Es & T2); auto; [|lia].
      exists (S p :: cs). split; [split; auto|]. cbn [shuffle_from]. rewrite Nat.eqb_refl. auto.
    + apply obind_ret in H as (v' & Ev & H). apply IH in H as (cs & Hb & Es & T2); auto; [|lia].
      exists (N.to_nat i :: cs). split; [split; [lia|auto]|]. cbn [shuffle_from].
      destruct (Nat.eqb_spec (N.to_nat i) (S p)); [lia|]. rewrite Ev. auto.
Qed.

Lemma shuffle_mt_perm fuel g v w g' : mt_typed g -> (N.of_nat (length v) <= 2 ^ 32)%N ->
  shuffle_mt fuel g v = Ret (Some (w, g')) -> Permutation v w /\ mt_typed g'.
Proof.
  intros T L H. unfold shuffle_mt in H. destruct (length v) as [|n] eqn:E.
  - inversion H; subst. auto.
  - apply shuffle_mt_from_choices in H as (cs & Hb & Es & T'); auto; [|lia].
    destruct (shuffle_from_perm n cs v) as (w' & Ew & P & _); auto; [lia|].
    rewrite Es in Ew; inversion Ew; subst. auto.
Qed.

(** No undefined behaviour, whatever the generator returns. *)
Lemma shuffle_mt_from_defined fuel pos : forall g v, mt_typed g -> (N.of_nat pos < 2 ^ 32)%N -> pos < length v ->
  exists r, shuffle_mt_from fuel pos g v = Ret r.
Proof.
  induction pos as [|p IH]; intros g v T Hp Hv; cbn [shuffle_mt_from]; [eauto|].
  assert (Ew : w32 (N.of_nat (S p)) = N.of_nat (S p)) by (unfold w32; now apply N.mod_small).
  rewrite Ew. destruct (rand_below_defined fuel (N.of_nat (S p)) g T) as (r & Er). rewrite Er. cbn [obind].
  destruct r as [[i g1]|]; [|eauto]. apply rand_below_total_word in Er as [Hi T1]; auto.
  destruct (Nat.eqb_spec (N.to_nat i) (S p)); [apply IH; auto; lia|].
  destruct (swap_at_ok v (S p) (N.to_nat i)) as (v' & E & L & _); try lia. rewrite E. cbn [obind].
  apply IH; auto; lia.
Qed.
Lemma shuffle_mt_defined fuel g v : mt_typed g -> (N.of_nat (length v) <= 2 ^ 32)%N ->
  exists r, shuffle_mt fuel g v = Ret r.
Proof.
  intros T L. unfold shuffle_mt. destruct (length v) as [|n] eqn:E; [eauto|].
  apply shuffle_mt_from_defined; auto; lia.
Qed.
End S.
