From Coq Require Import ZArith Reals Bool SpecFloat Lia Lra List.
From Flocq Require Import Core IEEE754.BinarySingleNaN.
From Verif Require Import Base Scalar OrdLib RLib B64Lib B64Ops FloatOps RoundLib RSpec ConstModel ConstProofs VecModel RotModel VecSpec ConstSpec RoundSpec RoundProofs RoundProofs2 RoundProofs3.
Import ListNotations.
Open Scope R_scope.

(** ** Square roots *)
Definition low : R := bpow radix2 (-990).
Lemma low_pos : 0 < low. Proof. apply bpow_gt_0. Qed.
Lemma n_u_small n k : (Z.of_nat n <= 2 ^ 26)%Z -> (k <= 50)%nat -> (INR n + INR k) * u64 <= / 2 ^ 26.
Proof.
  intros L K. destruct (up_small (n + k) ltac:(lia)) as [_ B]. rewrite plus_INR in B. pose proof u64_pos. lra.
Qed.
Lemma tiny_rel n N : (Z.of_nat n <= 2 ^ 26)%Z -> low <= N -> 2 * INR n * eta64 <= u64 * N.
Proof.
  intros L B. assert (I : INR n <= bpow radix2 26).
  { rewrite INR_IZR_INZ. change (bpow radix2 26) with (IZR (2 ^ 26)). now apply IZR_le. }
  pose proof eta64_pos. pose proof u64_pos as [U _]. pose proof (pos_INR n).
  apply Rle_trans with (bpow radix2 1 * bpow radix2 26 * eta64).
  - apply Rmult_le_compat_r; [lra|]. change (bpow radix2 1) with 2. lra.
  - unfold eta64. rewrite <- !bpow_plus. apply Rle_trans with (u64 * low); [|apply Rmult_le_compat_l; lra].
    unfold u64, low. rewrite <- bpow_plus. apply bpow_le. lia.
Qed.
(** a square root taken of a perturbed square *)
Lemma sqrt_rel s N e : 0 <= s -> 0 < N -> 0 <= e -> Rabs (s - N) <= e * N -> Rabs (sqrt s - sqrt N) <= e * sqrt N.
Proof.
  intros S0 N0 E H. pose proof (sqrt_lt_R0 N N0) as R. pose proof (sqrt_pos s).
  assert (Q : Rabs (sqrt s - sqrt N) * (sqrt s + sqrt N) = Rabs (s - N)).
  { rewrite <- (Rabs_pos_eq (sqrt s + sqrt N)) by lra. rewrite <- Rabs_mult. f_equal.
    replace ((sqrt s - sqrt N) * (sqrt s + sqrt N)) with (sqrt s * sqrt s - sqrt N * sqrt N) by ring. rewrite !sqrt_sqrt; lra. }
  apply Rmult_le_reg_r with (sqrt N); [lra|]. rewrite Rmult_assoc, sqrt_sqrt by lra.
  eapply Rle_trans; [|exact H]. rewrite <- Q. apply Rmult_le_compat_l; [apply Rabs_pos|lra].
Qed.
Lemma sqrt_round s N k : 0 <= s -> low <= N -> 0 <= k -> k * u64 <= / 2 ^ 26 ->
  Rabs (s - N) <= k * u64 * N -> Rabs (rnd (sqrt s) - sqrt N) <= (k + 2) * u64 * sqrt N.
Proof.
  intros S0 Ln K Ku H. pose proof low_pos. pose proof u64_pos as [U U4].
  assert (KU0 : 0 <= k * u64) by (apply Rmult_le_pos; lra).
  pose proof (sqrt_rel s N (k * u64) S0 ltac:(lra) KU0 H) as E.
  assert (R : 0 < sqrt N) by (apply sqrt_lt_R0; lra).
  simpl in Ku.
  assert (Sn : Rabs (sqrt s) <= (1 + k * u64) * sqrt N).
  { pose proof (Rabs_triang (sqrt s - sqrt N) (sqrt N)) as P. replace (sqrt s - sqrt N + sqrt N) with (sqrt s) in P by ring.
    rewrite (Rabs_pos_eq (sqrt N)) in P by lra. lra. }
  assert (Lo : bpow radix2 (-1022) <= Rabs (sqrt s)).
  { apply Rle_trans with (bpow radix2 (-1) * bpow radix2 (-495)); [rewrite <- bpow_plus; apply bpow_le; lia|].
    assert (LN : bpow radix2 (-495) <= sqrt N).
    { rewrite <- (sqrt_square (bpow radix2 (-495))) by apply bpow_ge_0. apply sqrt_le_1_alt. rewrite <- bpow_plus. exact Ln. }
    rewrite Rabs_pos_eq by apply sqrt_pos. apply Rabs_le_inv in E. change (bpow radix2 (-1)) with (/2).
    assert (k * u64 * sqrt N <= / 4 * sqrt N) by (apply Rmult_le_compat_r; lra). lra. }
  pose proof (rnd_rel_err _ Lo) as Re.
  pose proof (Rabs_triang (rnd (sqrt s) - sqrt s) (sqrt s - sqrt N)) as P.
  replace (rnd (sqrt s) - sqrt s + (sqrt s - sqrt N)) with (rnd (sqrt s) - sqrt N) in P by ring.
  assert (u64 * Rabs (sqrt s) <= u64 * ((1 + k * u64) * sqrt N)) by (apply Rmult_le_compat_l; lra).
  assert (u64 * (1 + k * u64) * sqrt N <= u64 * 2 * sqrt N) by (apply Rmult_le_compat_r; [lra|]; apply Rmult_le_compat_l; lra). lra.
Qed.

Section B.
Variable m : libm.

Lemma mag_ok n a : (Z.of_nat n <= 2 ^ 26)%Z -> doubles n a -> norm2 n (rco a) <= big / 2 ->
  let s := mag (H := B64 m) n a in
  fl s /\ 0 <= val s /\ (low <= norm2 n (rco a) -> Rabs (val s - norm n (rco a)) <= (INR n + 5) * u64 * norm n (rco a)).
Proof.
  intros L Da B s. destruct (sqr_mag_ok m n a L Da B) as (Fs & Ps & Es).
  destruct (sqrt_ok _ Fs Ps) as [F E]. split; [exact F|]. unfold s, mag. cbn [nsqrt B64]. rewrite E.
  split; [apply rnd_nonneg, sqrt_pos|]. intros Lo.
  pose proof (tiny_rel n _ L Lo) as T. pose proof (pos_INR n).
  replace (INR n + 5) with (INR n + 3 + 2) by ring. apply sqrt_round; auto; try lra.
  pose proof (n_u_small n 3 L ltac:(lia)). simpl (INR 3) in *. lra.
Qed.

Lemma distance_ok n p q : (Z.of_nat n <= 2 ^ 26)%Z -> doubles n p -> doubles n q -> dist2 n (rco p) (rco q) <= big / 2 ->
  let d := distance (H := B64 m) n p q in
  fl d /\ 0 <= val d /\
  (low <= dist2 n (rco p) (rco q) ->
   Rabs (val d - dist n (rco p) (rco q)) <= (INR n + 7) * u64 * dist n (rco p) (rco q) \/
   val d = 0 /\ forall A B, (forall i, (i < n)%nat -> Rabs (rco p i) <= A) -> (forall i, (i < n)%nat -> Rabs (rco q i) <= B) ->
      dist2 n (rco p) (rco q) <= 3 * epsR * Rmax 1 (Rmin A B)).
Proof.
  intros L Dp Dq B d. destruct (squared_distance_ok m n p q L Dp Dq B) as (Fs & Ps & s & S0 & Es & Cs).
  destruct (sqrt_ok _ Fs Ps) as [F E]. split; [exact F|]. unfold d, distance. cbn [nsqrt B64]. rewrite E.
  split; [apply rnd_nonneg, sqrt_pos|]. intros Lo.
  pose proof (tiny_rel n _ L Lo) as T. pose proof (pos_INR n). pose proof (n_u_small n 5 L ltac:(lia)) as K.
  replace (INR 5) with 5 in K by (simpl; lra).
  assert (Es' : Rabs (s - dist2 n (rco p) (rco q)) <= (INR n + 5) * u64 * dist2 n (rco p) (rco q)) by lra.
  destruct Cs as [Cs|[Cs Hs]].
  - left. rewrite Cs. unfold dist. replace (INR n + 7) with (INR n + 5 + 2) by ring. apply sqrt_round; auto; lra.
  - right. split; [rewrite Cs, sqrt_0; apply rnd_0|]. intros A B' HA HB. specialize (Hs A B' HA HB).
    apply Rabs_le_inv in Es'. set (D := dist2 n (rco p) (rco q)) in *. pose proof low_pos.
    assert ((INR n + 5) * u64 * D <= / 2 ^ 26 * D) by (apply Rmult_le_compat_r; lra).
    assert (E0 : 0 < epsR) by (unfold epsR; rewrite eps_val; pose proof (bpow_gt_0 radix2 (-52)); lra).
    assert (M : 1 <= Rmax 1 (Rmin A B')) by apply Rmax_l.
    assert (H3 : eta64 <= / 4 * epsR).
    { unfold epsR. rewrite eps_val. unfold eta64. apply Rle_trans with (bpow radix2 (-52)); [apply bpow_le; lia|]. pose proof (bpow_gt_0 radix2 (-52)); lra. }
    pose proof u64_pos as [U _]. assert (U8 : u64 <= / 8) by (change (/8) with (bpow radix2 (-3)); apply bpow_le; lia).
    set (X := Rmax 1 (Rmin A B')) in *.
    assert (2 * epsR * (1 + u64) * X <= 2 * epsR * (1 + / 8) * X).
    { apply Rmult_le_compat_r; [lra|]. apply Rmult_le_compat_l; lra. }
    assert (epsR <= epsR * X) by nra.
    assert (D * (1 - / 2 ^ 26) <= 5 / 2 * epsR * X) by lra.
    assert (C : 5 / 6 <= 1 - / 2 ^ 26) by (simpl; lra).
    assert (D * (5 / 6) <= D * (1 - / 2 ^ 26)) by (apply Rmult_le_compat_l; lra). lra.
Qed.

(** ** Coordinatewise operations *)
Lemma rco_tab n f b i : (i < n)%nat -> rco (mkC (tab n f) b) i = val (f i).
Proof. intros Hi. unfold rco. cbn [el]. rewrite nth_tab by auto. reflexivity. Qed.
Lemma doubles_tab n f b : (forall i, (i < n)%nat -> fl (f i)) -> doubles n (mkC (tab n f) b).
Proof.
  intros H. split; [unfold dims; cbn [el]; apply tab_length|]. cbn [el]. unfold tab. apply Forall_map, Forall_forall.
  intros i Hi. apply in_seq in Hi. apply fl_iff, H. lia.
Qed.
Lemma add_round n a b : doubles n a -> doubles n b -> (forall i, (i < n)%nat -> Rabs (rco a i + rco b i) <= big) ->
  doubles n (vec_add (H := B64 m) n a b) /\ forall i, (i < n)%nat -> rco (vec_add (H := B64 m) n a b) i = nearest (rco a i + rco b i).
Proof.
  intros Da Db B.
  assert (P : forall i, (i < n)%nat -> fl (nadd (Num := B64 m) (at_ (H := B64 m) a i) (at_ (H := B64 m) b i)) /\
      val (nadd (Num := B64 m) (at_ (H := B64 m) a i) (at_ (H := B64 m) b i)) = rnd (rco a i + rco b i)).
  { intros i Hi. apply add_ok; rewrite ?co_at; try (eapply co_fl; eauto). apply B, Hi. }
  split; [apply doubles_tab; intros; now apply P|]. intros i Hi. unfold vec_add. rewrite rco_tab by auto. now apply P.
Qed.
Lemma sub_round n a b : doubles n a -> doubles n b -> (forall i, (i < n)%nat -> Rabs (rco a i - rco b i) <= big) ->
  doubles n (vec_sub (H := B64 m) n a b) /\ forall i, (i < n)%nat -> rco (vec_sub (H := B64 m) n a b) i = nearest (rco a i - rco b i).
Proof.
  intros Da Db B.
  assert (P : forall i, (i < n)%nat -> fl (nsub (Num := B64 m) (at_ (H := B64 m) a i) (at_ (H := B64 m) b i)) /\
      val (nsub (Num := B64 m) (at_ (H := B64 m) a i) (at_ (H := B64 m) b i)) = rnd (rco a i - rco b i)).
  { intros i Hi. apply sub_ok; rewrite ?co_at; try (eapply co_fl; eauto). apply B, Hi. }
  split; [apply doubles_tab; intros; now apply P|]. intros i Hi. unfold vec_sub. rewrite rco_tab by auto. now apply P.
Qed.
Lemma scale_round n a c : doubles n a -> fl c -> (forall i, (i < n)%nat -> Rabs (rco a i * val c) <= big) ->
  doubles n (vec_scale (H := B64 m) n a c) /\ forall i, (i < n)%nat -> rco (vec_scale (H := B64 m) n a c) i = nearest (rco a i * val c).
Proof.
  intros Da Fc B.
  assert (P : forall i, (i < n)%nat -> fl (nmul (Num := B64 m) (at_ (H := B64 m) a i) c) /\ val (nmul (Num := B64 m) (at_ (H := B64 m) a i) c) = rnd (rco a i * val c)).
  { intros i Hi. apply mul_ok; rewrite ?co_at; auto; try (eapply co_fl; eauto). apply B, Hi. }
  split; [apply doubles_tab; intros; now apply P|]. intros i Hi. unfold vec_scale. rewrite rco_tab by auto. now apply P.
Qed.
Lemma div_round n a c : doubles n a -> fl c -> val c <> 0 -> (forall i, (i < n)%nat -> Rabs (rco a i / val c) <= big) ->
  doubles n (vec_div (H := B64 m) n a c) /\ forall i, (i < n)%nat -> rco (vec_div (H := B64 m) n a c) i = nearest (rco a i / val c).
Proof.
  intros Da Fc N B.
  assert (P : forall i, (i < n)%nat -> fl (ndiv (Num := B64 m) (at_ (H := B64 m) a i) c) /\ val (ndiv (Num := B64 m) (at_ (H := B64 m) a i) c) = rnd (rco a i / val c)).
  { intros i Hi. apply div_ok; rewrite ?co_at; auto; try (eapply co_fl; eauto). apply B, Hi. }
  split; [apply doubles_tab; intros; now apply P|]. intros i Hi. unfold vec_div. rewrite rco_tab by auto. now apply P.
Qed.
Lemma neg_exact n a : doubles n a ->
  doubles n (vec_neg (H := B64 m) n a) /\ forall i, (i < n)%nat -> rco (vec_neg (H := B64 m) n a) i = - rco a i.
Proof.
  intros Da.
  assert (P : forall i, (i < n)%nat -> fl (nopp (Num := B64 m) (at_ (H := B64 m) a i)) /\ val (nopp (Num := B64 m) (at_ (H := B64 m) a i)) = - rco a i).
  { intros i Hi. apply opp_ok; rewrite ?co_at; eapply co_fl; eauto. }
  split; [apply doubles_tab; intros; now apply P|]. intros i Hi. unfold vec_neg. rewrite rco_tab by auto. now apply P.
Qed.

(** ** A matrix applied to a vector *)
Lemma prod_round n M v : (Z.of_nat n <= 2 ^ 26)%Z -> mdoubles m n M -> doubles n v ->
  (forall i, (i < n)%nat -> Rsum n (fun j => Rabs (mco m M i j * rco v j)) <= big / 2) ->
  let w := prod_mv (H := B64 m) n M v in
  doubles n w /\ forall i, (i < n)%nat ->
    Rabs (rco w i - Rsum n (fun j => mco m M i j * rco v j)) <= (INR n + 2) * u64 * Rsum n (fun j => Rabs (mco m M i j * rco v j)) + 2 * INR n * eta64.
Proof.
  intros L DM Dv B w. unfold mdoubles in DM.
  assert (P : forall i, (i < n)%nat -> _) by (intros i Hi; refine (dots_ok m n (fun j => elem (H := B64 m) M i j) (fun j => at_ (H := B64 m) v j) L _ (B i Hi));
    intros j Hj; split; [apply fl_iff, DM; auto|rewrite co_at; eapply co_fl; eauto]).
  split; [apply doubles_tab; intros; now apply P|]. intros i Hi. unfold w, prod_mv. rewrite rco_tab by auto. now apply P.
Qed.
Lemma inv_prod_round n M v : (Z.of_nat n <= 2 ^ 26)%Z -> mdoubles m n M -> doubles n v ->
  (forall i, (i < n)%nat -> Rsum n (fun j => Rabs (mco m M j i * rco v j)) <= big / 2) ->
  let w := inv_prod_mv (H := B64 m) n M v in
  doubles n w /\ forall i, (i < n)%nat ->
    Rabs (rco w i - Rsum n (fun j => mco m M j i * rco v j)) <= (INR n + 2) * u64 * Rsum n (fun j => Rabs (mco m M j i * rco v j)) + 2 * INR n * eta64.
Proof.
  intros L DM Dv B w. unfold mdoubles in DM.
  assert (P : forall i, (i < n)%nat -> _) by (intros i Hi; refine (dots_ok m n (fun j => elem (H := B64 m) M j i) (fun j => at_ (H := B64 m) v j) L _ (B i Hi));
    intros j Hj; split; [apply fl_iff, DM; auto|rewrite co_at; eapply co_fl; eauto]).
  split; [apply doubles_tab; intros; now apply P|]. intros i Hi. unfold w, inv_prod_mv. rewrite rco_tab by auto. now apply P.
Qed.
End B.
