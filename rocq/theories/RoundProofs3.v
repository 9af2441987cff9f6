From Coq Require Import ZArith Reals Bool SpecFloat Lia Lra List.
From Flocq Require Import Core IEEE754.BinarySingleNaN.
From Verif Require Import Base Scalar OrdLib RLib B64Lib B64Ops FloatOps RoundLib RSpec ConstModel ConstProofs VecModel VecSpec ConstSpec RoundSpec RoundProofs RoundProofs2.
Import ListNotations.
Open Scope R_scope.

(** ** One rounding after another *)
Lemma mul_term x y : fl x -> fl y -> Rabs (val x * val y) <= big ->
  fl (SFmul prec64 emax64 x y) /\ Rabs (val (SFmul prec64 emax64 x y) - val x * val y) <= (up 1 - 1) * Rabs (val x * val y) + eta64.
Proof.
  intros Fx Fy B. destruct (mul_ok x y Fx Fy B) as [F E]. split; auto. rewrite E. unfold up. simpl. rewrite Rmult_1_r.
  pose proof (rnd_err (val x * val y)). lra.
Qed.
Lemma sub_term x y : fl x -> fl y -> Rabs (val x - val y) <= big ->
  fl (SFsub prec64 emax64 x y) /\ Rabs (val (SFsub prec64 emax64 x y) - (val x - val y)) <= u64 * Rabs (val x - val y).
Proof.
  intros Fx Fy B. destruct (sub_ok x y Fx Fy B) as [F E]. split; auto. rewrite E.
  apply (rnd_add_err (val x) (- val y)); [now apply fl_format|]. apply generic_format_opp. now apply fl_format.
Qed.
Lemma abs_rel d D u : 0 <= u -> Rabs (d - D) <= u * Rabs D -> Rabs d <= (1 + u) * Rabs D.
Proof. intros U H. pose proof (Rabs_triang (d - D) D) as P. replace (d - D + D) with d in P by ring. lra. Qed.
Lemma sqr_rel d D u : 0 <= u -> Rabs (d - D) <= u * Rabs D -> Rabs (d * d - D * D) <= ((1 + u) * (1 + u) - 1) * Rabs (D * D).
Proof.
  intros U H. replace (d * d - D * D) with ((d - D) * (d - D) + 2 * D * (d - D)) by ring.
  eapply Rle_trans; [apply Rabs_triang|]. rewrite !Rabs_mult. rewrite (Rabs_pos_eq 2) by lra.
  pose proof (Rabs_pos D). pose proof (Rabs_pos (d - D)).
  assert (Rabs (d - D) * Rabs (d - D) <= (u * Rabs D) * (u * Rabs D)) by (apply Rmult_le_compat; auto).
  assert (Rabs D * Rabs (d - D) <= Rabs D * (u * Rabs D)) by (apply Rmult_le_compat_l; auto). lra.
Qed.
Lemma sq_term x y : fl x -> fl y -> (val x - val y) * (val x - val y) <= big / 2 ->
  let d := SFsub prec64 emax64 x y in
  fl (SFmul prec64 emax64 d d) /\
  Rabs (val (SFmul prec64 emax64 d d) - (val x - val y) * (val x - val y)) <= (up 3 - 1) * Rabs ((val x - val y) * (val x - val y)) + eta64 /\
  0 <= val (SFmul prec64 emax64 d d).
Proof.
  intros Fx Fy B d. set (D := val x - val y) in *. pose proof u64_pos as [U U4]. pose proof big_ge.
  assert (BD : Rabs D <= big).
  { destruct (Rle_lt_dec (Rabs D) 1); [lra|]. rewrite <- (Rabs_pos_eq (D * D)) in B by nra. rewrite Rabs_mult in B. nra. }
  destruct (sub_term x y Fx Fy BD) as [Fd Ed]. fold d in Fd, Ed. fold D in Ed.
  pose proof (abs_rel _ _ _ (Rlt_le _ _ U) Ed) as Ad.
  pose proof (sqr_rel _ _ _ (Rlt_le _ _ U) Ed) as Sd.
  assert (DD : Rabs (D * D) = D * D) by (apply Rabs_pos_eq; nra).
  assert (B2 : Rabs (val d * val d) <= big).
  { pose proof (Rabs_triang (val d * val d - D * D) (D * D)) as P. replace (val d * val d - D * D + D * D) with (val d * val d) in P by ring.
    rewrite DD in *. assert (((1 + u64) * (1 + u64)) * (D * D) <= 2 * (D * D)) by (apply Rmult_le_compat_r; nra). lra. }
  destruct (mul_ok d d Fd Fd B2) as [F E]. split; auto. rewrite E. split; [|apply rnd_nonneg; nra].
  pose proof (rnd_err (val d * val d)) as R.
  pose proof (Rabs_triang (rnd (val d * val d) - val d * val d) (val d * val d - D * D)) as P.
  replace (rnd (val d * val d) - val d * val d + (val d * val d - D * D)) with (rnd (val d * val d) - D * D) in P by ring.
  assert (Q : Rabs (val d * val d) <= (1 + u64) * (1 + u64) * Rabs (D * D)).
  { pose proof (Rabs_triang (val d * val d - D * D) (D * D)) as P'. replace (val d * val d - D * D + D * D) with (val d * val d) in P' by ring. lra. }
  assert (u64 * Rabs (val d * val d) <= u64 * ((1 + u64) * (1 + u64) * Rabs (D * D))) by (apply Rmult_le_compat_l; lra).
  unfold up. simpl. lra.
Qed.

Section B.
Variable m : libm.

Lemma co_at (v : coords spec_float) i : at_ (H := B64 m) v i = nth i (el v) (S754_zero false).
Proof. reflexivity. Qed.
Lemma rco_val (v : coords spec_float) i : val (nth i (el v) (S754_zero false)) = rco v i.
Proof. reflexivity. Qed.
Lemma term_le n f i b : (forall j, (j < n)%nat -> 0 <= f j) -> Rsum n f <= b -> (i < n)%nat -> f i <= b.
Proof. intros P B Hi. pose proof (Rsum_term_le n f i P Hi). lra. Qed.

(** sums of products of two coordinate functions *)
Lemma dots_ok n (f h : nat -> spec_float) : (Z.of_nat n <= 2 ^ 26)%Z -> (forall i, (i < n)%nat -> fl (f i) /\ fl (h i)) ->
  Rsum n (fun i => Rabs (val (f i) * val (h i))) <= big / 2 ->
  let s := nsum (H := B64 m) n (fun i => nmul (Num := B64 m) (f i) (h i)) in
  fl s /\ Rabs (val s - Rsum n (fun i => val (f i) * val (h i))) <=
     (INR n + 2) * u64 * Rsum n (fun i => Rabs (val (f i) * val (h i))) + 2 * INR n * eta64 /\
  ((forall i, (i < n)%nat -> 0 <= val (f i) * val (h i)) -> 0 <= val s) /\
  ((forall i, (i < n)%nat -> val (f i) * val (h i) = 0) -> val s = 0).
Proof.
  intros L F B s. pose proof big_pos.
  assert (T : forall i, (i < n)%nat -> Rabs (val (f i) * val (h i)) <= big).
  { intros i Hi. apply Rle_trans with (big / 2); [|lra].
    apply (term_le n (fun i => Rabs (val (f i) * val (h i))) i); auto. intros; apply Rabs_pos. }
  destruct (nsum_close m n 1 (fun i => nmul (Num := B64 m) (f i) (h i)) (fun i => val (f i) * val (h i)) L ltac:(lia)) as (P & Q & Q1 & Q2); auto.
  { intros i Hi. destruct (F i Hi). apply mul_term; auto. }
  split; auto. rewrite plus_INR in Q. simpl (INR 1) in Q. replace (INR n + 1 + 1) with (INR n + 2) in Q by ring. split; [exact Q|]. split.
  - intros K. apply Q1. intros i Hi. destruct (F i Hi). destruct (mul_ok (f i) (h i)) as [_ E]; auto.
    cbn [nmul B64]. rewrite E. apply rnd_nonneg, K, Hi.
  - intros K. apply Q2. intros i Hi. destruct (F i Hi). destruct (mul_ok (f i) (h i)) as [_ E]; auto.
    cbn [nmul B64]. rewrite E, K by auto. apply rnd_0.
Qed.

Lemma inner_rco n (a b : coords spec_float) : Rsum n (fun i => rco a i * rco b i) = inner n (rco a) (rco b).
Proof. reflexivity. Qed.

Lemma ge_clamp s d : fl s -> fl d ->
  let c := if nleb (Num := B64 m) d (nabs (Num := B64 m) s) then s else n0 (H := B64 m) in
  fl c /\ (val c = val s /\ (val d <= Rabs (val s) \/ True) \/ val c = 0 /\ Rabs (val s) < val d).
Proof.
  intros Fs Fd c. destruct (abs_ok s Fs) as [Fa Ea]. unfold c. cbn [nleb nabs B64]. rewrite leb_ok by auto. rewrite Ea.
  destruct (Rle_bool_spec (val d) (Rabs (val s))); [split; auto|]. split; [apply n0_ok|]. right. split; [reflexivity|lra].
Qed.

Lemma dot_ok n a b : (Z.of_nat n <= 2 ^ 26)%Z -> doubles n a -> doubles n b ->
  Rsum n (fun i => Rabs (rco a i * rco b i)) <= big / 2 ->
  let d := dot (H := B64 m) n a b in
  fl d /\ exists s, Rabs (s - inner n (rco a) (rco b)) <= (INR n + 2) * u64 * Rsum n (fun i => Rabs (rco a i * rco b i)) + 2 * INR n * eta64 /\
   (val d = s \/ val d = 0 /\
    forall A B, (forall i, (i < n)%nat -> Rabs (rco a i) <= A) -> (forall i, (i < n)%nat -> Rabs (rco b i) <= B) ->
      Rabs s <= 2 * epsR * (1 + u64) * Rmin A B + eta64).
Proof.
  intros L Da Db B d.
  destruct (dots_ok n (fun i => at_ (H := B64 m) a i) (fun i => at_ (H := B64 m) b i) L) as (Fs & Es & _ & Zs).
  { intros i Hi. split; rewrite co_at; eapply co_fl; eauto. }
  { exact B. }
  set (s := nsum (H := B64 m) n (fun i => nmul (Num := B64 m) (at_ (H := B64 m) a i) (at_ (H := B64 m) b i))) in *.
  destruct (delta_ok m n a b Da Db) as (Fd & Pd & Hd).
  destruct (ge_clamp s _ Fs Fd) as [Fc Hc].
  split; [exact Fc|]. exists (val s). split; [exact Es|].
  change (val d) with (val (if nleb (Num := B64 m) (scale_eps_arr (H := B64 m) (el a) (el b) b64_eps) (nabs (Num := B64 m) s) then s else n0 (H := B64 m))).
  destruct Hc as [[E _]|[E Hs]]; [left; exact E|].
  destruct Hd as [Z|[Z|Hd]].
  - left. rewrite E. symmetry. apply Zs. intros i Hi. rewrite co_at, rco_val, Z by auto. ring.
  - left. rewrite E. symmetry. apply Zs. intros i Hi. rewrite (co_at b), (rco_val b), Z by auto. ring.
  - right. split; auto. intros A B' HA HB. specialize (Hd A B' HA HB). lra.
Qed.

Lemma norm2_abs n a : Rsum n (fun i => Rabs (rco a i * rco a i)) = norm2 n (rco a).
Proof. apply Rsum_ext. intros. apply Rabs_pos_eq. nra. Qed.

Lemma sqr_mag_ok n a : (Z.of_nat n <= 2 ^ 26)%Z -> doubles n a -> norm2 n (rco a) <= big / 2 ->
  let s := sqr_mag (H := B64 m) n a in
  fl s /\ 0 <= val s /\ Rabs (val s - norm2 n (rco a)) <= (INR n + 2) * u64 * norm2 n (rco a) + 2 * INR n * eta64.
Proof.
  intros L Da B s.
  destruct (dots_ok n (fun i => at_ (H := B64 m) a i) (fun i => at_ (H := B64 m) a i) L) as (Fs & Es & Ps & _).
  { intros i Hi. split; rewrite co_at; eapply co_fl; eauto. }
  { rewrite <- norm2_abs in B. exact B. }
  split; [exact Fs|]. split; [apply Ps; intros; nra|]. rewrite <- norm2_abs at 2. exact Es.
Qed.

Lemma squared_distance_ok n p q : (Z.of_nat n <= 2 ^ 26)%Z -> doubles n p -> doubles n q -> dist2 n (rco p) (rco q) <= big / 2 ->
  let d := squared_distance (H := B64 m) n p q in
  fl d /\ 0 <= val d /\ exists s, 0 <= s /\
   Rabs (s - dist2 n (rco p) (rco q)) <= (INR n + 4) * u64 * dist2 n (rco p) (rco q) + 2 * INR n * eta64 /\
   (val d = s \/ val d = 0 /\
    forall A B, (forall i, (i < n)%nat -> Rabs (rco p i) <= A) -> (forall i, (i < n)%nat -> Rabs (rco q i) <= B) ->
      s <= 2 * epsR * (1 + u64) * Rmax 1 (Rmin A B) + eta64).
Proof.
  intros L Dp Dq B d.
  set (f := fun i => let diff := nsub (Num := B64 m) (at_ (H := B64 m) p i) (at_ (H := B64 m) q i) in nmul (Num := B64 m) diff diff).
  set (g := fun i => (rco p i - rco q i) * (rco p i - rco q i)).
  assert (G0 : forall i, 0 <= g i) by (intros; apply Rle_0_sqr).
  assert (GA : Rsum n (fun i => Rabs (g i)) = dist2 n (rco p) (rco q)).
  { apply Rsum_ext. intros. apply Rabs_pos_eq, G0. }
  assert (T : forall i, (i < n)%nat -> fl (f i) /\ Rabs (val (f i) - g i) <= (up 3 - 1) * Rabs (g i) + eta64 /\ 0 <= val (f i)).
  { intros i Hi. apply sq_term; rewrite ?co_at; try (eapply co_fl; eauto).
    apply (term_le n g i); auto. }
  destruct (nsum_close m n 3 f g L ltac:(lia)) as (Fs & Es & Ps & _).
  { intros i Hi. destruct (T i Hi) as (? & ? & _). auto. }
  { rewrite GA. exact B. }
  rewrite GA in Es. change (Rsum n g) with (dist2 n (rco p) (rco q)) in Es.
  set (s := nsum (H := B64 m) n f) in *.
  assert (S0 : 0 <= val s) by (apply Ps; intros i Hi; apply (T i Hi)).
  destruct (delta_ok m n p q Dp Dq) as (Fd & Pd & Hd).
  destruct (ge_clamp s _ Fs Fd) as [Fc Hc].
  change (if nleb (Num := B64 m) (scale_eps_arr (H := B64 m) (el p) (el q) b64_eps) (nabs (Num := B64 m) s) then s else n0 (H := B64 m)) with d in Fc, Hc.
  split; [exact Fc|]. split; [destruct Hc as [[E _]|[E _]]; change (0 <= val d); rewrite E; lra|].
  exists (val s). split; auto. split.
  { rewrite plus_INR in Es. simpl (INR 3) in Es. replace (INR n + 4) with (INR n + (1 + 1 + 1) + 1) by ring. exact Es. }
  destruct Hc as [[E _]|[E Hs]]; [left; exact E|]. right. split; [exact E|]. intros A B' HA HB.
  rewrite Rabs_pos_eq in Hs by auto.
  assert (E0 : 0 < epsR) by (unfold epsR; rewrite eps_val; pose proof (bpow_gt_0 radix2 (-52)); lra).
  pose proof u64_pos as [U _]. pose proof eta64_pos.
  assert (M : 1 <= Rmax 1 (Rmin A B')) by apply Rmax_l.
  assert (K0 : 0 <= 2 * epsR * (1 + u64)).
  { clear -E0 U. set (e := epsR) in *. clearbody e. apply Rmult_le_pos; lra. }
  assert (K : 2 * epsR * (1 + u64) <= 2 * epsR * (1 + u64) * Rmax 1 (Rmin A B')).
  { rewrite <- (Rmult_1_r (2 * epsR * (1 + u64))) at 1. apply Rmult_le_compat_l; lra. }
  assert (Z : (forall i, (i < n)%nat -> rco p i = 0) \/ (forall i, (i < n)%nat -> rco q i = 0) -> val s <= 2 * epsR * (1 + u64)).
  { intros Z. apply Rle_trans with (val (scale_eps_arr (H := B64 m) (el p) (el q) b64_eps)); [lra|].
    unfold scale_eps_arr.
    destruct Dp as [Lp Fp]. destruct Dq as [Lq Fq]. unfold dims in *.
    assert (Fp' : Forall fl (el p)) by (eapply Forall_impl; [|exact Fp]; intros; now apply fl_iff).
    assert (Fq' : Forall fl (el q)) by (eapply Forall_impl; [|exact Fq]; intros; now apply fl_iff).
    destruct (max_abs_ok m _ Fp') as [Mp Ep]. destruct (max_abs_ok m _ Fq') as [Mq Eq].
    destruct (scale_eps_ok m _ _ Mp Mq) as [_ Ed]. rewrite Ed, Ep, Eq.
    rewrite scale_eps_zero.
    - rewrite rnd_val by apply eps_double. unfold epsR in *. nra.
    - assert (ZZ : forall v, length (el v) = n -> (forall i, (i < n)%nat -> rco v i = 0) -> max_abs (H := Rnum (val b64_eps)) (map val (el v)) = 0).
      { intros v Lv H0. apply max_abs_zero. intros r Hr. apply in_map_iff in Hr. destruct Hr as (z & <- & Hz).
        apply (In_nth _ _ (S754_zero false)) in Hz. destruct Hz as (i & Hi & <-). apply H0. lia. }
      destruct Z as [Z|Z]; [left|right]; apply ZZ; auto. }
  destruct Hd as [Hz|[Hz|Hd]]; [pose proof (Z (or_introl Hz)); lra|pose proof (Z (or_intror Hz)); lra|].
  specialize (Hd A B' HA HB). assert (Rmin A B' <= Rmax 1 (Rmin A B')) by apply Rmax_r.
  assert (2 * epsR * (1 + u64) * Rmin A B' <= 2 * epsR * (1 + u64) * Rmax 1 (Rmin A B')); [|lra].
  apply Rmult_le_compat_l; auto.
Qed.
End B.
