From Coq Require Import ZArith Reals Bool SpecFloat Lia Lra List.
From Flocq Require Import Core IEEE754.BinarySingleNaN.
From Verif Require Import Base Scalar OrdLib RLib B64Lib B64Ops FloatOps RoundLib RSpec ConstModel ConstProofs VecModel VecSpec ConstSpec RoundSpec RoundProofs.
Import ListNotations.
Open Scope R_scope.

Lemma fl_iff x : fl x <-> finite_double x.
Proof. unfold fl, finite_double, finite. destruct x; simpl; intuition congruence. Qed.
Lemma real_val x : real x = val x. Proof. reflexivity. Qed.
Lemma nearest_rnd x : nearest x = rnd x. Proof. reflexivity. Qed.

Lemma co_fl n v i : doubles n v -> (i < n)%nat -> fl (nth i (el v) (S754_zero false)).
Proof.
  intros [D F] Hi. apply fl_iff. rewrite Forall_forall in F. apply F, nth_In. unfold dims in D. lia.
Qed.

Section B.
Variable m : libm.

Lemma get_nth (l : list spec_float) i : get (H := B64 m) l i = nth i l (S754_zero false).
Proof. reflexivity. Qed.

Lemma max_abs_ok (l : list spec_float) : Forall fl l ->
  fl (max_abs (H := B64 m) l) /\ val (max_abs (H := B64 m) l) = max_abs (H := Rnum (val b64_eps)) (map val l).
Proof.
  unfold max_abs. intros F.
  assert (G : forall acc r, fl acc -> val acc = r ->
    fl (fold_left (fun acc x => if nltb (Num := B64 m) acc (nabs (Num := B64 m) x) then nabs (Num := B64 m) x else acc) l acc) /\
    val (fold_left (fun acc x => if nltb (Num := B64 m) acc (nabs (Num := B64 m) x) then nabs (Num := B64 m) x else acc) l acc) =
    fold_left (fun acc x => if nltb (Num := Rnum (val b64_eps)) acc (nabs (Num := Rnum (val b64_eps)) x) then nabs (Num := Rnum (val b64_eps)) x else acc) (map val l) r).
  { induction l as [|x l IH]; intros acc r Fa E; cbn [fold_left map]; auto. inversion F as [|? ? Fx Fl]; subst.
    destruct (abs_ok x Fx) as [Fb Eb]. apply IH; auto.
    - cbn [nabs nltb B64]. destruct (SFltb acc (SFabs x)); auto.
    - cbn [nabs nltb B64 Rnum]. rewrite ltb_ok by auto. rewrite Eb. destruct (Rlt_bool (val acc) (Rabs (val x))); auto. }
  apply G; [apply n0_ok|reflexivity].
Qed.

Lemma Rfrexp_le x e : Rabs x < bpow radix2 e -> (0 <= e)%Z -> (Rfrexp x <= e)%Z.
Proof.
  intros B E. unfold Rfrexp. destruct (Req_bool_spec x 0); auto. apply mag_le_bpow; auto.
Qed.
Lemma scale_eps_ok x y : fl x -> fl y ->
  fl (scale_eps (H := B64 m) x y b64_eps) /\
  val (scale_eps (H := B64 m) x y b64_eps) = rnd (scale_eps (H := Rnum (val b64_eps)) (val x) (val y) (val b64_eps)).
Proof.
  intros Fx Fy. unfold scale_eps. cbn [nldexp nfrexp nltb nabs B64 Rnum].
  destruct (abs_ok x Fx) as [Fx' Ex]. destruct (abs_ok y Fy) as [Fy' Ey].
  rewrite ltb_ok by auto. rewrite Ex, Ey.
  set (z := if Rlt_bool (Rabs (val x)) (Rabs (val y)) then x else y).
  assert (Fz : fl z) by (unfold z; destruct (Rlt_bool _ _); auto).
  replace (if Rlt_bool (Rabs (val x)) (Rabs (val y)) then val x else val y) with (val z) by (unfold z; destruct (Rlt_bool _ _); auto).
  rewrite frexp_ok by auto. apply ldexp_ok; [split; apply eps_double|].
  assert (K : (Rfrexp (val z) <= 1024)%Z) by (apply Rfrexp_le; [apply val_lt_emax, Fz|lia]).
  rewrite eps_val, Rabs_mult. rewrite (Rabs_pos_eq (bpow radix2 _)) by apply bpow_ge_0. rewrite Rabs_pos_eq by (pose proof (bpow_gt_0 radix2 (-52)); lra).
  apply Rle_trans with (bpow radix2 5 * bpow radix2 (-52) * bpow radix2 1024).
  - apply Rmult_le_compat; try apply bpow_ge_0; [pose proof (bpow_gt_0 radix2 (-52)); lra| |now apply bpow_le].
    apply Rmult_le_compat_r; [apply bpow_ge_0|]. unfold bpow. simpl. lra.
  - rewrite <- !bpow_plus. apply bpow_le. lia.
Qed.

Definition epsR : R := val b64_eps.
Lemma epsR_lib : epsR = lib_eps. Proof. apply eps_val. Qed.
Lemma delta_ok n a b : doubles n a -> doubles n b ->
  let d := scale_eps_arr (H := B64 m) (el a) (el b) b64_eps in
  fl d /\ 0 <= val d /\
  ((forall i, (i < n)%nat -> rco a i = 0) \/ (forall i, (i < n)%nat -> rco b i = 0) \/
   forall A B, (forall i, (i < n)%nat -> Rabs (rco a i) <= A) -> (forall i, (i < n)%nat -> Rabs (rco b i) <= B) ->
     val d <= 2 * epsR * (1 + u64) * Rmin A B + eta64).
Proof.
  intros [Da Fa] [Db Fb] d. unfold dims in *.
  assert (Fa' : Forall fl (el a)) by (eapply Forall_impl; [|exact Fa]; intros; now apply fl_iff).
  assert (Fb' : Forall fl (el b)) by (eapply Forall_impl; [|exact Fb]; intros; now apply fl_iff).
  destruct (max_abs_ok _ Fa') as [Ma Ea]. destruct (max_abs_ok _ Fb') as [Mb Eb].
  unfold d, scale_eps_arr. destruct (scale_eps_ok _ _ Ma Mb) as [Fd Ed].
  assert (E0 : 0 <= val b64_eps) by (rewrite eps_val; pose proof (bpow_gt_0 radix2 (-52)); lra).
  set (x := max_abs (H := B64 m) (el a)) in *. set (y := max_abs (H := B64 m) (el b)) in *.
  split; [exact Fd|]. split.
  { rewrite Ed. apply rnd_nonneg. apply scale_eps_nonneg. exact E0. }
  assert (Z : forall v, Forall fl (el v) -> max_abs (H := Rnum (val b64_eps)) (map val (el v)) = 0 -> length (el v) = n -> forall i, (i < n)%nat -> rco v i = 0).
  { intros v Fv E L i Hi. unfold rco. rewrite real_val. apply (proj1 (max_abs_zero (val b64_eps) _) E).
    apply in_map, nth_In. lia. }
  destruct (Req_dec (val x) 0) as [Zx|Nx]; [left; apply Z; auto; congruence|].
  destruct (Req_dec (val y) 0) as [Zy|Ny]; [right; left; apply Z; auto; congruence|].
  right. right. intros A B HA HB.
  destruct (scale_eps_bounds (val b64_eps) (val x) (val y) (val b64_eps) E0 Nx Ny) as [_ Ub].
  assert (Mx : forall v C, length (el v) = n -> (forall i, (i < n)%nat -> Rabs (rco v i) <= C) -> max_abs (H := Rnum (val b64_eps)) (map val (el v)) <> 0 ->
     Rabs (max_abs (H := Rnum (val b64_eps)) (map val (el v))) <= C).
  { intros v C L H N. destruct (max_abs_attained (val b64_eps) (map val (el v))) as [E|(r & Hr & E)]; [congruence|].
    rewrite E. rewrite Rabs_Rabsolu. apply in_map_iff in Hr. destruct Hr as (z & <- & Hz).
    apply (In_nth _ _ (S754_zero false)) in Hz. destruct Hz as (i & Hi & <-). apply H. lia. }
  assert (Bx : Rabs (val x) <= A) by (rewrite Ea in *; now apply Mx).
  assert (By : Rabs (val y) <= B) by (rewrite Eb in *; now apply Mx).
  set (s := scale_eps (H := Rnum (val b64_eps)) (val x) (val y) (val b64_eps)) in *.
  assert (S0 : 0 <= s) by (apply scale_eps_nonneg; exact E0).
  assert (Sb : s <= 2 * epsR * Rmin A B).
  { eapply Rle_trans; [exact Ub|]. unfold epsR. apply Rmult_le_compat_l; [lra|].
    apply Rmin_glb; [eapply Rle_trans; [apply Rmin_l|]; lra|eapply Rle_trans; [apply Rmin_r|]; lra]. }
  rewrite Ed. pose proof (rnd_err s) as R. rewrite (Rabs_pos_eq s) in R by auto. apply Rabs_le_inv in R.
  pose proof u64_pos as [U _]. assert ((1 + u64) * s <= (1 + u64) * (2 * epsR * Rmin A B)) by (apply Rmult_le_compat_l; lra). lra.
Qed.
End B.
