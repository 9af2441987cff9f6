(** Proofs about Equal, FloatMax, FloatMin and FloatClamp. *)
From Coq Require Import ZArith Reals Bool SpecFloat Lia Lra.
From Flocq Require Import Core.Raux.
From Verif Require Import Scalar ConstModel ConstSpec OrdLib B64Lib RSpec RLib.
Open Scope R_scope.

Section B64.
Variable m : libm.
#[local] Instance I : Num spec_float := B64 m.

Lemma finite_double_finite x : finite_double x -> finite x.
Proof. intros [_ H]. destruct x; try contradiction; reflexivity. Qed.

Lemma equal_refl_b64 x e : finite_double x -> tolerance e -> equal x x e = true.
Proof.
  intros Hx [He Hn]. unfold equal, scale_eps. cbn [nleb nabs nsub nldexp I B64].
  rewrite abs_sub_same by (apply finite_double_finite; auto).
  apply SFldexp_nonneg; auto.
Qed.

Lemma frexp_sign s s' mm e : b64_frexp m (S754_finite s mm e) = b64_frexp m (S754_finite s' mm e).
Proof. unfold b64_frexp, SFfrexp. destruct (_ <=? _)%positive; reflexivity. Qed.

Lemma scale_eps_b64_sym x y e : x <> S754_nan -> y <> S754_nan -> scale_eps x y e = scale_eps y x e.
Proof.
  intros Hx Hy. unfold scale_eps. cbn [nldexp nfrexp nltb nabs I B64]. f_equal.
  destruct x as [sx|sx| |sx mx ex], y as [sy|sy| |sy my ey]; try congruence; try reflexivity.
  unfold SFltb, SFabs, SFcompare.
  rewrite (Z.compare_antisym ex ey).
  destruct (Z.compare_spec ex ey) as [->| |]; simpl CompOpp; try reflexivity.
  change (Pos.compare_cont Eq mx my) with (mx ?= my)%positive.
  change (Pos.compare_cont Eq my mx) with (my ?= mx)%positive.
  rewrite (Pos.compare_antisym mx my).
  destruct (Pos.compare_spec mx my) as [->| |]; simpl CompOpp; try reflexivity.
  apply frexp_sign.
Qed.

Lemma equal_sym_b64 x y e : equal x y e = equal y x e.
Proof.
  unfold equal. cbn [nleb nabs nsub I B64].
  rewrite abs_sub_sym.
  destruct x as [sx|sx| |sx mx ex]; [| |destruct y; reflexivity|];
  (destruct y as [sy|sy| |sy my ey]; [| |reflexivity|];
   (rewrite scale_eps_b64_sym by congruence; reflexivity)).
Qed.

Lemma SFleb_nn a b : SFleb a b = true -> not_nan a /\ not_nan b.
Proof. intros H. split; intros ->; [|destruct a as [[]|[]| |[]]]; discriminate. Qed.

Lemma equal_mono_b64 x y e e' : is_double e -> is_double e' -> SFleb e e' = true ->
  equal x y e = true -> equal x y e' = true.
Proof.
  intros He He' Hle. unfold equal, scale_eps. cbn [nleb nabs nsub nldexp I B64].
  set (k := nfrexp _). intros H.
  pose proof (SFldexp_mono e e' k He He' Hle) as M.
  destruct (SFleb_nn _ _ H), (SFleb_nn _ _ M).
  exact (leb_trans (OrdNum := b64ord m) _ _ _ H0 H1 H3 H M).
Qed.

Lemma equal_nan_b64 x e : equal x S754_nan e = false /\ equal S754_nan x e = false.
Proof. split; unfold equal; destruct x; reflexivity. Qed.
End B64.

Section Ord.
Context {T} `{OrdNum T}.

Lemma float_max_spec a b : num_ok a -> num_ok b ->
  (float_max a b = a \/ float_max a b = b) /\ nleb a (float_max a b) = true /\ nleb b (float_max a b) = true.
Proof.
  intros Ha Hb. unfold float_max. destruct (nltb b a) eqn:E.
  - split; auto. split. apply leb_refl; auto. apply ltb_leb; auto.
  - split; auto. apply ltb_false in E; auto. split; auto. apply leb_refl; auto.
Qed.
Lemma float_min_spec a b : num_ok a -> num_ok b ->
  (float_min a b = a \/ float_min a b = b) /\ nleb (float_min a b) a = true /\ nleb (float_min a b) b = true.
Proof.
  intros Ha Hb. unfold float_min. destruct (nltb a b) eqn:E.
  - split; auto. split. apply leb_refl; auto. apply ltb_leb; auto.
  - split; auto. apply ltb_false in E; auto. split; auto. apply leb_refl; auto.
Qed.
Lemma float_clamp_spec v lo hi : num_ok v -> num_ok lo -> num_ok hi -> nleb lo hi = true ->
  nleb lo (float_clamp v lo hi) = true /\ nleb (float_clamp v lo hi) hi = true /\
  (nltb v lo = true -> float_clamp v lo hi = lo) /\ (nltb hi v = true -> float_clamp v lo hi = hi) /\
  (nltb lo v = true -> nltb v hi = true -> float_clamp v lo hi = v) /\
  (nleb lo v = true -> nleb v hi = true -> nleb v (float_clamp v lo hi) = true /\ nleb (float_clamp v lo hi) v = true).
Proof.
  intros Hv Hl Hh LH. unfold float_clamp.
  destruct (nleb v lo) eqn:E1; [|destruct (nleb hi v) eqn:E2].
  - split; [apply leb_refl; auto|]. split; [auto|]. split; [auto|]. split; [|split].
    + intros A. apply ltb_iff in A; auto. rewrite (leb_trans v lo hi) in A; auto. discriminate.
    + intros A. apply ltb_iff in A; auto. congruence.
    + auto.
  - split; [auto|]. split; [apply leb_refl; auto|]. split; [|split; [auto|split]].
    + intros A. apply ltb_leb in A; auto. congruence.
    + intros _ A. apply ltb_iff in A; auto. congruence.
    + auto.
  - split; [apply leb_false_leb; auto|]. split; [apply leb_false_leb; auto|]. split; [|split; [|split]].
    + intros A. apply ltb_leb in A; auto. congruence.
    + intros A. apply ltb_leb in A; auto. congruence.
    + auto.
    + split; apply leb_refl; auto.
Qed.
End Ord.

Section Real.
Context (eps : Epsilon).

Lemma equal_R_upper x y e : 0 <= e -> x <> 0 -> y <> 0 -> equal x y e = true ->
  Rabs (x - y) <= 2 * e * Rmin (Rabs x) (Rabs y).
Proof.
  intros He Hx Hy E. apply equal_iff in E. pose proof (scale_eps_bounds eps x y e He Hx Hy). lra.
Qed.
Lemma equal_R_lower x y e : 0 <= e -> x <> 0 -> y <> 0 ->
  Rabs (x - y) <= e * Rmin (Rabs x) (Rabs y) -> equal x y e = true.
Proof.
  intros He Hx Hy E. apply equal_iff. pose proof (scale_eps_bounds eps x y e He Hx Hy). lra.
Qed.
Lemma equal_R_zero x y e : x = 0 \/ y = 0 -> (equal x y e = true <-> Rabs (x - y) <= e).
Proof. intros H. rewrite equal_iff, scale_eps_zero; tauto. Qed.

(** the tolerance is e times the power of two just above the smaller operand *)
Lemma equal_R_exact x y e k : x <> 0 -> y <> 0 ->
  bpow Zaux.radix2 (k - 1) <= Rmin (Rabs x) (Rabs y) < bpow Zaux.radix2 k ->
  (equal x y e = true <-> Rabs (x - y) <= e * bpow Zaux.radix2 k).
Proof.
  intros Hx Hy Hk. rewrite equal_iff, scale_eps_R_abs.
  assert (Hm : 0 < Rmin (Rabs x) (Rabs y)) by (apply Rmin_glb_lt; apply Rabs_pos_lt; auto).
  replace (Rfrexp _) with k; [tauto|].
  unfold Rfrexp. rewrite Req_bool_false by lra. symmetry. apply mag_unique.
  rewrite Rabs_pos_eq by lra. auto.
Qed.
Lemma equal_R_refl x e : 0 <= e -> equal x x e = true.
Proof.
  intros. apply equal_iff. rewrite Rminus_diag_eq, Rabs_R0 by auto. apply scale_eps_nonneg; auto.
Qed.
Lemma equal_R_sym x y e : equal x y e = equal y x e.
Proof. unfold equal. cbn [nleb nabs nsub Rnum]. rewrite Rabs_minus_sym, scale_eps_sym. reflexivity. Qed.
Lemma equal_R_mono x y e e' : e <= e' -> equal x y e = true -> equal x y e' = true.
Proof. intros H. rewrite !equal_iff. pose proof (scale_eps_mono eps x y e e' H). lra. Qed.
Lemma equal_R_exact0 x y : equal x y 0 = true <-> x = y.
Proof.
  rewrite equal_iff, scale_eps_eps0. split.
  - intros H. pose proof (Rabs_pos (x - y)). assert (x - y = 0) by (destruct (Req_dec (x - y) 0); auto; pose proof (Rabs_pos_lt _ H1); lra). lra.
  - intros ->. rewrite Rminus_diag_eq, Rabs_R0 by auto. lra.
Qed.
End Real.
