(** Balls given by centre and squared radius: certificates of minimality and the lemmas of Welzl's algorithm. *)
From Coq Require Import Reals List Lra Lia Permutation.
From Verif Require Import RSpec RLib MatLib VecProofs4 MiniballSpec.
Import ListNotations.
Open Scope R_scope.

Section Balls.
Variable d : nat.
Definition pw (c : nat -> R) (r : R) (x : nat -> R) : R := dist2 d x c - r.

Lemma dist2_expand x c : dist2 d x c = norm2 d x - 2 * inner d x c + norm2 d c.
Proof. apply norm2_minus. Qed.
Lemma pw_diff c r c' r' x : pw c r x - pw c' r' x = 2 * inner d x (fun i => c' i - c i) + (norm2 d c - r - norm2 d c' + r').
Proof. unfold pw. rewrite !dist2_expand, inner_minus_r. lra. Qed.
Lemma pw_ext c r x y : (forall i, (i < d)%nat -> x i = y i) -> pw c r x = pw c r y.
Proof. intros E. unfold pw, dist2. f_equal. apply inner_ext; intros i Hi; rewrite E; auto. Qed.
Lemma pw_ext_c c c' r x : (forall i, (i < d)%nat -> c i = c' i) -> pw c r x = pw c' r x.
Proof. intros E. unfold pw, dist2. f_equal. apply inner_ext; intros i Hi; rewrite E; auto. Qed.
Lemma pw_center c r : pw c r c = - r.
Proof. unfold pw, dist2. assert (norm2 d (fun i => c i - c i) = 0). { unfold norm2, inner. apply Rsum_zero. intros. ring. } lra. Qed.

(** weighted sums *)
Definition applied (h : (nat -> R) -> R) (w : list (R * list R)) : R := fold_right (fun a s => fst a * h (pc (snd a)) + s) 0 w.
Lemma total_app u w : total (u ++ w) = total u + total w.
Proof. unfold total. induction u; cbn; [|rewrite IHu]; lra. Qed.
Lemma weighted_app u w i : weighted (u ++ w) i = weighted u i + weighted w i.
Proof. unfold weighted. induction u; cbn; [|rewrite IHu]; lra. Qed.
Lemma applied_app h u w : applied h (u ++ w) = applied h u + applied h w.
Proof. unfold applied. induction u; cbn; [|rewrite IHu]; lra. Qed.
Lemma applied_cons h a w : applied h (a :: w) = fst a * h (pc (snd a)) + applied h w.
Proof. reflexivity. Qed.
Lemma total_cons a w : total (a :: w) = fst a + total w.
Proof. reflexivity. Qed.
Lemma weighted_cons a w i : weighted (a :: w) i = fst a * pc (snd a) i + weighted w i.
Proof. reflexivity. Qed.
Lemma inner_weighted w A : inner d (weighted w) A = applied (fun x => inner d x A) w.
Proof. induction w as [|a w IH].
  - cbn. unfold inner. apply Rsum_zero. intros. cbn. ring.
  - rewrite applied_cons, <- IH. rewrite <- inner_scal_l. rewrite <- inner_plus_l. reflexivity. Qed.
Lemma applied_affine A k h w : (forall x, h x = inner d x A + k) -> applied h w = inner d (weighted w) A + k * total w.
Proof. intros Hh. rewrite inner_weighted. induction w as [|a w IH]; [cbn; lra|]. rewrite !applied_cons, total_cons, IH, Hh. lra. Qed.
(** the difference of two powers is affine *)
Lemma pw_diff_applied c r c' r' w y : total w = 1 -> (forall i, (i < d)%nat -> y i = weighted w i) ->
  pw c r y - pw c' r' y = applied (fun x => pw c r x - pw c' r' x) w.
Proof.
  intros T E. rewrite (applied_affine (fun i => 2 * (c' i - c i)) (norm2 d c - r - norm2 d c' + r')).
  - rewrite T, (pw_ext c r y (weighted w) E), (pw_ext c' r' y (weighted w) E), pw_diff, inner_scal_r. lra.
  - intros x. rewrite pw_diff, inner_scal_r. lra.
Qed.
Lemma applied_le0 h w : Forall (fun a => 0 <= fst a) w -> (forall p, In p (map snd w) -> h (pc p) <= 0) -> applied h w <= 0.
Proof. induction 1 as [|a w Ha Hw IH]; intros Hh; [cbn; lra|]. assert (fst a * h (pc (snd a)) <= 0).
  { specialize (Hh (snd a)). cbn in Hh. specialize (Hh (or_introl eq_refl)). nra. }
  assert (applied h w <= 0) by (apply IH; intros; apply Hh; cbn; auto). rewrite applied_cons. lra. Qed.
Lemma applied_0 h w : (forall p, In p (map snd w) -> h (pc p) = 0) -> applied h w = 0.
Proof. induction w as [|a w IH]; intros Hh; [reflexivity|]. rewrite applied_cons, Hh by (cbn; auto). rewrite IH; [lra|]. intros; apply Hh; cbn; auto. Qed.

(** Certificate: the centre is a combination of S and B with weights that sum to 1, those on S not negative. *)
Definition cert (c : nat -> R) (S B : list (list R)) : Prop :=
  exists u w, map snd u = S /\ map snd w = B /\ Forall (fun a => 0 <= fst a) u /\ total u + total w = 1 /\
    forall i, (i < d)%nat -> c i = weighted u i + weighted w i.
Definition holds (c : nat -> R) (r : R) (S B : list (list R)) : Prop :=
  (forall p, In p S -> pw c r (pc p) <= 0) /\ (forall p, In p B -> pw c r (pc p) = 0).
Definition touches (c : nat -> R) (r : R) (S : list (list R)) : Prop := forall p, In p S -> pw c r (pc p) = 0.

Lemma cert_diff c S B u w c1 r1 c2 r2 : map snd u = S -> map snd w = B -> total u + total w = 1 -> (forall i, (i < d)%nat -> c i = weighted u i + weighted w i) ->
  pw c1 r1 c - pw c2 r2 c = applied (fun x => pw c1 r1 x - pw c2 r2 x) u + applied (fun x => pw c1 r1 x - pw c2 r2 x) w.
Proof. intros <- <- T E. rewrite <- applied_app. apply pw_diff_applied; [rewrite total_app; auto|]. intros i Hi. rewrite weighted_app. auto. Qed.

(** A ball with a certificate is the smallest that holds S with B on the sphere, and the only one. *)
Lemma cert_min c r S B c' r' : cert c S B -> touches c r S -> touches c r B -> holds c' r' S B -> r + dist2 d c c' <= r'.
Proof.
  intros (u & w & <- & <- & P & T & E) Ts Tb (Hs & Hb).
  pose proof (cert_diff c _ _ u w c' r' c r eq_refl eq_refl T E) as D.
  assert (applied (fun x => pw c' r' x - pw c r x) u <= 0). { apply applied_le0; auto. intros p I. rewrite (Ts p I). specialize (Hs p I). lra. }
  assert (applied (fun x => pw c' r' x - pw c r x) w = 0). { apply applied_0; auto. intros p I. rewrite (Tb p I), (Hb p I). lra. }
  rewrite pw_center in D. change (pw c' r' c) with (dist2 d c c' - r') in D. lra.
Qed.

(** Between a ball that does not have p and one that has it there is one with p on its sphere. *)
Definition mix (t : R) (c c' : nat -> R) : nat -> R := fun i => (1 - t) * c i + t * c' i.
Definition mixr (t : R) (c : nat -> R) (r : R) (c' : nat -> R) (r' : R) : R := (1 - t) * r + t * r' - t * (1 - t) * dist2 d c c'.
Lemma inner_mix_r t c c' x : inner d x (mix t c c') = (1 - t) * inner d x c + t * inner d x c'.
Proof. unfold mix. rewrite inner_plus_r, !inner_scal_r. reflexivity. Qed.
Lemma inner_mix_l t c c' x : inner d (mix t c c') x = (1 - t) * inner d c x + t * inner d c' x.
Proof. unfold mix. rewrite inner_plus_l, !inner_scal_l. reflexivity. Qed.
Lemma pw_mix t c r c' r' x : pw (mix t c c') (mixr t c r c' r') x = (1 - t) * pw c r x + t * pw c' r' x.
Proof.
  unfold pw, mixr. rewrite !dist2_expand. unfold norm2 in *. rewrite inner_mix_r. rewrite inner_mix_l, !inner_mix_r. rewrite (inner_comm d c' c). ring.
Qed.
Lemma pw_r_nonneg c r x : pw c r x = 0 -> 0 <= r.
Proof. unfold pw. pose proof (dist2_nonneg d x c). lra. Qed.
Lemma between c r c' r' p P B : (forall q, In q P -> pw c r (pc q) <= 0) -> touches c r B -> 0 < pw c r (pc p) -> holds c' r' (p :: P) B ->
  r <= r' -> exists c2 r2, holds c2 r2 P (B ++ [p]) /\ r2 <= r'.
Proof.
  intros Hp Hb Hx (Fp & Fb) Hr. set (h := pw c r (pc p)) in *. assert (Hf : pw c' r' (pc p) <= 0) by (apply Fp; left; auto). set (k := pw c' r' (pc p)) in *.
  set (t := h / (h - k)). assert (T0 : 0 < t) by (apply Rdiv_lt_0_compat; lra). assert (T1 : t <= 1) by (apply Rmult_le_reg_r with (h - k); [lra|]; unfold t; field_simplify; lra).
  exists (mix t c c'), (mixr t c r c' r'). split; [split|].
  - intros q I. rewrite pw_mix. specialize (Hp q I). assert (pw c' r' (pc q) <= 0) by (apply Fp; right; auto). nra.
  - intros q I. rewrite pw_mix. apply in_app_iff in I as [I|[<-|[]]].
    + rewrite (Hb q I), (Fb q I). ring.
    + fold h k. unfold t. field. lra.
  - unfold mixr. pose proof (dist2_nonneg d c c'). assert (0 <= t * (1 - t) * dist2 d c c') by (apply Rmult_le_pos; [nra|auto]). nra.
Qed.

(** The weight of the new point is positive. *)
Lemma new_weight c r c2 r2 S B p : r + dist2 d c c2 <= r2 -> (forall q, In q S -> pw c r (pc q) <= 0) -> touches c r B -> 0 < pw c r (pc p) ->
  touches c2 r2 S -> touches c2 r2 (B ++ [p]) -> cert c2 S (B ++ [p]) -> cert c2 (p :: S) B.
Proof.
  intros Hr Hs Hb Hp Ts Tb (u & w & <- & Ew & P & T & E).
  apply map_eq_app in Ew as (w1 & w2 & -> & <- & Ep). destruct w2 as [|[nu q] [|? ?]]; try discriminate. cbn in Ep. injection Ep as ->.
  exists ((nu, p) :: u), w1. split; [reflexivity|]. split; [reflexivity|].
  rewrite total_app in T. cbn in T. split; [|split].
  - constructor; auto. cbn.
    pose proof (cert_diff c2 _ _ u (w1 ++ [(nu, p)]) c r c2 r2 eq_refl eq_refl) as D. rewrite total_app in D. specialize (D T E).
    rewrite applied_app in D. rewrite (applied_0 _ w1) in D.
    2:{ intros q I. rewrite (Hb q I). rewrite (Tb q); [ring|apply in_app_iff; auto]. }
    assert (applied (fun x => pw c r x - pw c2 r2 x) u <= 0). { apply applied_le0; auto. intros q I. rewrite (Ts q I). specialize (Hs q I). lra. }
    cbn in D. assert (Tp : pw c2 r2 (pc p) = 0) by (apply Tb; apply in_app_iff; right; left; auto). rewrite Tp in D.
    rewrite pw_center in D. pose proof (dist2_nonneg d c2 c). assert (dist2 d c c2 = dist2 d c2 c) by apply dist2_sym. change (pw c r c2) with (dist2 d c2 c - r) in D. nra.
  - rewrite total_cons. cbn. lra.
  - intros i Hi. rewrite (E i Hi), weighted_app, !weighted_cons. change (weighted [] i) with 0. cbn [fst snd]. lra.
Qed.
End Balls.
