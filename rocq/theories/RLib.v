(** Lemmas about finite sums, arrays and the real instance of the scalar. *)
From Coq Require Import Reals Lra Lia List Bool Psatz ZArith.
From Flocq Require Import Core.Zaux Core.Raux.
From Verif Require Import Base Scalar ConstModel RSpec.
Import ListNotations.
Open Scope R_scope.

(** ** Finite sums *)
Lemma Rsum_ext n f g : (forall i, (i < n)%nat -> f i = g i) -> Rsum n f = Rsum n g.
Proof. induction n as [|n IH]; intros H; simpl; auto. rewrite IH, H by (intros; try apply H; lia). reflexivity. Qed.

Lemma Rsum_plus n f g : Rsum n (fun i => f i + g i) = Rsum n f + Rsum n g.
Proof. induction n as [|n IH]; simpl; [ring|rewrite IH; ring]. Qed.

Lemma Rsum_minus n f g : Rsum n (fun i => f i - g i) = Rsum n f - Rsum n g.
Proof. induction n as [|n IH]; simpl; [ring|rewrite IH; ring]. Qed.

Lemma Rsum_opp n f : Rsum n (fun i => - f i) = - Rsum n f.
Proof. induction n as [|n IH]; simpl; [ring|rewrite IH; ring]. Qed.

Lemma Rsum_scal_l n c f : Rsum n (fun i => c * f i) = c * Rsum n f.
Proof. induction n as [|n IH]; simpl; [ring|rewrite IH; ring]. Qed.

Lemma Rsum_scal_r n c f : Rsum n (fun i => f i * c) = Rsum n f * c.
Proof. induction n as [|n IH]; simpl; [ring|rewrite IH; ring]. Qed.

Lemma Rsum_zero n f : (forall i, (i < n)%nat -> f i = 0) -> Rsum n f = 0.
Proof. induction n as [|n IH]; intros H; simpl; auto. rewrite IH, H by (intros; try apply H; lia). ring. Qed.

Lemma Rsum_const n c : Rsum n (fun _ => c) = INR n * c.
Proof. induction n as [|n IH]; [simpl; ring|rewrite S_INR; simpl Rsum; rewrite IH; ring]. Qed.

Lemma Rsum_nonneg n f : (forall i, (i < n)%nat -> 0 <= f i) -> 0 <= Rsum n f.
Proof.
  induction n as [|n IH]; intros H; simpl; [lra|].
  assert (0 <= Rsum n f) by (apply IH; intros; apply H; lia). specialize (H n ltac:(lia)). lra.
Qed.

Lemma Rsum_le n f g : (forall i, (i < n)%nat -> f i <= g i) -> Rsum n f <= Rsum n g.
Proof.
  induction n as [|n IH]; intros H; simpl; [lra|].
  assert (Rsum n f <= Rsum n g) by (apply IH; intros; apply H; lia). specialize (H n ltac:(lia)). lra.
Qed.

Lemma Rsum_term_le n f i : (forall j, (j < n)%nat -> 0 <= f j) -> (i < n)%nat -> f i <= Rsum n f.
Proof.
  induction n as [|n IH]; intros H Hi; [lia|]. simpl.
  destruct (Nat.eq_dec i n) as [->|Hne].
  - assert (0 <= Rsum n f) by (apply Rsum_nonneg; intros; apply H; lia). lra.
  - assert (f i <= Rsum n f) by (apply IH; [intros; apply H|]; lia). specialize (H n ltac:(lia)). lra.
Qed.

Lemma Rsum_zero_inv n f : (forall j, (j < n)%nat -> 0 <= f j) -> Rsum n f = 0 -> forall i, (i < n)%nat -> f i = 0.
Proof. intros H E i Hi. pose proof (Rsum_term_le n f i H Hi). specialize (H i Hi). lra. Qed.

Lemma Rsum_swap n m f : Rsum n (fun i => Rsum m (fun j => f i j)) = Rsum m (fun j => Rsum n (fun i => f i j)).
Proof.
  induction n as [|n IH]; simpl.
  - symmetry; apply Rsum_zero; auto.
  - rewrite IH, <- Rsum_plus. reflexivity.
Qed.

Lemma delta_same i : delta i i = 1.
Proof. unfold delta. rewrite Nat.eqb_refl. reflexivity. Qed.
Lemma delta_diff i j : i <> j -> delta i j = 0.
Proof. intros H. unfold delta. apply Nat.eqb_neq in H. rewrite H. reflexivity. Qed.
Lemma delta_sym i j : delta i j = delta j i.
Proof. unfold delta. rewrite Nat.eqb_sym. reflexivity. Qed.

Lemma Rsum_single n f k : (k < n)%nat -> (forall i, (i < n)%nat -> i <> k -> f i = 0) -> Rsum n f = f k.
Proof.
  induction n as [|n IH]; intros Hk H; [lia|]. simpl.
  destruct (Nat.eq_dec k n) as [->|Hne].
  - rewrite Rsum_zero; [ring|]. intros i Hi. apply H; lia.
  - rewrite IH by (try lia; intros; apply H; lia). rewrite (H n) by lia. ring.
Qed.

Lemma Rsum_delta_l n f k : (k < n)%nat -> Rsum n (fun i => delta k i * f i) = f k.
Proof.
  intros Hk. rewrite (Rsum_single n _ k Hk). rewrite delta_same; ring.
  intros i Hi Hne. rewrite delta_diff by auto. ring.
Qed.
Lemma Rsum_delta_r n f k : (k < n)%nat -> Rsum n (fun i => f i * delta i k) = f k.
Proof.
  intros Hk. rewrite (Rsum_single n _ k Hk). rewrite delta_same; ring.
  intros i Hi Hne. rewrite delta_diff by auto. ring.
Qed.
Lemma Rsum_delta_l' n f k : (k < n)%nat -> Rsum n (fun i => delta i k * f i) = f k.
Proof. intros Hk. rewrite <- (Rsum_delta_l n f k Hk). apply Rsum_ext. intros. rewrite delta_sym. reflexivity. Qed.
Lemma Rsum_delta_r' n f k : (k < n)%nat -> Rsum n (fun i => f i * delta k i) = f k.
Proof. intros Hk. rewrite <- (Rsum_delta_r n f k Hk). apply Rsum_ext. intros. rewrite delta_sym. reflexivity. Qed.

Lemma Rabs_Rsum n f : Rabs (Rsum n f) <= Rsum n (fun i => Rabs (f i)).
Proof.
  induction n as [|n IH]; simpl. rewrite Rabs_R0; lra.
  eapply Rle_trans; [apply Rabs_triang|]. lra.
Qed.

(** ** Inner products *)
Lemma inner_ext n a b c d : (forall i, (i < n)%nat -> a i = c i) -> (forall i, (i < n)%nat -> b i = d i) ->
  inner n a b = inner n c d.
Proof. intros H1 H2. apply Rsum_ext. intros i Hi. rewrite H1, H2 by auto. reflexivity. Qed.
Lemma inner_comm n a b : inner n a b = inner n b a.
Proof. apply Rsum_ext. intros; ring. Qed.
Lemma inner_plus_l n a b c : inner n (fun i => a i + b i) c = inner n a c + inner n b c.
Proof. unfold inner. rewrite <- Rsum_plus. apply Rsum_ext; intros; ring. Qed.
Lemma inner_plus_r n a b c : inner n c (fun i => a i + b i) = inner n c a + inner n c b.
Proof. unfold inner. rewrite <- Rsum_plus. apply Rsum_ext; intros; ring. Qed.
Lemma inner_minus_l n a b c : inner n (fun i => a i - b i) c = inner n a c - inner n b c.
Proof. unfold inner. rewrite <- Rsum_minus. apply Rsum_ext; intros; ring. Qed.
Lemma inner_minus_r n a b c : inner n c (fun i => a i - b i) = inner n c a - inner n c b.
Proof. unfold inner. rewrite <- Rsum_minus. apply Rsum_ext; intros; ring. Qed.
Lemma inner_scal_l n k a c : inner n (fun i => k * a i) c = k * inner n a c.
Proof. unfold inner. rewrite <- Rsum_scal_l. apply Rsum_ext; intros; ring. Qed.
Lemma inner_scal_r n k a c : inner n c (fun i => k * a i) = k * inner n c a.
Proof. unfold inner. rewrite <- Rsum_scal_l. apply Rsum_ext; intros; ring. Qed.

Lemma norm2_nonneg n a : 0 <= norm2 n a.
Proof. apply Rsum_nonneg. intros; nra. Qed.
Lemma norm2_zero n a : norm2 n a = 0 -> forall i, (i < n)%nat -> a i = 0.
Proof.
  intros H i Hi. apply Rsum_zero_inv with (i := i) in H; auto. nra. intros; nra.
Qed.
Lemma norm2_coord_le n a i : (i < n)%nat -> a i * a i <= norm2 n a.
Proof. intros Hi. apply (Rsum_term_le n (fun i => a i * a i)); auto. intros; nra. Qed.

Lemma norm2_plus n a b : norm2 n (fun i => a i + b i) = norm2 n a + 2 * inner n a b + norm2 n b.
Proof. unfold norm2. rewrite inner_plus_l, !inner_plus_r. rewrite (inner_comm n b a). ring. Qed.
Lemma norm2_minus n a b : norm2 n (fun i => a i - b i) = norm2 n a - 2 * inner n a b + norm2 n b.
Proof. unfold norm2. rewrite inner_minus_l, !inner_minus_r. rewrite (inner_comm n b a). ring. Qed.
Lemma norm2_scal n k a : norm2 n (fun i => k * a i) = k * k * norm2 n a.
Proof. unfold norm2. rewrite inner_scal_l, inner_scal_r. ring. Qed.

Lemma cauchy_schwarz n a b : inner n a b * inner n a b <= norm2 n a * norm2 n b.
Proof.
  pose proof (norm2_nonneg n a) as Ha. pose proof (norm2_nonneg n b) as Hb.
  destruct (Req_dec (norm2 n b) 0) as [E|E].
  - assert (inner n a b = 0) as ->.
    { apply Rsum_zero. intros i Hi. rewrite (norm2_zero n b E i Hi). ring. }
    rewrite E. lra.
  - pose proof (norm2_nonneg n (fun i => norm2 n b * a i - inner n a b * b i)) as H.
    rewrite norm2_minus, !norm2_scal, inner_scal_l, inner_scal_r in H.
    assert (0 <= norm2 n b * (norm2 n a * norm2 n b - inner n a b * inner n a b)) as H' by lra.
    assert (0 < norm2 n b) by lra.
    destruct (Rle_or_lt (inner n a b * inner n a b) (norm2 n a * norm2 n b)); auto. exfalso. nra.
Qed.

Lemma norm_nonneg n a : 0 <= norm n a.
Proof. apply sqrt_pos. Qed.
Lemma norm_sqr n a : norm n a * norm n a = norm2 n a.
Proof. apply sqrt_sqrt, norm2_nonneg. Qed.
Lemma inner_le_norm n a b : inner n a b <= norm n a * norm n b.
Proof.
  unfold norm. rewrite <- sqrt_mult by apply norm2_nonneg.
  destruct (Rle_or_lt (inner n a b) 0) as [H|H].
  - pose proof (sqrt_pos (norm2 n a * norm2 n b)). lra.
  - rewrite <- (sqrt_square (inner n a b)) by lra. apply sqrt_le_1_alt, cauchy_schwarz.
Qed.
Lemma Rabs_inner_le_norm n a b : Rabs (inner n a b) <= norm n a * norm n b.
Proof.
  unfold norm. rewrite <- sqrt_mult by apply norm2_nonneg.
  rewrite <- sqrt_Rsqr_abs. apply sqrt_le_1_alt. apply cauchy_schwarz.
Qed.
Lemma norm_triangle n a b : norm n (fun i => a i + b i) <= norm n a + norm n b.
Proof.
  pose proof (norm_nonneg n a). pose proof (norm_nonneg n b).
  unfold norm at 1. rewrite <- (sqrt_square (norm n a + norm n b)) by lra.
  apply sqrt_le_1_alt. rewrite norm2_plus.
  pose proof (inner_le_norm n a b). rewrite <- (norm_sqr n a), <- (norm_sqr n b). lra.
Qed.
Lemma dist_triangle n a b c : dist n a c <= dist n a b + dist n b c.
Proof.
  unfold dist, dist2. fold (norm n (fun i => a i - b i)) (norm n (fun i => b i - c i)).
  eapply Rle_trans; [|apply norm_triangle]. apply Req_le. unfold norm. f_equal.
  apply inner_ext; intros; ring.
Qed.
Lemma dist_sym n a b : dist n a b = dist n b a.
Proof. unfold dist. f_equal. apply Rsum_ext; intros; ring. Qed.
Lemma dist2_nonneg n a b : 0 <= dist2 n a b.
Proof. apply norm2_nonneg. Qed.

Lemma sqrt_le_iff a b : 0 <= a -> 0 <= b -> (sqrt a <= b <-> a <= b * b).
Proof.
  intros Ha Hb. split; intros H.
  - rewrite <- (sqrt_sqrt a Ha). pose proof (sqrt_pos a). nra.
  - rewrite <- (sqrt_square b Hb). apply sqrt_le_1_alt. exact H.
Qed.
Lemma sqrt_lt_iff a b : 0 <= a -> 0 <= b -> (sqrt a < b <-> a < b * b).
Proof.
  intros Ha Hb. split; intros H.
  - rewrite <- (sqrt_sqrt a Ha). pose proof (sqrt_pos a). nra.
  - rewrite <- (sqrt_square b Hb). apply sqrt_lt_1_alt. lra.
Qed.

(** ** Arrays *)
Lemma tab_length {A} n (f : nat -> A) : length (tab n f) = n.
Proof. unfold tab. rewrite map_length, seq_length. reflexivity. Qed.

Lemma nth_tab {A} n (f : nat -> A) i d : (i < n)%nat -> nth i (tab n f) d = f i.
Proof.
  intros H. unfold tab. rewrite (nth_indep _ d (f 0%nat)) by (rewrite map_length, seq_length; auto).
  rewrite map_nth. rewrite seq_nth by auto. reflexivity.
Qed.

Lemma tab_ext {A} n (f g : nat -> A) : (forall i, (i < n)%nat -> f i = g i) -> tab n f = tab n g.
Proof. intros H. apply map_ext_in. intros i Hi. apply in_seq in Hi. apply H; lia. Qed.

Lemma list_eq_nth {A} (l l' : list A) d : length l = length l' ->
  (forall i, (i < length l)%nat -> nth i l d = nth i l' d) -> l = l'.
Proof. intros. eapply nth_ext; eauto. Qed.

Lemma tab_nth {A} (l : list A) n d : length l = n -> tab n (fun i => nth i l d) = l.
Proof.
  intros <-. apply (list_eq_nth _ _ d); rewrite tab_length; auto. intros i Hi. rewrite (nth_tab (length l) (fun i => nth i l d) i d) by auto. reflexivity.
Qed.

Lemma in_tab {A} n (f : nat -> A) x : In x (tab n f) <-> exists i, (i < n)%nat /\ x = f i.
Proof.
  unfold tab. rewrite in_map_iff. split.
  - intros (i & E & Hi). apply in_seq in Hi. exists i. split; [lia|auto].
  - intros (i & Hi & E). exists i. split; auto. apply in_seq; lia.
Qed.

Lemma all_below_iff n p : all_below n p = true <-> forall i, (i < n)%nat -> p i = true.
Proof.
  unfold all_below. rewrite forallb_forall. split.
  - intros H i Hi. apply H. apply in_seq; lia.
  - intros H i Hi. apply in_seq in Hi. apply H; lia.
Qed.

Lemma all_below_false n p : all_below n p = false <-> exists i, (i < n)%nat /\ p i = false.
Proof.
  split.
  - intros H. unfold all_below in H.
    assert (exists x, In x (seq 0 n) /\ p x = false) as (x & Hx & E).
    { revert H. generalize (seq 0 n). intros l. induction l as [|h t IH]; simpl; intros H; [discriminate|].
      apply andb_false_iff in H as [H|H]; eauto. destruct (IH H) as (x & Hx & E); eauto. }
    apply in_seq in Hx. exists x; split; auto; lia.
  - intros (i & Hi & E). destruct (all_below n p) eqn:H; auto.
    apply (proj1 (all_below_iff n p)) with (i := i) in H; auto. congruence.
Qed.

Lemma all_below_ext n p q : (forall i, (i < n)%nat -> p i = q i) -> all_below n p = all_below n q.
Proof.
  intros H. unfold all_below. assert (forall i, In i (seq 0 n) -> p i = q i) as H'.
  { intros i Hi; apply in_seq in Hi; apply H; lia. }
  revert H'. generalize (seq 0 n). intros l; induction l as [|h t IH]; simpl; intros H'; auto.
  rewrite H', IH; auto.
Qed.

(** ** Boolean comparisons on reals *)
Lemma Rltb_iff x y : Rlt_bool x y = true <-> x < y.
Proof. case Rlt_bool_spec; intros; split; auto; try discriminate; lra. Qed.
Lemma Rleb_iff x y : Rle_bool x y = true <-> x <= y.
Proof. case Rle_bool_spec; intros; split; auto; try discriminate; lra. Qed.
Lemma Reqb_iff x y : Req_bool x y = true <-> x = y.
Proof. case Req_bool_spec; intros; split; auto; try discriminate; contradiction. Qed.
Lemma Rltb_false x y : Rlt_bool x y = false <-> y <= x.
Proof. case Rlt_bool_spec; intros; split; auto; try discriminate; lra. Qed.
Lemma Rleb_false x y : Rle_bool x y = false <-> y < x.
Proof. case Rle_bool_spec; intros; split; auto; try discriminate; lra. Qed.

(** ** The real instance *)
Section RInst.
Context (eps : Epsilon).

Lemma nsum_S n (f : nat -> R) : nsum (S n) f = nsum n f + f n.
Proof. unfold nsum. rewrite seq_S, fold_left_app. reflexivity. Qed.

Lemma nsum_Rsum n (f : nat -> R) : nsum n f = Rsum n f.
Proof. induction n as [|n IH]. reflexivity. rewrite nsum_S, IH. reflexivity. Qed.

Lemma max_abs_fold (l : list R) : forall m,
  let r := fold_left (fun m x => if nabs x >? m then nabs x else m)%num l m in
  m <= r /\ (forall x, In x l -> Rabs x <= r) /\ (r = m \/ exists x, In x l /\ r = Rabs x).
Proof.
  induction l as [|h t IH]; intros m; cbn [fold_left nabs nltb Rnum].
  - repeat split; [lra|intros x []|auto].
  - destruct (IH (if Rlt_bool m (Rabs h) then Rabs h else m)) as (H1 & H2 & H3).
    cbn [nabs nltb Rnum] in *.
    set (r := fold_left _ t _) in *.
    destruct (Rlt_bool_spec m (Rabs h)).
    + repeat split; [lra| |].
      * intros x [->|Hx]; auto.
      * right. destruct H3 as [->|(x & Hx & ->)]; [exists h|exists x]; simpl; auto.
    + repeat split; [lra| |].
      * intros x [->|Hx]; auto. lra.
      * destruct H3 as [->|(x & Hx & ->)]; auto. right. exists x; simpl; auto.
Qed.

Lemma max_abs_nonneg (l : list R) : 0 <= max_abs l.
Proof. apply (max_abs_fold l). Qed.
Lemma max_abs_ge (l : list R) x : In x l -> Rabs x <= max_abs l.
Proof. apply (max_abs_fold l). Qed.
Lemma max_abs_attained (l : list R) : max_abs l = 0 \/ exists x, In x l /\ max_abs l = Rabs x.
Proof. apply (max_abs_fold l). Qed.
Lemma max_abs_unique (l : list R) M : 0 <= M -> (forall x, In x l -> Rabs x <= M) ->
  (M = 0 \/ exists x, In x l /\ M = Rabs x) -> max_abs l = M.
Proof.
  intros H0 H1 H2. pose proof (max_abs_nonneg l) as A.
  destruct (max_abs_attained l) as [E|(x & Hx & E)].
  - destruct H2 as [->|(y & Hy & ->)]; auto. pose proof (max_abs_ge l y Hy). pose proof (Rabs_pos y). lra.
  - pose proof (H1 x Hx). destruct H2 as [->|(y & Hy & ->)].
    + lra.
    + pose proof (max_abs_ge l y Hy). lra.
Qed.
Lemma max_abs_nth (l : list R) i : (i < length l)%nat -> Rabs (nth i l 0) <= max_abs l.
Proof. intros. apply max_abs_ge, nth_In; auto. Qed.
Lemma max_abs_zero (l : list R) : max_abs l = 0 <-> forall x, In x l -> x = 0.
Proof.
  split.
  - intros E x Hx. pose proof (max_abs_ge l x Hx). rewrite E in H. unfold Rabs in H. destruct (Rcase_abs x); lra.
  - intros H. apply max_abs_unique; [lra| |auto]. intros x Hx. rewrite (H x Hx), Rabs_R0. lra.
Qed.

Definition small (x1 x2 : R) : R := if Rlt_bool (Rabs x1) (Rabs x2) then x1 else x2.
Lemma small_min x1 x2 : Rabs (small x1 x2) = Rmin (Rabs x1) (Rabs x2).
Proof.
  unfold small. destruct (Rlt_bool_spec (Rabs x1) (Rabs x2)); symmetry; [apply Rmin_left|apply Rmin_right]; lra.
Qed.

Lemma Rfrexp_bounds x : x <> 0 -> bpow radix2 (Rfrexp x - 1) <= Rabs x < bpow radix2 (Rfrexp x).
Proof.
  intros H. unfold Rfrexp. rewrite Req_bool_false by auto. destruct (mag radix2 x) as [e He]. simpl. auto.
Qed.
Lemma Rfrexp_0 : Rfrexp 0 = 0%Z.
Proof. unfold Rfrexp. rewrite Req_bool_true by auto. reflexivity. Qed.
Lemma Rfrexp_abs x : Rfrexp (Rabs x) = Rfrexp x.
Proof.
  unfold Rfrexp. destruct (Req_bool_spec x 0) as [->|H].
  - rewrite Rabs_R0, Req_bool_true; auto.
  - rewrite Req_bool_false by (apply Rabs_no_R0; auto). rewrite mag_abs. reflexivity.
Qed.

Lemma scale_eps_R x1 x2 e : scale_eps x1 x2 e = e * bpow radix2 (Rfrexp (small x1 x2)).
Proof. reflexivity. Qed.

Lemma scale_eps_R_abs x1 x2 e : scale_eps x1 x2 e = e * bpow radix2 (Rfrexp (Rmin (Rabs x1) (Rabs x2))).
Proof. rewrite scale_eps_R, <- small_min, Rfrexp_abs. reflexivity. Qed.

Lemma scale_eps_sym x1 x2 e : scale_eps x1 x2 e = scale_eps x2 x1 e.
Proof. rewrite !scale_eps_R_abs, Rmin_comm. reflexivity. Qed.

Lemma scale_eps_nonneg x1 x2 e : 0 <= e -> 0 <= scale_eps x1 x2 e.
Proof. intros. rewrite scale_eps_R. pose proof (bpow_gt_0 radix2 (Rfrexp (small x1 x2))). nra. Qed.

Lemma scale_eps_bounds x1 x2 e : 0 <= e -> x1 <> 0 -> x2 <> 0 ->
  let m := Rmin (Rabs x1) (Rabs x2) in
  e * m <= scale_eps x1 x2 e <= 2 * e * m.
Proof.
  intros He H1 H2 m. rewrite scale_eps_R_abs. fold m.
  assert (Hm : 0 < m) by (unfold m; apply Rmin_glb_lt; apply Rabs_pos_lt; auto).
  destruct (Rfrexp_bounds m ltac:(lra)) as [A B]. rewrite Rabs_pos_eq in A, B by lra.
  replace (Rfrexp m - 1)%Z with (Rfrexp m + -1)%Z in A by ring. rewrite bpow_plus in A. assert (Eh : bpow radix2 (-1) = /2) by reflexivity. rewrite Eh in A.
  split; [apply Rmult_le_compat_l; lra|].
  replace (2 * e * m) with (e * (2 * m)) by ring. apply Rmult_le_compat_l; lra.
Qed.

Lemma scale_eps_zero x1 x2 e : x1 = 0 \/ x2 = 0 -> scale_eps x1 x2 e = e.
Proof.
  intros H. rewrite scale_eps_R_abs.
  replace (Rmin (Rabs x1) (Rabs x2)) with 0.
  - rewrite Rfrexp_0. simpl. ring.
  - destruct H as [->| ->]; rewrite Rabs_R0.
    + symmetry; apply Rmin_left, Rabs_pos.
    + symmetry; apply Rmin_right, Rabs_pos.
Qed.

Lemma scale_eps_mono x1 x2 e e' : e <= e' -> scale_eps x1 x2 e <= scale_eps x1 x2 e'.
Proof. intros. rewrite !scale_eps_R. pose proof (bpow_gt_0 radix2 (Rfrexp (small x1 x2))). nra. Qed.

Lemma scale_eps_eps0 x1 x2 : scale_eps x1 x2 0 = 0.
Proof. rewrite scale_eps_R. ring. Qed.

(** [equal] on reals *)
Lemma equal_iff x y e : equal x y e = true <-> Rabs (x - y) <= scale_eps x y e.
Proof. unfold equal. cbn [nleb nabs nsub Rnum]. apply Rleb_iff. Qed.
End RInst.
