(** Two boxes in space: the fifteen axes are enough. *)
From Coq Require Import ZArith Reals Bool List Lia Lra Psatz Arith.
From Verif Require Import Base Scalar IntersectModel RSpec VecSpec RotSpec ShapeSpec RLib MatLib SatProofs SatProofs2 HellyProofs.
Open Scope R_scope.

(** A linear form takes every value between its extremes on a box. *)
Lemma attain b n m (L U : pt) s : (forall k, (k < n)%nat -> cmp b (L k) (U k)) ->
  cmp b (Rsum n (fun k => lo (m k) (L k) (U k))) s -> cmp b s (Rsum n (fun k => hi (m k) (L k) (U k))) ->
  exists y : pt, (forall k, (k < n)%nat -> cmp b (L k) (y k) /\ cmp b (y k) (U k)) /\ Rsum n (fun k => m k * y k) = s.
Proof.
  intros B A1 A2. set (A := Rsum n (fun k => lo (m k) (L k) (U k))) in *. set (Z := Rsum n (fun k => hi (m k) (L k) (U k))) in *.
  set (y := fun (t : R) k => if Rle_dec 0 (m k) then L k + t * (U k - L k) else U k + t * (L k - U k)).
  assert (V : forall t, Rsum n (fun k => m k * y t k) = A + t * (Z - A)).
  { intros t. unfold A, Z. replace (Rsum n (fun k => lo (m k) (L k) (U k)) + t * (Rsum n (fun k => hi (m k) (L k) (U k)) - Rsum n (fun k => lo (m k) (L k) (U k))))
      with (Rsum n (fun k => lo (m k) (L k) (U k) + t * (hi (m k) (L k) (U k) - lo (m k) (L k) (U k)))).
    - apply Rsum_ext. intros k Hk. unfold y, lo, hi. destruct (Rle_dec 0 (m k)); ring.
    - rewrite Rsum_plus, Rsum_scal_l, Rsum_minus. reflexivity. }
  destruct (Req_dec A Z) as [E|N].
  - exists (y (1/2)). split.
    + intros k Hk. specialize (B k Hk). unfold y. destruct (Rle_dec 0 (m k)); destruct b; cbn in *; lra.
    + rewrite V. apply cmp_le in A1, A2. rewrite E. lra.
  - pose proof (cmp_le _ _ _ A1). pose proof (cmp_le _ _ _ A2). assert (D : 0 < Z - A) by lra.
    exists (y ((s - A) / (Z - A))). set (t := (s - A) / (Z - A)).
    assert (T : cmp b 0 t /\ cmp b t 1).
    { unfold t. split; [apply cmp_div_r; auto|apply cmp_div_l; auto]; [apply (cmp_lin b _ _ _ _ A1)|apply (cmp_lin b _ _ _ _ A2)]; lra. }
    split; [|rewrite V; unfold t; field; lra].
    intros k Hk. specialize (B k Hk). unfold y. destruct T as [T0 T1]. clear - B T0 T1. destruct (Rle_dec 0 (m k)); destruct b; cbn in *; split; nra.
Qed.
Lemma lo_le_hi m l u : l <= u -> lo m l u <= hi m l u.
Proof. intros. unfold lo, hi. destruct (Rle_dec 0 m); nra. Qed.
Lemma lo_lt_hi m l u : m <> 0 -> l < u -> lo m l u < hi m l u.
Proof. intros. unfold lo, hi. destruct (Rle_dec 0 m); nra. Qed.
Lemma lo_hi_sum b n m (L U : pt) k : (forall k, (k < n)%nat -> cmp b (L k) (U k)) -> (k < n)%nat -> m k <> 0 ->
  cmp b (Rsum n (fun k => lo (m k) (L k) (U k))) (Rsum n (fun k => hi (m k) (L k) (U k))).
Proof.
  intros B Hk N. assert (W : forall i, (i < n)%nat -> lo (m i) (L i) (U i) <= hi (m i) (L i) (U i)) by (intros i Hi; apply lo_le_hi; apply (cmp_le b); auto).
  destruct b; [apply (Rsum_lt n _ _ k); auto; now apply lo_lt_hi, B|now apply Rsum_le].
Qed.
Lemma attain_in b n m (L U : pt) l u k : (forall k, (k < n)%nat -> cmp b (L k) (U k)) -> (k < n)%nat -> m k <> 0 -> cmp b l u ->
  cmp b (Rsum n (fun k => lo (m k) (L k) (U k))) u -> cmp b l (Rsum n (fun k => hi (m k) (L k) (U k))) ->
  exists y : pt, (forall k, (k < n)%nat -> cmp b (L k) (y k) /\ cmp b (y k) (U k)) /\ cmp b l (Rsum n (fun k => m k * y k)) /\ cmp b (Rsum n (fun k => m k * y k)) u.
Proof.
  intros B Hk N C A1 A2. pose proof (lo_hi_sum b n m L U k B Hk N) as W.
  destruct (between b (l :: nil) (u :: nil) (Rsum n (fun k => lo (m k) (L k) (U k))) (Rsum n (fun k => hi (m k) (L k) (U k)))) as (s & P & Q).
  { intros x y [<-|[<-|[]]] [<-|[<-|[]]]; auto. }
  destruct (attain b n m L U s B (P _ (or_introl eq_refl)) (Q _ (or_introl eq_refl))) as (y & Y & E). exists y. rewrite E. split; auto. split; [apply P|apply Q]; right; now left.
Qed.

Lemma orth_row n M k : orthogonal n M -> (k < n)%nat -> exists i, (i < n)%nat /\ M k i <> 0.
Proof.
  intros O Hk. apply not_all_ex_not_below. intros A. pose proof (O k k Hk Hk) as Q. unfold mmul, mtr in Q. rewrite delta_same in Q.
  rewrite Rsum_zero in Q; [lra|]. intros i Hi. rewrite (A i Hi). ring.
Qed.
Lemma orth_col n M i : orthogonal n M -> (i < n)%nat -> exists k, (k < n)%nat /\ M k i <> 0.
Proof. intros O Hi. destruct (orth_row n (mtr M) i (orthogonal_tr n M O) Hi) as (k & Hk & N). exists k. auto. Qed.

Section Sat3.
Variable b : bool.
Variable M : nat -> nat -> R.
Variables l h L H : pt.
Hypothesis O : orthogonal 3 M.
Hypothesis Bx : forall i, (i < 3)%nat -> cmp b (l i) (h i).
Hypothesis By : forall k, (k < 3)%nat -> cmp b (L k) (H k).
(** The six face axes. *)
Hypothesis Fx : forall i, (i < 3)%nat -> cmp b (Rsum 3 (fun k => lo (M k i) (L k) (H k))) (h i) /\ cmp b (l i) (Rsum 3 (fun k => hi (M k i) (L k) (H k))).
Hypothesis Fy : forall k, (k < 3)%nat -> cmp b (Rsum 3 (fun i => lo (M k i) (l i) (h i))) (H k) /\ cmp b (L k) (Rsum 3 (fun i => hi (M k i) (l i) (h i))).

Definition goal3 (x : pt) : Prop := (forall i, (i < 3)%nat -> cmp b (l i) (x i) /\ cmp b (x i) (h i)) /\ forall k, (k < 3)%nat -> cmp b (L k) (mapply 3 M x k) /\ cmp b (mapply 3 M x k) (H k).

(** The axis of row i and coordinate axis j is zero: they are parallel. *)
Definition par (i j : nat) : Prop := M i (next3 j) = 0 /\ M i (next3 (next3 j)) = 0.
(** Its components. *)
Definition wax (i j : nat) : pt := fun k => if (k =? next3 j)%nat then - M i (next3 (next3 j)) else if (k =? next3 (next3 j))%nat then M i (next3 j) else 0.

Lemma sum_cyc f j : (j < 3)%nat -> Rsum 3 f = f j + f (next3 j) + f (next3 (next3 j)).
Proof. intros Hj. destruct j as [|[|[|j]]]; [| | |lia]; cbn; ring. Qed.
Lemma next_lt j : (next3 j < 3)%nat. Proof. destruct j as [|[|j]]; cbn; lia. Qed.
Lemma cyc_cases j k : (j < 3)%nat -> (k < 3)%nat -> k = j \/ k = next3 j \/ k = next3 (next3 j).
Proof. intros. destruct j as [|[|[|j]]], k as [|[|[|k]]]; cbn; lia. Qed.
Lemma cyc_ne j : (j < 3)%nat -> j <> next3 j /\ j <> next3 (next3 j) /\ next3 j <> next3 (next3 j).
Proof. intros. destruct j as [|[|[|j]]]; cbn; lia. Qed.
Lemma lo_0 a c : lo 0 a c = 0. Proof. unfold lo. destruct (Rle_dec 0 0); ring. Qed.
Lemma hi_0 a c : hi 0 a c = 0. Proof. unfold hi. destruct (Rle_dec 0 0); ring. Qed.
Lemma orth_rows i k : (i < 3)%nat -> (k < 3)%nat -> Rsum 3 (fun j => M i j * M k j) = if (i =? k)%nat then 1 else 0.
Proof. intros Hi Hk. exact (O i k Hi Hk). Qed.
Lemma orth_cols i k : (i < 3)%nat -> (k < 3)%nat -> Rsum 3 (fun j => M j i * M j k) = if (i =? k)%nat then 1 else 0.
Proof. intros Hi Hk. exact (orthogonal_cols 3 M O i k Hi Hk). Qed.

(** Parallel edges: the plane across them and the line along them are independent. *)
Lemma par_block i j : (i < 3)%nat -> (j < 3)%nat -> par i j -> M i j * M i j = 1 /\ M (next3 i) j = 0 /\ M (next3 (next3 i)) j = 0.
Proof.
  intros Hi Hj [P1 P2]. pose proof (orth_rows i i Hi Hi) as A. rewrite (sum_cyc _ j Hj), Nat.eqb_refl, P1, P2 in A.
  pose proof (orth_cols j j Hj Hj) as B. rewrite (sum_cyc _ i Hi), Nat.eqb_refl in B. split; [lra|].
  assert (Z : M (next3 i) j * M (next3 i) j + M (next3 (next3 i)) j * M (next3 (next3 i)) j = 0) by lra.
  split; nra.
Qed.
Lemma sat_plane i j : (i < 3)%nat -> (j < 3)%nat -> par i j -> exists x1 x2,
  (cmp b (l (next3 j)) x1 /\ cmp b x1 (h (next3 j))) /\ (cmp b (l (next3 (next3 j))) x2 /\ cmp b x2 (h (next3 (next3 j)))) /\
  forall k, k = next3 i \/ k = next3 (next3 i) -> cmp b (L k) (M k (next3 j) * x1 + M k (next3 (next3 j)) * x2) /\ cmp b (M k (next3 j) * x1 + M k (next3 (next3 j)) * x2) (H k).
Proof.
  intros Hi Hj P. destruct (par_block i j Hi Hj P) as (_ & Z1 & Z2). destruct P as [P1 P2].
  set (a := fun q => match q with 0%nat => next3 i | _ => next3 (next3 i) end). set (c := fun q => match q with 0%nat => next3 j | _ => next3 (next3 j) end).
  assert (La : forall q, (a q < 3)%nat) by (intros [|q]; apply next_lt). assert (Lc : forall q, (c q < 3)%nat) by (intros [|q]; apply next_lt).
  assert (Za : forall q, M (a q) j = 0) by (intros [|q]; auto). assert (Zc : forall q, M i (c q) = 0) by (intros [|q]; auto).
  destruct (cyc_ne i Hi) as (_ & _ & Na). destruct (cyc_ne j Hj) as (_ & _ & Nc).
  destruct (sat2 b (fun q s => M (a q) (c s)) (fun s => l (c s)) (fun s => h (c s)) (fun q => L (a q)) (fun q => H (a q))) as (x & X & Y).
  - intros q s Hq Hs. unfold mmul, mtr. cbn [Rsum]. pose proof (orth_rows (a q) (a s) (La q) (La s)) as E. rewrite (sum_cyc _ j Hj), !Za in E. unfold delta.
    replace (Nat.eqb q s) with (Nat.eqb (a q) (a s)); [unfold c; lra|]. destruct q as [|[|q]], s as [|[|s]]; try lia; unfold a; rewrite ?Nat.eqb_refl; auto; apply Nat.eqb_neq; auto.
  - auto.
  - auto.
  - intros s Hs. destruct (Fx (c s) (Lc s)) as [A B]. rewrite (sum_cyc _ i Hi), !Zc, ?lo_0, ?hi_0 in A. rewrite (sum_cyc _ i Hi), !Zc, ?lo_0, ?hi_0 in B. cbn [Rsum]. unfold a. split; [apply (cmp_lin b _ _ _ _ A)|apply (cmp_lin b _ _ _ _ B)]; lra.
  - intros q Hq. destruct (Fy (a q) (La q)) as [A B]. rewrite (sum_cyc _ j Hj), !Za, ?lo_0, ?hi_0 in A. rewrite (sum_cyc _ j Hj), !Za, ?lo_0, ?hi_0 in B. cbn [Rsum]. unfold c. split; [apply (cmp_lin b _ _ _ _ A)|apply (cmp_lin b _ _ _ _ B)]; lra.
  - exists (x 0%nat), (x 1%nat). split; [apply (X 0%nat); lia|]. split; [apply (X 1%nat); lia|].
    intros k [->| ->]; [destruct (Y 0%nat ltac:(lia)) as [A B]|destruct (Y 1%nat ltac:(lia)) as [A B]]; unfold mapply in A, B; cbn [Rsum a c] in A, B; split; [apply (cmp_lin b _ _ _ _ A)|apply (cmp_lin b _ _ _ _ B)|apply (cmp_lin b _ _ _ _ A)|apply (cmp_lin b _ _ _ _ B)]; lra.
Qed.
Definition put3 (j : nat) (x0 x1 x2 : R) : pt := fun k => if (k =? j)%nat then x0 else if (k =? next3 j)%nat then x1 else x2.
Lemma put3_0 j x0 x1 x2 : put3 j x0 x1 x2 j = x0. Proof. unfold put3. now rewrite Nat.eqb_refl. Qed.
Lemma put3_1 j x0 x1 x2 : (j < 3)%nat -> put3 j x0 x1 x2 (next3 j) = x1.
Proof. intros Hj. destruct (cyc_ne j Hj) as (A & B & C). unfold put3. destruct (Nat.eqb_spec (next3 j) j); [congruence|]. now rewrite Nat.eqb_refl. Qed.
Lemma put3_2 j x0 x1 x2 : (j < 3)%nat -> put3 j x0 x1 x2 (next3 (next3 j)) = x2.
Proof. intros Hj. destruct (cyc_ne j Hj) as (A & B & C). unfold put3. destruct (Nat.eqb_spec (next3 (next3 j)) j); [congruence|]. destruct (Nat.eqb_spec (next3 (next3 j)) (next3 j)); [congruence|auto]. Qed.
Lemma mapply3 x k j : (j < 3)%nat -> mapply 3 M x k = M k j * x j + M k (next3 j) * x (next3 j) + M k (next3 (next3 j)) * x (next3 (next3 j)).
Proof. intros Hj. unfold mapply. now rewrite (sum_cyc _ j Hj). Qed.
Lemma sat3_parallel i j : (i < 3)%nat -> (j < 3)%nat -> par i j -> exists x, goal3 x.
Proof.
  intros Hi Hj P. destruct (sat_plane i j Hi Hj P) as (x1 & x2 & X1 & X2 & Y). destruct (par_block i j Hi Hj P) as (N & Z1 & Z2). destruct P as [P1 P2].
  assert (X0 : exists x0, cmp b (l j) x0 /\ cmp b x0 (h j) /\ cmp b (L i) (M i j * x0) /\ cmp b (M i j * x0) (H i)).
  { destruct (Fx j Hj) as [A B]. rewrite (sum_cyc _ i Hi), Z1, Z2, ?lo_0, ?hi_0 in A. rewrite (sum_cyc _ i Hi), Z1, Z2, ?lo_0, ?hi_0 in B. pose proof (By i Hi) as C. pose proof (Bx j Hj) as D.
    assert (E : M i j = 1 \/ M i j = -1). { assert (Z : (M i j - 1) * (M i j + 1) = 0) by lra. apply Rmult_integral in Z. destruct Z; [left|right]; lra. }
    unfold lo, hi in A, B. destruct E as [E|E]; rewrite E in *; kill_dec.
    - destruct (between b (L i :: nil) (H i :: nil) (l j) (h j)) as (x0 & S & T). { intros x y [<-|[<-|[]]] [<-|[<-|[]]]; by_cmp b. }
      pose proof (S _ (or_introl eq_refl)). pose proof (S _ (or_intror (or_introl eq_refl))). pose proof (T _ (or_introl eq_refl)). pose proof (T _ (or_intror (or_introl eq_refl))). exists x0. repeat split; by_cmp b.
    - destruct (between b (- H i :: nil) (- L i :: nil) (l j) (h j)) as (x0 & S & T). { intros x y [<-|[<-|[]]] [<-|[<-|[]]]; by_cmp b. }
      pose proof (S _ (or_introl eq_refl)). pose proof (S _ (or_intror (or_introl eq_refl))). pose proof (T _ (or_introl eq_refl)). pose proof (T _ (or_intror (or_introl eq_refl))). exists x0. repeat split; by_cmp b. }
  destruct X0 as (x0 & A1 & A2 & A3 & A4). exists (put3 j x0 x1 x2). split.
  - intros q Hq. destruct (cyc_cases j q Hj Hq) as [->|[->| ->]]; rewrite ?put3_0, ?put3_1, ?put3_2 by auto; auto.
  - intros k Hk. rewrite (mapply3 _ k j Hj), put3_0, put3_1, put3_2 by auto. destruct (cyc_cases i k Hi Hk) as [->|Hk'].
    + rewrite P1, P2. split; [apply (cmp_lin b _ _ _ _ A3)|apply (cmp_lin b _ _ _ _ A4)]; lra.
    + destruct (Y k Hk') as [B1 B2]. assert (Z : M k j = 0) by (destruct Hk' as [->| ->]; auto). rewrite Z. split; [apply (cmp_lin b _ _ _ _ B1)|apply (cmp_lin b _ _ _ _ B2)]; lra.
Qed.

(** The nine edge axes. *)
Definition axis_ok (i j : nat) : Prop :=
  cmp b (Rsum 3 (fun k => lo (Rsum 3 (fun q => M k q * wax i j q)) (L k) (H k))) (Rsum 3 (fun q => hi (wax i j q) (l q) (h q))) /\
  cmp b (Rsum 3 (fun q => lo (wax i j q) (l q) (h q))) (Rsum 3 (fun k => hi (Rsum 3 (fun q => M k q * wax i j q)) (L k) (H k))).
Lemma wax_0 i j : (j < 3)%nat -> wax i j j = 0.
Proof. intros Hj. destruct (cyc_ne j Hj) as (A & B & C). unfold wax. destruct (Nat.eqb_spec j (next3 j)); [congruence|]. destruct (Nat.eqb_spec j (next3 (next3 j))); [congruence|auto]. Qed.
Lemma wax_1 i j : wax i j (next3 j) = - M i (next3 (next3 j)). Proof. unfold wax. now rewrite Nat.eqb_refl. Qed.
Lemma wax_2 i j : (j < 3)%nat -> wax i j (next3 (next3 j)) = M i (next3 j).
Proof. intros Hj. destruct (cyc_ne j Hj) as (A & B & C). unfold wax. destruct (Nat.eqb_spec (next3 (next3 j)) (next3 j)); [congruence|]. now rewrite Nat.eqb_refl. Qed.
Lemma wax_self i j : (j < 3)%nat -> Rsum 3 (fun q => M i q * wax i j q) = 0.
Proof. intros Hj. rewrite (sum_cyc _ j Hj), wax_0, wax_1, wax_2 by auto. ring. Qed.
Lemma wax_proj i j : (i < 3)%nat -> (j < 3)%nat -> ~ par i j -> exists k, (k < 3)%nat /\ Rsum 3 (fun q => M k q * wax i j q) <> 0.
Proof.
  intros Hi Hj P. apply not_all_ex_not_below. intros A. apply P.
  assert (W : forall q, (q < 3)%nat -> wax i j q = 0).
  { intros q Hq. assert (E : mapply 3 (mtr M) (mapply 3 M (wax i j)) q = wax i j q).
    - rewrite <- mapply_mmul. rewrite (mapply_ext 3 _ delta (wax i j) (wax i j) q Hq (orthogonal_cols 3 M O)) by auto. now apply mapply_delta.
    - rewrite <- E. unfold mapply at 1. apply Rsum_zero. intros k Hk. unfold mapply. rewrite (A k Hk). ring. }
  pose proof (W (next3 j) (next_lt j)) as W1. pose proof (W (next3 (next3 j)) (next_lt _)) as W2. rewrite wax_1 in W1. rewrite wax_2 in W2 by auto. split; lra.
Qed.
(** Four slabs: two of each box, given the axis across the other two. *)
Lemma four_mixed i j : (i < 3)%nat -> (j < 3)%nat -> axis_ok i j -> exists x,
  (forall q, (q < 3)%nat -> q <> j -> cmp b (l q) (x q) /\ cmp b (x q) (h q)) /\ forall k, (k < 3)%nat -> k <> i -> cmp b (L k) (mapply 3 M x k) /\ cmp b (mapply 3 M x k) (H k).
Proof.
  intros Hi Hj A.
  assert (D : par i j \/ ~ par i j). { unfold par. destruct (Req_dec (M i (next3 j)) 0), (Req_dec (M i (next3 (next3 j))) 0); tauto. }
  destruct D as [P|P].
  - destruct (sat3_parallel i j Hi Hj P) as (x & X & Y). exists x. split; intros; auto.
  - destruct A as [A1 A2].
    assert (W : exists q, (q < 3)%nat /\ wax i j q <> 0).
    { apply not_all_ex_not_below. intros Z. apply P. pose proof (Z (next3 j) (next_lt j)) as W1. pose proof (Z (next3 (next3 j)) (next_lt _)) as W2. rewrite wax_1 in W1. rewrite wax_2 in W2 by auto. split; lra. }
    destruct W as (q0 & Hq0 & Wq0). destruct (wax_proj i j Hi Hj P) as (k0 & Hk0 & Wk0).
    pose proof (lo_hi_sum b 3 (wax i j) l h q0 Bx Hq0 Wq0) as B1. pose proof (lo_hi_sum b 3 (fun k => Rsum 3 (fun q => M k q * wax i j q)) L H k0 By Hk0 Wk0) as B2. cbn beta in B2.
    destruct (between b (Rsum 3 (fun k => lo (Rsum 3 (fun q => M k q * wax i j q)) (L k) (H k)) :: nil) (Rsum 3 (fun k => hi (Rsum 3 (fun q => M k q * wax i j q)) (L k) (H k)) :: nil) (Rsum 3 (fun q => lo (wax i j q) (l q) (h q))) (Rsum 3 (fun q => hi (wax i j q) (l q) (h q)))) as (s & S & T).
    { intros x y [<-|[<-|[]]] [<-|[<-|[]]]; auto. }
    pose proof (S _ (or_introl eq_refl)) as S1. pose proof (S _ (or_intror (or_introl eq_refl))) as S2. pose proof (T _ (or_introl eq_refl)) as T1. pose proof (T _ (or_intror (or_introl eq_refl))) as T2.
    destruct (attain b 3 (wax i j) l h s Bx S1 T1) as (x & X & Ex). destruct (attain b 3 (fun k => Rsum 3 (fun q => M k q * wax i j q)) L H s By S2 T2) as (y & Y & Ey). cbn beta in Ey.
    clear S T S1 S2 T1 T2 B1 B2 A1 A2 q0 Hq0 Wq0 k0 Hk0 Wk0.
    set (k2 := next3 (next3 i)) in *. set (k1 := next3 i) in *. set (j2 := next3 (next3 j)) in *. set (j1 := next3 j) in *.
    set (p := fun q => y k1 * M k1 q + y k2 * M k2 q).
    set (d1 := x j1 - p j1). set (d2 := x j2 - p j2). set (u1 := M i j1). set (u2 := M i j2).
    assert (N : 0 < u1 * u1 + u2 * u2). { unfold par in P. fold j2 j1 u1 u2 in P. pose proof (Rle_0_sqr u1) as Q1. pose proof (Rle_0_sqr u2) as Q2. destruct (Req_dec u1 0) as [Z1|Z1]; [destruct (Req_dec u2 0) as [Z2|Z2]; [tauto|pose proof (Rsqr_pos_lt _ Z2)]|pose proof (Rsqr_pos_lt _ Z1)]; unfold Rsqr in *; lra. }
    assert (K : u1 * d2 = u2 * d1).
    { rewrite (sum_cyc _ i Hi) in Ey. rewrite (wax_self i j Hj) in Ey. fold k2 k1 in Ey. rewrite !(sum_cyc _ j Hj) in Ey. rewrite (sum_cyc _ j Hj) in Ex. fold j2 j1 in Ex, Ey.
      rewrite (wax_0 i j Hj) in Ex, Ey. unfold j1, j2 in Ex, Ey. rewrite wax_1, (wax_2 i j Hj) in Ex, Ey. unfold d1, d2, p, u1, u2, j2, j1, k2, k1 in *. lra. }
    set (z := (u1 * d1 + u2 * d2) / (u1 * u1 + u2 * u2)).
    assert (E1 : z * u1 = d1). { unfold z. replace ((u1 * d1 + u2 * d2) / (u1 * u1 + u2 * u2) * u1) with ((u1 * u1 * d1 + u2 * (u1 * d2)) / (u1 * u1 + u2 * u2)) by (field; lra). rewrite K. field. lra. }
    assert (E2 : z * u2 = d2). { unfold z. replace ((u1 * d1 + u2 * d2) / (u1 * u1 + u2 * u2) * u2) with ((u1 * (u2 * d1) + u2 * u2 * d2) / (u1 * u1 + u2 * u2)) by (field; lra). rewrite <- K. field. lra. }
    exists (fun q => p q + z * M i q). split.
    + intros q Hq Nq. destruct (cyc_cases j q Hj Hq) as [->|[->| ->]]; [congruence| |]; fold j2 j1.
      * assert (Q : p j1 + z * u1 = x j1) by (rewrite E1; unfold d1; ring). change (cmp b (l j1) (p j1 + z * u1) /\ cmp b (p j1 + z * u1) (h j1)). rewrite Q. apply X. apply next_lt.
      * assert (Q : p j2 + z * u2 = x j2) by (rewrite E2; unfold d2; ring). change (cmp b (l j2) (p j2 + z * u2) /\ cmp b (p j2 + z * u2) (h j2)). rewrite Q. apply X. apply next_lt.
    + intros k Hk Nk.
      assert (E : mapply 3 M (fun q => p q + z * M i q) k = y k1 * Rsum 3 (fun q => M k q * M k1 q) + y k2 * Rsum 3 (fun q => M k q * M k2 q) + z * Rsum 3 (fun q => M k q * M i q)).
      { unfold mapply, p. cbn [Rsum]. ring. }
      destruct (cyc_ne i Hi) as (C1 & C2 & C3). fold k2 k1 in C1, C2, C3.
      assert (Lk1 : (k1 < 3)%nat) by apply next_lt. assert (Lk2 : (k2 < 3)%nat) by apply next_lt.
      assert (Cc : k = i \/ k = k1 \/ k = k2) by exact (cyc_cases i k Hi Hk). assert (C1' : i <> k1) by exact C1. assert (C2' : i <> k2) by exact C2. assert (C3' : k1 <> k2) by exact C3.
      rewrite E. rewrite (orth_rows k k1 Hk Lk1), (orth_rows k k2 Hk Lk2), (orth_rows k i Hk Hi).
      clearbody k1 k2. clear C1 C2 C3. destruct Cc as [->|[->| ->]]; [congruence| |].
      * rewrite Nat.eqb_refl. destruct (Nat.eqb_spec k1 k2); [congruence|]. destruct (Nat.eqb_spec k1 i); [congruence|]. replace (y k1 * 1 + y k2 * 0 + z * 0) with (y k1) by ring. now apply Y.
      * rewrite Nat.eqb_refl. destruct (Nat.eqb_spec k2 k1); [congruence|]. destruct (Nat.eqb_spec k2 i); [congruence|]. replace (y k1 * 0 + y k2 * 1 + z * 0) with (y k2) by ring. now apply Y.
Qed.
(** Four slabs: three of one box, one of the other. *)
Lemma four_x i : (i < 3)%nat -> exists x, (cmp b (l i) (x i) /\ cmp b (x i) (h i)) /\ forall k, (k < 3)%nat -> cmp b (L k) (mapply 3 M x k) /\ cmp b (mapply 3 M x k) (H k).
Proof.
  intros Hi. destruct (orth_col 3 M i O Hi) as (k0 & Hk0 & N). destruct (Fx i Hi) as [A B].
  destruct (attain_in b 3 (fun k => M k i) L H (l i) (h i) k0 By Hk0 N (Bx i Hi) A B) as (y & Y & E). exists (mapply 3 (mtr M) y). split.
  - exact E.
  - intros k Hk. replace (mapply 3 M (mapply 3 (mtr M) y) k) with (y k); [now apply Y|].
    rewrite <- mapply_mmul. rewrite (mapply_ext 3 _ delta y y k Hk O) by auto. symmetry. now apply mapply_delta.
Qed.
Lemma four_y k : (k < 3)%nat -> exists x, (forall i, (i < 3)%nat -> cmp b (l i) (x i) /\ cmp b (x i) (h i)) /\ cmp b (L k) (mapply 3 M x k) /\ cmp b (mapply 3 M x k) (H k).
Proof.
  intros Hk. destruct (orth_row 3 M k O Hk) as (i0 & Hi0 & N). destruct (Fy k Hk) as [A B].
  destruct (attain_in b 3 (M k) l h (L k) (H k) i0 Bx Hi0 N (By k Hk) A B) as (x & X & E). exists x. split; auto.
Qed.
Lemma sat3 : (forall i j, (i < 3)%nat -> (j < 3)%nat -> axis_ok i j) -> exists x, goal3 x.
Proof.
  intros Ax.
  set (C := fun j => if (j <? 3)%nat then slab 3 b (delta j) (l j) (h j) else slab 3 b (M (j - 3)%nat) (L (j - 3)%nat) (H (j - 3)%nat)).
  assert (Cx : forall j x, (j < 3)%nat -> (C j x <-> cmp b (l j) (x j) /\ cmp b (x j) (h j))).
  { intros j x Hj. unfold C. destruct (Nat.ltb_spec j 3); [|lia]. unfold slab. now rewrite Rsum_delta_l. }
  assert (Cy : forall k x, C (3 + k)%nat x <-> cmp b (L k) (mapply 3 M x k) /\ cmp b (mapply 3 M x k) (H k)).
  { intros k x. unfold C. destruct (Nat.ltb_spec (3 + k) 3); [lia|]. replace (3 + k - 3)%nat with k by lia. reflexivity. }
  destruct (helly6 C) as (x & X).
  - intros j Hj. unfold C. destruct (Nat.ltb_spec j 3); split; auto using slab_convex, slab_stable.
  - assert (Q : forall a c, (a < 6)%nat -> (c < 6)%nat -> (a < c)%nat -> exists x, forall j, (j < 6)%nat -> j <> a -> j <> c -> C j x).
    { intros a c Ha Hc Hac. destruct (lt_dec c 3) as [Lc|Lc]; [|destruct (lt_dec a 3) as [La|La]].
      - assert (I : exists i, (i < 3)%nat /\ i <> a /\ i <> c /\ forall j, (j < 3)%nat -> j <> a -> j <> c -> j = i).
        { destruct a as [|[|a]], c as [|[|[|c]]]; try lia; [exists 2%nat|exists 1%nat|exists 0%nat]; repeat split; intros; lia. }
        destruct I as (i & Hi & _ & _ & U). destruct (four_x i Hi) as (x & X & Y). exists x. intros j Hj Na Nc. destruct (lt_dec j 3) as [Lj|Lj].
        + apply Cx; auto. rewrite (U j Lj Na Nc). auto.
        + replace j with (3 + (j - 3))%nat by lia. apply Cy. apply Y. lia.
      - destruct (four_mixed (c - 3) a) as (x & X & Y); [lia|lia|apply Ax; lia|]. exists x. intros j Hj Na Nc. destruct (lt_dec j 3) as [Lj|Lj].
        + apply Cx; auto.
        + replace j with (3 + (j - 3))%nat by lia. apply Cy. apply Y; lia.
      - assert (I : exists k, (k < 3)%nat /\ forall j, (j < 3)%nat -> (3 + j <> a)%nat -> (3 + j <> c)%nat -> j = k).
        { destruct a as [|[|[|[|[|a]]]]], c as [|[|[|[|[|[|c]]]]]]; try lia; [exists 2%nat|exists 1%nat|exists 0%nat]; repeat split; intros; lia. }
        destruct I as (k & Hk & U). destruct (four_y k Hk) as (x & X & Y). exists x. intros j Hj Na Nc. destruct (lt_dec j 3) as [Lj|Lj].
        + apply Cx; auto.
        + replace j with (3 + (j - 3))%nat by lia. apply Cy. rewrite (U (j - 3)%nat); auto; lia. }
    intros a c Ha Hc N. destruct (lt_dec a c) as [Lt|Ge]; [now apply Q|]. destruct (Q c a Hc Ha) as (x & X); [lia|]. exists x. intros j Hj Na Nc. now apply X.
  - exists x. split; [intros i Hi; apply Cx; auto; apply X; lia|]. intros k Hk. apply Cy. apply X. lia.
Qed.
End Sat3.
