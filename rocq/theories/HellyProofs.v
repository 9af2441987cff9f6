(** Convex sets: linear dependence, Radon's and Helly's theorems, slabs. *)
From Coq Require Import Reals Bool List Lia Lra Psatz Arith.
From Verif Require Import RSpec VecSpec ShapeSpec RLib SatProofs.
Open Scope R_scope.

(** ** Leaving out one index *)
Definition sk (p i : nat) : nat := if (i <? p)%nat then i else S i.
Lemma sk_neq p i : sk p i <> p. Proof. unfold sk. destruct (Nat.ltb_spec i p); lia. Qed.
Lemma sk_lt p i m : (i < m)%nat -> (sk p i < S m)%nat. Proof. unfold sk. destruct (Nat.ltb_spec i p); lia. Qed.
Lemma sk_inj p i j : sk p i = sk p j -> i = j. Proof. unfold sk. destruct (Nat.ltb_spec i p), (Nat.ltb_spec j p); lia. Qed.
Lemma sk_onto p m j : (p <= m)%nat -> (j < S m)%nat -> j <> p -> exists i, (i < m)%nat /\ sk p i = j.
Proof.
  intros Hp Hj Ne. destruct (lt_dec j p); [exists j|exists (pred j)]; unfold sk.
  - split; [lia|]. destruct (Nat.ltb_spec j p); lia.
  - split; [lia|]. destruct (Nat.ltb_spec (pred j) p); lia.
Qed.
Lemma Rsum_skip p m f : (p <= m)%nat -> Rsum (S m) f = f p + Rsum m (fun i => f (sk p i)).
Proof.
  induction m as [|m IH]; intros Hp.
  - replace p with 0%nat by lia. cbn. ring.
  - destruct (Nat.eq_dec p (S m)) as [->|Ne].
    + change (Rsum (S (S m)) f) with (Rsum (S m) f + f (S m)). rewrite Rplus_comm. f_equal. apply Rsum_ext. intros i Hi. unfold sk. destruct (Nat.ltb_spec i (S m)); [auto|lia].
    + change (Rsum (S (S m)) f) with (Rsum (S m) f + f (S m)). rewrite IH by lia. change (Rsum (S m) (fun i => f (sk p i))) with (Rsum m (fun i => f (sk p i)) + f (sk p m)).
      replace (sk p m) with (S m); [ring|]. unfold sk. destruct (Nat.ltb_spec m p); lia.
Qed.
Definition unsk (p : nat) (a : R) (u : nat -> R) (j : nat) : R := if (j =? p)%nat then a else if (j <? p)%nat then u j else u (pred j).
Lemma unsk_sk p a u i : unsk p a u (sk p i) = u i.
Proof. unfold unsk, sk. destruct (Nat.ltb_spec i p). - destruct (Nat.eqb_spec i p); [lia|]. destruct (Nat.ltb_spec i p); [auto|lia]. - destruct (Nat.eqb_spec (S i) p); [lia|]. destruct (Nat.ltb_spec (S i) p); [lia|auto]. Qed.
Lemma unsk_p p a u : unsk p a u p = a. Proof. unfold unsk. now rewrite Nat.eqb_refl. Qed.

(** More vectors than coordinates are linearly dependent. *)
Lemma dependent d : forall m (v : nat -> pt), (d < m)%nat ->
  exists w : pt, (exists i, (i < m)%nat /\ w i <> 0) /\ forall c, (c < d)%nat -> Rsum m (fun i => w i * v i c) = 0.
Proof.
  induction d as [|d IH]; intros m v Hm.
  - exists (fun _ => 1). split; [exists 0%nat; split; [lia|lra]|]. intros c Hc; lia.
  - assert (D : (exists p, (p < m)%nat /\ v p d <> 0) \/ forall p, (p < m)%nat -> v p d = 0).
    { clear. induction m as [|m IH]; [right; intros; lia|]. destruct IH as [(p & Hp & N)|Z]; [left; exists p; auto|].
      destruct (Req_dec (v m d) 0); [right|left; exists m; auto]. intros p Hp. destruct (Nat.eq_dec p m) as [->|]; auto. apply Z. lia. }
    destruct D as [(p & Hp & N)|Z].
    + destruct m as [|m]; [lia|]. destruct (IH m (fun i c => v (sk p i) c - v (sk p i) d / v p d * v p c)) as (u & (i & Hi & Ui) & U); [lia|].
      exists (unsk p (- Rsum m (fun i => u i * v (sk p i) d) / v p d) u). split.
      * exists (sk p i). split; [now apply sk_lt|]. now rewrite unsk_sk.
      * intros c Hc. rewrite (Rsum_skip p) by lia. rewrite unsk_p. set (u' := unsk p _ u). rewrite (Rsum_ext m (fun i => u' (sk p i) * v (sk p i) c) (fun i => u i * v (sk p i) c)) by (intros; unfold u'; now rewrite unsk_sk). clear u'.
        destruct (Nat.eq_dec c d) as [->|Ne]; [field; auto|].
        specialize (U c ltac:(lia)). cbn beta in U. rewrite (Rsum_ext m _ (fun i => u i * v (sk p i) c + u i * v (sk p i) d * (- v p c / v p d))) in U by (intros; field; auto).
        rewrite Rsum_plus, Rsum_scal_r in U. lra.
    + destruct (IH m v) as (u & Nz & U); [lia|]. exists u. split; auto. intros c Hc. destruct (Nat.eq_dec c d) as [->|Ne]; [|apply U; lia].
      apply Rsum_zero. intros i Hi. rewrite (Z i Hi). ring.
Qed.

(** ** Helly's theorem for d + 2 sets *)
Definition convex (C : pt -> Prop) : Prop := forall m (w : pt) (p : nat -> pt), (forall i, (i < m)%nat -> 0 <= w i) -> Rsum m w = 1 ->
  (forall i, (i < m)%nat -> 0 < w i -> C (p i)) -> C (fun c => Rsum m (fun i => w i * p i c)).
Definition stable (d : nat) (C : pt -> Prop) : Prop := forall x y, pteq d x y -> C x -> C y.

Lemma Rsum_pos n f k : (forall i, (i < n)%nat -> 0 <= f i) -> (k < n)%nat -> 0 < f k -> 0 < Rsum n f.
Proof.
  revert k. induction n as [|n IH]; intros k A Hk B; [lia|]. cbn [Rsum]. destruct (Nat.eq_dec k n) as [->|Ne].
  - assert (0 <= Rsum n f). { rewrite <- (Rsum_zero n (fun _ => 0)) by auto. apply Rsum_le. intros; apply A; lia. } lra.
  - assert (0 < Rsum n f) by (apply (IH k); auto; lia). specialize (A n ltac:(lia)). lra.
Qed.
Lemma helly d (C : nat -> pt -> Prop) (p : nat -> pt) : (forall j, (j < S (S d))%nat -> convex (C j) /\ stable d (C j)) ->
  (forall i j, (i < S (S d))%nat -> (j < S (S d))%nat -> i <> j -> C j (p i)) -> exists x, forall j, (j < S (S d))%nat -> C j x.
Proof.
  intros Cv In. set (N := S (S d)) in *.
  destruct (dependent (S d) N (fun i c => if (c <? d)%nat then p i c else 1)) as (w & (i0 & Hi0 & Wi0) & W); [unfold N; lia|].
  assert (W1 : Rsum N w = 0). { specialize (W d ltac:(lia)). rewrite <- W. apply Rsum_ext. intros. rewrite Nat.ltb_irrefl. ring. }
  assert (Wp : forall c, (c < d)%nat -> Rsum N (fun i => w i * p i c) = 0). { intros c Hc. rewrite <- (W c ltac:(lia)). apply Rsum_ext. intros. destruct (Nat.ltb_spec c d); [auto|lia]. }
  set (wp := fun i => Rmax (w i) 0). set (wn := fun i => Rmax (- w i) 0).
  assert (Pp : forall i, (i < N)%nat -> 0 <= wp i) by (intros; apply Rmax_r). assert (Pn : forall i, (i < N)%nat -> 0 <= wn i) by (intros; apply Rmax_r).
  assert (Df : forall i, wp i = wn i + w i) by (intros i; unfold wp, wn, Rmax; destruct (Rle_dec (w i) 0), (Rle_dec (- w i) 0); lra).
  assert (Eq : Rsum N wp = Rsum N wn). { rewrite (Rsum_ext N wp (fun i => wn i + w i)) by auto. rewrite Rsum_plus. lra. }
  assert (P : 0 < Rsum N wp).
  { destruct (Rlt_dec 0 (w i0)) as [L|L].
    - apply (Rsum_pos N wp i0); auto. unfold wp. apply Rlt_le_trans with (w i0); [auto|apply Rmax_l].
    - rewrite Eq. apply (Rsum_pos N wn i0); auto. unfold wn. apply Rlt_le_trans with (- w i0); [lra|apply Rmax_l]. }
  set (P0 := Rsum N wp) in *.
  assert (Ip : 0 < / P0) by now apply Rinv_0_lt_compat.
  assert (Xn : pteq d (fun c => Rsum N (fun i => wn i * / P0 * p i c)) (fun c => Rsum N (fun i => wp i * / P0 * p i c))).
  { intros c Hc. cbn beta. rewrite (Rsum_ext N (fun i => wp i * / P0 * p i c) (fun i => wn i * / P0 * p i c + w i * p i c * / P0)) by (intros; rewrite Df; ring).
    rewrite Rsum_plus, Rsum_scal_r, Wp by auto. ring. }
  exists (fun c => Rsum N (fun i => wp i * / P0 * p i c)). intros j Hj. destruct (Cv j Hj) as [Cj St]. destruct (Rlt_dec 0 (w j)) as [L|L].
  - apply (St _ _ Xn). apply Cj.
    + intros i Hi. apply Rmult_le_pos; [auto|lra].
    + rewrite Rsum_scal_r, <- Eq. field. lra.
    + intros i Hi Wi. apply In; auto. intros ->. unfold wn in Wi. rewrite Rmax_right in Wi by lra. lra.
  - apply Cj.
    + intros i Hi. apply Rmult_le_pos; [auto|lra].
    + rewrite Rsum_scal_r. fold P0. field. lra.
    + intros i Hi Wi. apply In; auto. intros ->. unfold wp in Wi. rewrite Rmax_right in Wi by lra. lra.
Qed.

(** ** Slabs *)
Definition slab (n : nat) (b : bool) (a : pt) (lw up : R) (x : pt) : Prop := cmp b lw (Rsum n (fun i => a i * x i)) /\ cmp b (Rsum n (fun i => a i * x i)) up.
Lemma slab_stable n b a lw up : stable n (slab n b a lw up).
Proof. intros x y E [A B]. unfold slab. rewrite (Rsum_ext n (fun i => a i * y i) (fun i => a i * x i)) by (intros i Hi; now rewrite (E i Hi)). auto. Qed.
Lemma average b m w f v : (forall i, (i < m)%nat -> 0 <= w i) -> Rsum m w = 1 -> (forall i, (i < m)%nat -> 0 < w i -> cmp b v (f i)) -> cmp b v (Rsum m (fun i => w i * f i)).
Proof.
  intros P S C. assert (E : Rsum m (fun i => w i * f i) = v + Rsum m (fun i => w i * (f i - v))).
  { rewrite (Rsum_ext m (fun i => w i * (f i - v)) (fun i => w i * f i + w i * (- v))) by (intros; ring). rewrite Rsum_plus, Rsum_scal_r, S. ring. }
  assert (Z : forall i, (i < m)%nat -> 0 <= w i * (f i - v)).
  { intros i Hi. specialize (P i Hi). destruct (Req_dec (w i) 0) as [->|N]; [lra|]. apply Rmult_le_pos; auto. specialize (C i Hi ltac:(lra)). apply cmp_le in C. lra. }
  rewrite E. destruct b; cbn.
  - assert (K : exists k, (k < m)%nat /\ 0 < w k).
    { clear - P S. revert P S. induction m as [|m IH]; intros P S; [cbn in S; lra|]. destruct (Rlt_dec 0 (w m)); [exists m; auto|].
      destruct IH as (k & Hk & Wk); [intros; apply P; lia|cbn in S; specialize (P m ltac:(lia)); lra|]. exists k. auto. }
    destruct K as (k & Hk & Wk). assert (0 < Rsum m (fun i => w i * (f i - v))); [|lra]. apply (Rsum_pos m _ k); auto.
    apply Rmult_lt_0_compat; auto. specialize (C k Hk Wk). cbn in C. lra.
  - assert (0 <= Rsum m (fun i => w i * (f i - v))); [|lra]. rewrite <- (Rsum_zero m (fun _ => 0)) by auto. now apply Rsum_le.
Qed.
Lemma cmp_opp b x y : cmp b x y <-> cmp b (- y) (- x). Proof. destruct b; cbn; lra. Qed.
Lemma slab_convex n b a lw up : convex (slab n b a lw up).
Proof.
  intros m w p P S C. unfold slab.
  assert (E : Rsum n (fun i => a i * Rsum m (fun j => w j * p j i)) = Rsum m (fun j => w j * Rsum n (fun i => a i * p j i))).
  { rewrite (Rsum_ext n _ (fun i => Rsum m (fun j => a i * (w j * p j i)))) by (intros; now rewrite Rsum_scal_l). rewrite Rsum_swap. apply Rsum_ext. intros j Hj. rewrite <- Rsum_scal_l. apply Rsum_ext. intros; ring. }
  rewrite E. split.
  - apply average; auto. intros j Hj Wj. apply (C j Hj Wj).
  - apply (cmp_opp b). replace (- Rsum m (fun j => w j * Rsum n (fun i => a i * p j i))) with (Rsum m (fun j => w j * (- Rsum n (fun i => a i * p j i)))).
    + apply average; auto. intros j Hj Wj. apply (proj1 (cmp_opp b _ _)). apply (C j Hj Wj).
    + rewrite (Rsum_ext m _ (fun j => w j * Rsum n (fun i => a i * p j i) * (-1))) by (intros; ring). rewrite Rsum_scal_r. ring.
Qed.
Lemma convex_and A B : convex A -> convex B -> convex (fun x => A x /\ B x).
Proof. intros Ca Cb m w p P S C. split; [apply Ca|apply Cb]; auto; intros i Hi Wi; now apply C. Qed.

(** Six convex sets in space, any four of which meet. *)
Lemma helly6 (C : nat -> pt -> Prop) : (forall j, (j < 6)%nat -> convex (C j) /\ stable 3 (C j)) ->
  (forall a b, (a < 6)%nat -> (b < 6)%nat -> a <> b -> exists x, forall j, (j < 6)%nat -> j <> a -> j <> b -> C j x) ->
  exists x, forall j, (j < 6)%nat -> C j x.
Proof.
  intros Cv Q.
  assert (Q' : forall a, (a < 6)%nat -> exists x, forall j, (j < 6)%nat -> j <> a -> C j x).
  { intros a Ha. destruct (Q a (sk a 0) Ha) as (p0 & P0); [apply sk_lt; lia|intros E; symmetry in E; revert E; apply sk_neq|].
    destruct (Q a (sk a 1) Ha) as (p1 & P1); [apply sk_lt; lia|intros E; symmetry in E; revert E; apply sk_neq|].
    destruct (Q a (sk a 2) Ha) as (p2 & P2); [apply sk_lt; lia|intros E; symmetry in E; revert E; apply sk_neq|].
    destruct (Q a (sk a 3) Ha) as (p3 & P3); [apply sk_lt; lia|intros E; symmetry in E; revert E; apply sk_neq|].
    destruct (Q a (sk a 4) Ha) as (p4 & P4); [apply sk_lt; lia|intros E; symmetry in E; revert E; apply sk_neq|].
    destruct (helly 3 (fun j => C (sk a j)) (fun i => match i with 0%nat => p0 | 1%nat => p1 | 2%nat => p2 | 3%nat => p3 | _ => p4 end)) as (x & X).
    - intros j Hj. apply Cv. now apply sk_lt.
    - intros i j Hi Hj Ne. assert (E : sk a j <> sk a i) by (intros E; apply sk_inj in E; auto). pose proof (sk_neq a j). pose proof (sk_lt a j 5 Hj).
      destruct i as [|[|[|[|[|i]]]]]; [apply P0|apply P1|apply P2|apply P3|apply P4|lia]; auto.
    - exists x. intros j Hj Ne. destruct (sk_onto a 5 j) as (i & Hi & <-); [lia|lia|auto|]. now apply X. }
  destruct (Q' 0%nat) as (q0 & Q0); [lia|]. destruct (Q' 1%nat) as (q1 & Q1); [lia|]. destruct (Q' 2%nat) as (q2 & Q2); [lia|]. destruct (Q' 3%nat) as (q3 & Q3); [lia|]. destruct (Q' 4%nat) as (q4 & Q4); [lia|].
  destruct (helly 3 (fun j => match j with 4%nat => fun x => C 4%nat x /\ C 5%nat x | _ => C j end) (fun i => match i with 0%nat => q0 | 1%nat => q1 | 2%nat => q2 | 3%nat => q3 | _ => q4 end)) as (x & X).
  - intros j Hj. assert (D : j = 4%nat \/ (j < 4)%nat) by lia. destruct D as [->|D].
    + split; [apply convex_and; apply Cv; lia|]. intros x y E [A B]. split; [apply (proj2 (Cv 4%nat ltac:(lia)) x)|apply (proj2 (Cv 5%nat ltac:(lia)) x)]; auto.
    + destruct j as [|[|[|[|j]]]]; try lia; apply Cv; lia.
  - intros i j Hi Hj Ne. destruct i as [|[|[|[|[|i]]]]]; try lia; destruct j as [|[|[|[|[|j]]]]]; try lia; try split; first [apply Q0|apply Q1|apply Q2|apply Q3|apply Q4]; lia.
  - exists x. intros j Hj. destruct j as [|[|[|[|[|[|j]]]]]]; try lia; [apply (X 0%nat)|apply (X 1%nat)|apply (X 2%nat)|apply (X 3%nat)|apply (X 4%nat)|apply (X 4%nat)]; lia.
Qed.
